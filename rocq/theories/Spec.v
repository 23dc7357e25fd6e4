(** Specifications the theorems are stated with.  Nothing here refers to the parser, the
    printers or the accessors: only to texts and to the AST types. *)
From Verif Require Import Chars Ast.

(** * Texts *)
(** [r] is what remains of [i] after some prefix. *)
Definition is_suffix (r i : text) : Prop := exists p, i = p ++ r.
(** [w] occurs somewhere in [i]. *)
Definition occurs (w i : text) : Prop := exists a b, i = a ++ w ++ b.
(** [w] occurs in [i] in some mixture of upper and lower case. *)
Definition occurs_nc (w i : text) : Prop := exists a m b, i = a ++ m ++ b /\ upper m = upper w.
Definition white (t : text) : Prop := Forall (fun c => is_space c = true) t.

(** * Queries *)
(** The SELECTs of a query in textual order. *)
Definition components (q : qspec) : list sfw :=
  match q with QS _ i ad _ _ _ => i :: map (fun a => match a with Addon _ s => s end) ad end.
(** The UNION operators in textual order. *)
Definition operators (q : qspec) : list text :=
  match q with QS _ _ ad _ _ _ => map (fun a => match a with Addon o _ => o end) ad end.
Definition tables_of (s : sfw) : list tref := match s with SFW _ t _ => t end.
Definition where_of (s : sfw) : wherec := match s with SFW _ _ w => w end.
Definition select_of (s : sfw) : select := match s with SFW s _ _ => s end.

(** The list of components fits the [uint] counters of the accessors. *)
Definition countable_query (q : qspec) : Prop := (N.of_nat (length (components q)) < 2 ^ 32)%N.
