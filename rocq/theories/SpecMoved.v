(** Conditions put together with AND (property C39). *)
From Verif Require Import Query Print Spec.

(** The condition [a AND b], read from left to right. *)
Fixpoint sc_and (a b : sc) : sc :=
  match a with
  | SC_f f => SC_t f (L "AND") b
  | SC_t f op s => SC_t f op (sc_and s b)
  end.
Definition joined (a : sc) (b : option sc) : sc := match b with Some b => sc_and a b | None => a end.
Definition pr_osc (fmt : text -> text) (b : option sc) : text := match b with Some b => pr_sc fmt b | None => [] end.
