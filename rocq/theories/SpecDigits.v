(** Decimal numerals, reading them as doubles and writing doubles with a number of significant digits (C53).
    Only the real numbers of the standard library, powers and the rounding operator of Flocq are used. *)
From Coq Require Import ZArith Reals SpecFloat.
From Flocq Require Import Core.
From Verif Require Import Chars Ast Spec SpecLexical SpecFloats SpecNumbers.
Open Scope R_scope.

Definition radix10 : radix := Build_radix 10 (eq_refl true).
(** The integer that a sequence of digits stands for. *)
Definition integer (ds : text) : Z := fold_left (fun a c => 10 * a + (Z.of_N (N_of_ascii c) - 48))%Z ds 0%Z.
(** The text t is a decimal numeral with the value v; s: it has a minus sign. *)
Definition denotes (t : text) (s : bool) (v : R) : Prop :=
  exists sg b c f x e,
    t = (sg ++ b ++ c ++ x)%list /\
    (sg = L "-" /\ s = true \/ (sg = [] \/ sg = L "+") /\ s = false) /\
    Forall digit b /\ Forall digit f /\ (b ++ f)%list <> [] /\
    (c = [] /\ f = [] \/ c = "."%char :: f) /\
    (x = [] /\ e = 0%Z \/
     exists m g d, x = (m :: g ++ d)%list /\ (m = "e"%char \/ m = "E"%char) /\ digits d /\
       (g = L "-" /\ e = (- integer d)%Z \/ (g = [] \/ g = L "+") /\ e = integer d)) /\
    v = (if s then -1 else 1) * IZR (integer (b ++ f)) * bpow radix10 (e - Z.of_nat (length f)).
(** The numeral t is read as the double x: the nearest one, infinite if it is too large. *)
Definition read_as (t : text) (x : spec_float) : Prop := exists s v, denotes t s v /\ double_datum x /\ rounded v s x.
(** The finite double x is written as t with p significant digits: t is a multiple of the unit of the p-th digit of x, and
    differs from x by at most half of it. *)
Definition written_with (p : Z) (x : spec_float) (t : text) : Prop :=
  exists v, denotes t (negative x) v /\
    (real x = 0 /\ v = 0 \/
     exists e k, bpow radix10 (e - 1) <= Rabs (real x) < bpow radix10 e /\
       v = IZR k * bpow radix10 (e - p) /\ Rabs (v - real x) <= / 2 * bpow radix10 (e - p)).

(** The numeral d, read as a double by [value], is written as [fmt d] with 17 digits, and this is read as the nearest double. *)
Definition faithful (fmt : text -> text) (value : text -> spec_float) (d : text) : Prop :=
  double_datum (value d) /\ finite (value d) /\ written_with 17 (value d) (fmt d) /\ read_as (fmt d) (value (fmt d)).
(** The numerals of a coordinate or size. *)
Definition numerals (c : csae) : list text := match c with CS_dbl d => [d] | CS_bae a _ b => [a; b] | CS_col _ => [] end.
(** The coordinates and sizes of the shapes in the geometry of a WHERE. *)
Definition soc_numbers (s : soc) : list csae := match s with Soc_shape s => shape_numbers s | Soc_col _ => [] end.
Definition where_numbers (w : wherec) : list csae :=
  match w with
  | Where (Some (G_left _ (GP_contains a b) | G_right (GP_contains a b) _)) _ => soc_numbers a ++ soc_numbers b
  | Where (Some (G_left _ (GP_intersects _ s) | G_right (GP_intersects _ s) _)) _ => soc_numbers s
  | Where None _ => []
  end.
