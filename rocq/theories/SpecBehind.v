(** Where CONTAINS and INTERSECTS stand in a text (for C34 and C13). *)
From Verif Require Import Chars Spec SpecRewrite.

(** Every CONTAINS and every INTERSECTS stands behind [P]. *)
Definition geometries_behind (P : text -> Prop) (t : text) : Prop :=
  forall a w b, t = a ++ w ++ b -> geometry_word w -> P a.
(** AND, blanks and perhaps a flag are in front. *)
Definition ends_with_and (a : text) : Prop := exists x m f, a = x ++ m ++ f /\ and_between m /\ flag f.
Definition ends_with_where (a : text) : Prop := exists x, a = x ++ L "WHERE ".
