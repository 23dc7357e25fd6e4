(** The names of uploaded tables in a text (properties C40, C41). *)
From Verif Require Import Chars Spec SpecLexical.

(** The identifier [n] stands behind TAP_UPLOAD. in [t]. *)
Definition names_upload (t n : text) : Prop :=
  exists a b, t = a ++ L "TAP_UPLOAD." ++ n ++ b /\ identifier_before b n.
