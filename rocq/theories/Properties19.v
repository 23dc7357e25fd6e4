(** C40: what of the table mapping matters. *)
From Verif Require Import Query Spec SpecLexical SpecRewrite SpecUploads RewriteSound MappingLocal UploadProofs LexProofs LexProofs2 TextLemmas Properties3.

(** Two mappings that agree on the names standing behind TAP_UPLOAD. in the text that reaches the grammar
    give the same answer: the same structure or the same error. *)
Theorem C40_only_named :
  forall tm tm' input, (forall t n, preprocess input = inr t -> names_upload t n -> lookup tm n = lookup tm' n) ->
    query tm input = query tm' input.
Proof.
  intros tm tm' input H. unfold query. destruct (preprocess input) as [e|t] eqn:P; [reflexivity|].
  apply same_mapping. intros n. now apply H.
Qed.
Print Assumptions C40_only_named.
(** If TAP_UPLOAD. does not occur in the text, every mapping gives the same answer, whether the text is
    rewritten or not. *)
Theorem C40_no_upload :
  forall tm tm' input, ~ In "$"%char input -> ~ occurs (L "TAP_UPLOAD.") input -> query tm input = query tm' input.
Proof.
  intros tm tm' input D N. apply C40_only_named. intros t n P (a & b & -> & _). exfalso. apply N.
  apply (no_new_upload input _ D P). now exists a, (n ++ b).
Qed.
Print Assumptions C40_no_upload.
(** An entry for a name that is not written in the text may be added. *)
Theorem C40_new_entry :
  forall tm n v input, (forall t, preprocess input = inr t -> ~ names_upload t n) -> query ((n, v) :: tm) input = query tm input.
Proof.
  intros tm n v input H. apply C40_only_named. intros t n' P U. cbn [lookup].
  destruct (text_eqb n n') eqn:E; [|reflexivity]. apply text_eqb_iff in E as <-. now destruct (H t P).
Qed.
Print Assumptions C40_new_entry.
(** The names that are written do matter: two mappings that differ at [foo], and at [bar]. *)
Section Case.
Let t : text := L "select * from TAP_UPLOAD.foo".
Let tm (v w : string) : mapping := [(L "foo", L v); (L "bar", L w)].
Example C40_case :
  preprocess t = inr t /\ names_upload t (L "foo") /\
  query (tm "u.a" "u.b") t = query (tm "u.a" "u.c") t /\ query (tm "u.a" "u.b") t <> query (tm "u.d" "u.b") t.
Proof.
  assert (P : preprocess t = inr t) by reflexivity.
  split; [exact P|]. split; [|split].
  - exists (L "select * from "), []. split; [reflexivity|]. now apply (proj1 (identifier_iff (L "foo") (L "foo") [])).
  - apply C40_only_named. intros t' n P' (a & b & E & I). rewrite P in P'. injection P' as <-. cbn [lookup tm].
    destruct (text_eqb (L "bar") n) eqn:X; [|reflexivity]. apply text_eqb_iff in X as <-. exfalso.
    assert (N : ~ occurs_nc (L "TAP_UPLOAD.BAR") t) by (apply find_nc_false; reflexivity). apply N.
    exists a, (L "TAP_UPLOAD.bar"), b. split; [exact E|reflexivity].
  - vm_compute. discriminate.
Qed.
End Case.
