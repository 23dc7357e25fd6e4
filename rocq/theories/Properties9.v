(** C12: letter case. *)
From Verif Require Import Query SpecCase SpecCaseResult CaseUse.

(** Two texts that differ in letter case only, wherever (keywords, names, literals), give the same
    result: the same structure and texts that differ in letter case only, or the same error.
    The condition concerns the names of uploaded tables, which the parser compares letter by letter:
    in the texts handed to the grammar they are spelled alike. *)
Theorem C12_letter_case_partial :
  forall tm t t', respelled t t' ->
  (forall h h', preprocess t = inr h -> preprocess t' = inr h' -> uploads_kept h h' /\ uploads_kept h' h) ->
  same_result (query tm t) (query tm t').
Proof. exact query_same. Qed.
Print Assumptions C12_letter_case_partial.
Example C12_case :
  let tm := [(L "t", L "u")] in let t := L "Select a.* from TAP_UPLOAD.t a" in let t' := L "sELECT A.* FROM TAP_UPLOAD.t a" in
  respelled t t' /\
  (forall h h', preprocess t = inr h -> preprocess t' = inr h' -> uploads_kept h h' /\ uploads_kept h' h) /\
  exists q q', query tm t = Q_ok q /\ query tm t' = Q_ok q' /\ q <> q'.
Proof.
  intros tm t t'. split; [apply respelled_ueq; reflexivity|]. split.
  - assert (E : preprocess t = inr t) by (vm_compute; reflexivity). assert (E' : preprocess t' = inr t') by (vm_compute; reflexivity).
    rewrite E, E'. intros h h' [= <-] [= <-]. split; apply same_behind_spec; vm_compute; reflexivity.
  - eexists. eexists. split; [vm_compute; reflexivity|]. split; [vm_compute; reflexivity|discriminate].
Qed.

(** Without uploaded tables there is no condition. *)
Theorem C12_no_uploads :
  forall tm t t', respelled t t' ->
  (forall h, preprocess t = inr h -> forall a b, upper h <> a ++ L "TAP_UPLOAD." ++ b) ->
  same_result (query tm t) (query tm t').
Proof.
  intros tm t t' R N. apply query_same; [exact R|]. intros h h' E E'.
  apply no_uploads; [exact (preprocess_upper _ _ _ _ R E E')|exact (N h E)].
Qed.
Print Assumptions C12_no_uploads.
Example C12_no_uploads_case :
  let t := L "select A from t where not b" in let t' := L "SELECT a FROM T WHERE Not B" in
  respelled t t' /\ (forall h, preprocess t = inr h -> forall a b, upper h <> a ++ L "TAP_UPLOAD." ++ b) /\
  exists q q', query default_mapping t = Q_ok q /\ query default_mapping t' = Q_ok q' /\ q <> q'.
Proof.
  intros t t'. split; [apply respelled_ueq; reflexivity|]. split.
  - assert (E : preprocess t = inr t) by (vm_compute; reflexivity). rewrite E. intros h [= <-]. apply absent_spec. vm_compute. reflexivity.
  - eexists. eexists. split; [vm_compute; reflexivity|]. split; [vm_compute; reflexivity|discriminate].
Qed.

(** The schema name TAP_UPLOAD itself is not case-insensitive. *)
Theorem C12_upload_refuted : exists tm t t',
  respelled t t' /\ (exists q, query tm t = Q_ok q) /\ (forall q, query tm t' <> Q_ok q).
Proof.
  exists [(L "t", L "u")], (L "select * from TAP_UPLOAD.t"), (L "select * from tap_upload.t"). split; [apply respelled_ueq; reflexivity|].
  split; [eexists; vm_compute; reflexivity|]. intros q. vm_compute. discriminate.
Qed.
Print Assumptions C12_upload_refuted.
(** Even the letter case of a keyword matters, when the rewriting moves it into a delimited name. *)
Theorem C12_keyword_refuted : exists tm a b,
  (exists q, query tm (a ++ L "not" ++ b) = Q_ok q) /\ (forall q, query tm (a ++ L "NOT" ++ b) <> Q_ok q).
Proof.
  exists [(L """x AND not b AND y""", L "u")], (L "select a from t where "), (L " b and contains(TAP_UPLOAD.""x and y"".c,d)").
  split; [eexists; vm_compute; reflexivity|]. intros q. vm_compute. discriminate.
Qed.
Print Assumptions C12_keyword_refuted.
