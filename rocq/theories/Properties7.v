(** C14: the formatted query has the same content as the parsed text. *)
From Verif Require Import Query PegProps Spec SpecLexical SpecContent ContentQuery.

(** [lexes ... t l] (SpecContent.v): the text [t] is the sequence [l] of words, delimited
    identifiers, literals, numbers and marks.  [normal ... l l']: the sequence [l'] is [l] up to
    the listed normalisations.  [fmt] is what becomes of a coordinate when it is read and written.
    Missing for the full property: in a text that has a NOT with no white space behind it, as in
    "notes", further NOTs may appear ([tight_not]; see C14_stray_not_refuted).  The hypothesis on
    the mapping excludes uploaded tables with an empty name (see C15_empty_table_name_refuted). *)
Theorem C14_content_kept_partial :
  forall tm input q fmt,
    (forall n u, n <> [] -> lookup tm n = Some u -> u <> []) ->
    query tm input = Q_ok q ->
    exists t l l',
      preprocess input = inr t /\
      lexes input_token input_glues [] t l /\
      lexes (output_token (lookup tm) fmt) (fun _ => False) [] (to_string fmt q) l' /\
      normal (lookup tm) fmt (tight_not t) l l'.
Proof.
  intros tm input q fmt Hm H. unfold query in H. destruct (preprocess input) as [e|t]; [discriminate|].
  destruct (content_kept tm fmt t q Hm H) as (l & l' & A & B & C). exists t, l, l'. auto.
Qed.
Print Assumptions C14_content_kept_partial.
Definition C14_text : text := L "select top 05 a from TAP_UPLOAD.x as u where not b=-1".
Example C14_case : exists q,
  query [(L "x", L "y")] C14_text = Q_ok q /\ preprocess C14_text = inr C14_text /\ ~ tight_not C14_text /\
  to_string (fun x => x) q = L "SELECT TOP 5 a FROM y u WHERE not b = -1".
Proof.
  eexists. split; [vm_compute; reflexivity|]. split; [vm_compute; reflexivity|]. split; [|vm_compute; reflexivity].
  rewrite <- tight_b_iff. vm_compute. discriminate.
Qed.
Theorem C14_stray_not_refuted :
  exists q, query default_mapping (L "select * from t where notes=1") = Q_ok q /\
    to_string (fun x => x) q = L "SELECT * FROM t WHERE not notes = 1".
Proof. eexists. split; vm_compute; reflexivity. Qed.
Print Assumptions C14_stray_not_refuted.
