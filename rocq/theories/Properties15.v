(** C34, C13: texts with geometries that are not rewritten. *)
From Verif Require Import Query Print Spec SpecLexical SpecNodes SpecCanon SpecNorm SpecUsual SpecRewrite SpecBehind RewriteNot Properties10 Properties12.

(** ** C34: a text in which no geometry stands behind AND is not rewritten *)
Theorem C34_not_behind_and :
  forall t, geometries_behind (fun a => ~ ends_with_and a) t -> preprocess t = inr t.
Proof. exact not_behind_and. Qed.
Print Assumptions C34_not_behind_and.
Theorem C34_behind_where :
  forall t, geometries_behind ends_with_where t -> preprocess t = inr t.
Proof. exact behind_where_only. Qed.
Print Assumptions C34_behind_where.
Definition two_geometries := L "SELECT a FROM t WHERE contains(p,q)=0 AND b = 1 UNION SELECT a FROM u WHERE INTERSECTS(p,q)=1 AND c = 2".
Example C34_behind_where_case : geometries_behind ends_with_where two_geometries /\ geometries_behind (fun a => ~ ends_with_and a) two_geometries.
Proof.
  assert (H : geometries_behind ends_with_where two_geometries) by (apply behind_where_b_sound; vm_compute; reflexivity).
  split; [exact H|]. intros a w b E W. apply where_not_and. eauto.
Qed.

(** ** C13: the constructor reads the text of a canonical query back if the geometries in it stand behind WHERE *)
Theorem C13_query_geometry_partial :
  forall tm fmt q, canonical fmt q = true -> geometries_behind ends_with_where (to_string fmt q) -> query tm (to_string fmt q) = Q_ok q.
Proof. intros tm fmt q C G. apply C13_query_partial; [exact C|]. now apply behind_where_only. Qed.
Print Assumptions C13_query_geometry_partial.
Theorem C13_accepted_query_partial :
  forall tm fmt input q, (forall d, fmt (fmt d) = fmt d) ->
  (forall n v, n <> [] -> lookup tm n = Some v -> upload_name v = true) ->
  query tm input = Q_ok q -> forallb (usual fmt) (nodes_qspec q) = true -> geometries_behind ends_with_where (to_string fmt q) ->
  query tm (to_string fmt q) = Q_ok (normal fmt q) /\ to_string fmt (normal fmt q) = to_string fmt q.
Proof.
  intros tm fmt input q I M H U G. destruct (C13_accepted_partial tm fmt input q I M H U) as (C & _ & E). split; [|exact E].
  rewrite <- E at 1. apply C13_query_geometry_partial; [exact C|]. now rewrite E.
Qed.
Print Assumptions C13_accepted_query_partial.
Example C13_accepted_query_case : exists q,
  query default_mapping (L "select a from t where b=1 and 0=contains(p,q)") = Q_ok q /\
  forallb (usual (fun x => x)) (nodes_qspec q) = true /\ geometries_behind ends_with_where (to_string (fun x => x) q) /\
  to_string (fun x => x) q = L "SELECT a FROM t WHERE CONTAINS(p,q)=0 AND b = 1".
Proof.
  eexists. split; [vm_compute; reflexivity|]. split; [vm_compute; reflexivity|]. split; [|vm_compute; reflexivity].
  apply behind_where_b_sound. vm_compute. reflexivity.
Qed.
