(** C13: queries that the parser accepts are written as a text that is read back. *)
From Verif Require Import Query Print Spec SpecLexical SpecNodes SpecCanon SpecNorm SpecFine SpecUsual QueryProofs NodeProps FineProofs FineLex Properties10.

(** What is accepted has a canonical normal form, is written like its normal form, and the text is
    read as the normal form -- if its parts are [usual] (SpecUsual.v), the names of uploaded tables
    are mapped to [upload_name]s, and a number that was written once is written the same again.
    Missing for the full property: the queries with unusual parts, for some of which the property is
    false (DESIGN.md), and the rewriting of the text in front of the parser (C13_reread_refuted). *)
Theorem C13_accepted_partial :
  forall tm fmt input q, (forall d, fmt (fmt d) = fmt d) ->
  (forall n v, n <> [] -> lookup tm n = Some v -> upload_name v = true) ->
  query tm input = Q_ok q -> forallb (usual fmt) (nodes_qspec q) = true ->
  canonical fmt (normal fmt q) = true /\ parse_it tm (to_string fmt q) = Q_ok (normal fmt q) /\ to_string fmt (normal fmt q) = to_string fmt q.
Proof.
  intros tm fmt input q I M H U. apply query_accepted in H as (t & _ & H).
  assert (C : canonical fmt (normal fmt q) = true) by (apply fine_canonical; [exact I|]; eapply accepted_fine; eauto; now apply Forall_forall, forallb_forall).
  split; [exact C|]. now apply C13_normal_form.
Qed.
Print Assumptions C13_accepted_partial.
Example C13_accepted_case : exists q,
  query default_mapping (L "select t.*,not a from t join u on x=1 join v where a between 1 and 2 and contains(p,q)=0") = Q_ok q /\
  forallb (usual (fun x => x)) (nodes_qspec q) = true /\ (forall n v, n <> [] -> lookup default_mapping n = Some v -> upload_name v = true).
Proof.
  eexists. split; [vm_compute; reflexivity|]. split.
  - vm_compute. reflexivity.
  - intros [|c n] v N H; [contradiction|discriminate].
Qed.

(** Accepted queries with usual parts have the same text exactly if they have the same normal form (SpecNorm.v). *)
Theorem C13_same_text_partial :
  forall tm1 tm2 fmt input1 input2 q1 q2, (forall d, fmt (fmt d) = fmt d) ->
  (forall n v, n <> [] -> lookup tm1 n = Some v -> upload_name v = true) ->
  (forall n v, n <> [] -> lookup tm2 n = Some v -> upload_name v = true) ->
  query tm1 input1 = Q_ok q1 -> forallb (usual fmt) (nodes_qspec q1) = true ->
  query tm2 input2 = Q_ok q2 -> forallb (usual fmt) (nodes_qspec q2) = true ->
  (to_string fmt q1 = to_string fmt q2 <-> normal fmt q1 = normal fmt q2).
Proof.
  intros tm1 tm2 fmt input1 input2 q1 q2 I M1 M2 H1 U1 H2 U2.
  destruct (C13_accepted_partial tm1 fmt input1 q1 I M1 H1 U1) as (C1 & _ & E1). destruct (C13_accepted_partial tm2 fmt input2 q2 I M2 H2 U2) as (C2 & _ & E2).
  split; intros E; [|now rewrite <- E1, E]. apply (C13_written_apart fmt); [exact C1|exact C2|congruence].
Qed.
Print Assumptions C13_same_text_partial.
(** Different trees with the same text. *)
Example C13_same_text_case : exists q1 q2,
  query default_mapping (L "select * from t where contains(p,q)=0") = Q_ok q1 /\ query default_mapping (L "select * from t where 0=contains(p,q)") = Q_ok q2 /\
  forallb (usual (fun x => x)) (nodes_qspec q1) = true /\ forallb (usual (fun x => x)) (nodes_qspec q2) = true /\ q1 <> q2 /\
  to_string (fun x => x) q1 = to_string (fun x => x) q2.
Proof.
  eexists. eexists. split; [vm_compute; reflexivity|]. split; [vm_compute; reflexivity|]. split; [vm_compute; reflexivity|]. split; [vm_compute; reflexivity|].
  split; [discriminate|reflexivity].
Qed.
