(** Further cases in which properties fail (C13, C37), and queries that are written alike (C13). *)
From Verif Require Import Query Spec Print SpecCanon SpecNorm SpecNodes SpecUsual Properties12.

(** Accepted queries with usual parts that are written alike have the same normal form. *)
Theorem C13_written_alike_partial :
  forall tm fmt input input' q q', (forall d, fmt (fmt d) = fmt d) ->
  (forall n v, n <> [] -> lookup tm n = Some v -> upload_name v = true) ->
  query tm input = Q_ok q -> forallb (usual fmt) (nodes_qspec q) = true ->
  query tm input' = Q_ok q' -> forallb (usual fmt) (nodes_qspec q') = true ->
  (to_string fmt q = to_string fmt q' <-> normal fmt q = normal fmt q').
Proof.
  intros tm fmt i i' q q' I M Q U Q' U'. destruct (C13_accepted_partial tm fmt i q I M Q U) as (_ & P & E). destruct (C13_accepted_partial tm fmt i' q' I M Q' U') as (_ & P' & E').
  split; intros H; [rewrite H, P' in P; now injection P|]. rewrite <- E, <- E'. now rewrite H.
Qed.
Print Assumptions C13_written_alike_partial.

Section Cases.
Let T : forall r, match r with Q_ok _ => true | Q_err _ => false end = true -> exists q, r = Q_ok q.
Proof. intros [q|e]; [eauto|discriminate]. Qed.
Let F : forall r, match r with Q_ok _ => true | Q_err _ => false end = false -> exists e, r = Q_err e.
Proof. intros [q|e]; [discriminate|eauto]. Qed.
(** Two texts that are read to the same structure. *)
Example C13_written_alike_case : exists q, query default_mapping (L "select a from t where b=1") = Q_ok q /\ query default_mapping (L "SELECT a FROM t WHERE b = 1") = Q_ok q /\
  forallb (usual (fun x => x)) (nodes_qspec q) = true.
Proof. eexists. repeat split; vm_compute; reflexivity. Qed.

(** a- -b is written as a--b; between string literals that starts a comment, and the text is refused. *)
Theorem C13_minus_minus_refuted :
  exists input q e, query default_mapping input = Q_ok q /\ query default_mapping (to_string (fun x => x) q) = Q_err e /\ preprocess (to_string (fun x => x) q) = inr (to_string (fun x => x) q).
Proof.
  exists (L "select 'a'- -b,'" ++ ["010"%char] ++ L "','c' from t"). eexists; eexists. split; [vm_compute; reflexivity|]. split; vm_compute; reflexivity.
Qed.
Print Assumptions C13_minus_minus_refuted.
(** White space that may be left out in SQL may not be left out here. *)
Theorem C37_not_paren_refuted :
  (exists q, query default_mapping (L "select a from t where not (b=1)") = Q_ok q) /\ (exists e, query default_mapping (L "select a from t where not(b=1)") = Q_err e).
Proof. split; [apply T|apply F]; vm_compute; reflexivity. Qed.
Print Assumptions C37_not_paren_refuted.
Theorem C37_in_paren_refuted :
  (exists q, query default_mapping (L "select a from t where b in (1)") = Q_ok q) /\ (exists e, query default_mapping (L "select a from t where b in(1)") = Q_err e).
Proof. split; [apply T|apply F]; vm_compute; reflexivity. Qed.
Print Assumptions C37_in_paren_refuted.
End Cases.
