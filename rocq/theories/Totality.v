(** The grammar terminates on every input; positions in results. *)
From Verif Require Import Query PegProps.

Definition rank (r : rule) : nat :=
  match r with R_venb | R_subq | R_jt => 0 | R_sc | R_tref => 1 | R_ve => 2 end.

Lemma g_body_nonnull m r : pnull (g_body m r) = false.
Proof. destruct r; vm_compute; reflexivity. Qed.
Lemma g_body_chk m r : pchk rank 3 (rank r) (g_body m r) = true.
Proof. destruct r; vm_compute; reflexivity. Qed.
Lemma g_query_chk m : pchk rank 3 3 (g_query m) = true.
Proof. vm_compute; reflexivity. Qed.

Lemma grun_total m n (A : Set) (e : PE A) i :
  pchk rank 3 3 e = true -> n >= 3 * length i + 3 -> grun m n e i <> OOF.
Proof.
  intros He Hn. unfold grun.
  apply (run_total (g_body m) (g_body_nonnull m) rank 3 (g_body_chk m)) with (k := 3); auto.
Qed.

Lemma query_total m n i : n >= 3 * length i + 3 -> grun m n (g_query m) i <> OOF.
Proof. apply grun_total, g_query_chk. Qed.

Lemma parse_it_total tm i : parse_it tm i <> Q_err E_fuel.
Proof.
  unfold parse_it.
  pose proof (query_total (lookup tm) (fuel_for i) i ltac:(unfold fuel_for; lia)).
  destruct (grun _ _ _ _) as [q r|r|[p|t]|]; try congruence.
  destruct (skip r); congruence.
Qed.

(** Any larger amount of fuel gives the same result. *)
Lemma query_fuel_irrelevant m n i : n >= fuel_for i ->
  grun m n (g_query m) i = grun m (fuel_for i) (g_query m) i.
Proof.
  intros H. unfold grun. eapply run_mono; [exact H|reflexivity|].
  apply query_total. unfold fuel_for; lia.
Qed.
