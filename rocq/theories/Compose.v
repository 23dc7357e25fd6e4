(** The parts of accepted queries are canonical, each on its own (for C32 and C38). *)
From Verif Require Import Query Print Spec SpecLexical SpecNodes SpecCanon SpecNorm SpecFine SpecUsual QueryProofs NodeProps AstInd NormProofs CanonHead FineProofs SubNodes FineLex.

Section Parts.
Variables (tm : mapping) (fmt : text -> text).
Hypothesis idem : forall d, fmt (fmt d) = fmt d.
Hypothesis names : forall n v, n <> [] -> lookup tm n = Some v -> upload_name v = true.
Variables (input : text) (q : qspec).
Hypothesis ok : query tm input = Q_ok q.
Let U (l : list node) := forallb (usual fmt) l = true.
Lemma fine_part n : In n (nodes_qspec q) -> U (SpellMain.nodes_part (SpecSpelling.X n)) -> Forall (fun n => fine fmt n = true) (SpellMain.nodes_part (SpecSpelling.X n)).
Proof. intros I V. apply query_accepted in ok as (t & _ & H). eapply part_fine; eauto. now apply Forall_forall, forallb_forall. Qed.
Lemma canonical_ve v : In (N_ve v) (nodes_qspec q) -> U (nodes_ve v) -> c_ve fmt (n_ve fmt v) = true.
Proof. intros I V. destruct (fine_all fmt idem) as (H & _). apply H. exact (fine_part (N_ve v) I V). Qed.
Lemma canonical_sc v : In (N_sc v) (nodes_qspec q) -> U (nodes_sc v) -> c_sc fmt (n_sc fmt v) = true.
Proof. intros I V. destruct (fine_all fmt idem) as (_ & _ & H & _). apply H. exact (fine_part (N_sc v) I V). Qed.
Lemma canonical_jt v : In (N_jt v) (nodes_qspec q) -> U (nodes_jt v) -> c_jt fmt (n_jt fmt v) = true.
Proof. intros I V. destruct (fine_all fmt idem) as (_ & _ & _ & H & _). apply H. exact (fine_part (N_jt v) I V). Qed.
Lemma canonical_qspec v geo : In (N_qspec v) (nodes_qspec q) -> U (nodes_qspec v) -> geo = true \/ plain_query v = true -> c_qspec fmt geo (n_qspec fmt v) = true.
Proof. intros I V. destruct (fine_all fmt idem) as (_ & _ & _ & _ & H & _). apply H. exact (fine_part (N_qspec v) I V). Qed.
Lemma canonical_tref v : In (N_tref v) (nodes_qspec q) -> U (nodes_tref v) -> c_tref fmt (n_tref fmt v) = true.
Proof. intros I V. destruct (fine_all fmt idem) as (_ & _ & _ & _ & _ & H). apply H. exact (fine_part (N_tref v) I V). Qed.
End Parts.
Lemma self_in q : In (N_qspec q) (nodes_qspec q).
Proof. destruct q. now left. Qed.
Lemma sc_empty_n fmt s : (forall d, fmt (fmt d) = fmt d) -> sc_empty (n_sc fmt s) = sc_empty s.
Proof. intro I. destruct (normal_same_all fmt I) as (_ & _ & H & _). specialize (H (BP_sc s)) as [_ H]. rewrite n_bprim_BP_sc in H. exact H. Qed.
