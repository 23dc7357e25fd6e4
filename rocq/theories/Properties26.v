(** C46, C47: the work and the recursion of the search that decides whether a text is rewritten. *)
From Verif Require Import Query Spec RegexCost RegexCostProofs RegexLower RegexDepth.
Local Open Scope N_scope.

(** What is counted is the search of Query.cxx: the answer is the same. *)
Theorem C46_same_search : forall i, out (csearch the_regex i) =
  match search the_regex i with Some m => Some (m_suf m, m_caps m) | None => None end.
Proof. intros i. apply csearch_out. Qed.
Print Assumptions C46_same_search.
Example C46_same_search_case : exists m, search the_regex (L "WHERE abc AND CONTAINS(x) AND y") = Some m /\ out (csearch the_regex (L "WHERE abc AND CONTAINS(x) AND y")) = Some ([], m_caps m).
Proof. eexists. split; vm_compute; reflexivity. Qed.

(** The fifth power of the length bounds the number of steps. *)
Theorem C46_polynomial : forall i, rewriting_steps i <= 15000 * (N.of_nat (length i) + 1) ^ 5.
Proof. exact rewriting_polynomial. Qed.
Print Assumptions C46_polynomial.
Example C46_polynomial_case : rewriting_steps (L "WHERE abc AND CONTAINS(x) AND y") = 471.
Proof. vm_compute. reflexivity. Qed.

(** Every n blocks WHERE xxxANDCONTAINSANDxxHAVING need a number of steps of that order. *)
Theorem C46_reached : forall n, exists i, length i = (31 * (n + 1) + 4)%nat /\ N.of_nat n ^ 5 <= 5 * rewriting_steps i.
Proof.
  intros n. exists (blocks (S n)). split.
  - destruct (blocks_dots (S n)) as (p & E & _ & N). rewrite E, app_length, N, repeat_length. lia.
  - change 5 with (N.succ (N.succ (N.succ (N.succ (N.succ 0))))) at 1. rewrite !N.pow_succ_r', N.pow_0_r.
    pose proof (search_steps n) as S. unfold rewriting_steps. lia.
Qed.
Print Assumptions C46_reached.

(** No smaller power does. *)
Theorem C46_fourth_power_refuted : forall c, exists i, c * (N.of_nat (length i) + 1) ^ 4 < rewriting_steps i.
Proof.
  intros c. set (x := 5 * c * 67 ^ 4 + 1). destruct (C46_reached (N.to_nat x)) as (i & E & S). exists i. rewrite N2Nat.id in S.
  assert (X : 1 <= x) by (unfold x; lia).
  assert (B : N.of_nat (length i) + 1 <= 67 * x) by lia.
  apply (N.pow_le_mono_l _ _ 4) in B. rewrite N.pow_mul_l in B.
  apply (N.mul_le_mono_l _ _ c) in B. eapply N.le_lt_trans; [exact B|].
  apply (N.mul_lt_mono_pos_l 5); [lia|]. eapply N.lt_le_trans; [|exact S].
  change 5 with (N.succ 4) at 2. rewrite N.pow_succ_r'.
  replace (5 * (c * (67 ^ 4 * x ^ 4))) with (5 * c * 67 ^ 4 * x ^ 4) by ring.
  apply N.mul_lt_mono_pos_r; [|unfold x; lia]. apply N.neq_0_lt_0, N.pow_nonzero. lia.
Qed.
Print Assumptions C46_fourth_power_refuted.

(** The calls are nested at most twice the length of the text deep, plus a constant ... *)
Theorem C47_linear : forall i, rewriting_stack i <= 2 * N.of_nat (length i) + 158.
Proof. intros i. unfold rewriting_stack. pose proof (csearch_stack the_regex i eq_refl) as H. replace (height the_regex) with 158 in H by reflexivity. unfold len in H. lia. Qed.
Print Assumptions C47_linear.

(** ... and at least twice the length of what follows the first WHERE on its line. *)
Theorem C47_where : forall u a b v,
  (forall x, In x u -> x <> "W"%char /\ x <> "w"%char) -> a <> " "%char -> (forall x, In x (b :: v) -> x <> "010"%char /\ x <> "013"%char) ->
  2 * N.of_nat (length v) <= rewriting_stack (u ++ L "WHERE " ++ a :: b :: v).
Proof.
  intros u a b v U A V. apply rewriting_stack_where; [|exact A|]; apply forallb_forall; intros x I.
  - apply U in I as [I J]. revert I J. clear. destruct x as [[] [] [] [] [] [] [] []]; try reflexivity; intros I J; exfalso; (apply I; reflexivity) || (apply J; reflexivity).
  - apply V in I as [I J]. revert I J. clear. destruct x as [[] [] [] [] [] [] [] []]; try reflexivity; intros I J; exfalso; (apply I; reflexivity) || (apply J; reflexivity).
Qed.
Print Assumptions C47_where.
Example C47_where_case : rewriting_stack (L "select a from t WHERE b = 1") = 35.
Proof. vm_compute. reflexivity. Qed.

(** No number bounds the depth, not even for accepted queries without any nesting. *)
Theorem C47_bounded_refuted : forall d, exists n q, query default_mapping (L "SELECT * FROM t WHERE " ++ L "a = 1" ++ repeat "0"%char n) = Q_ok q /\
  d < rewriting_stack (L "SELECT * FROM t WHERE " ++ L "a = 1" ++ repeat "0"%char n).
Proof.
  intros d. exists (N.to_nat (d + 1)). eexists. split; [apply long_accepted|].
  pose proof (long_stack (N.to_nat (d + 1))) as H. unfold long_text in H. lia.
Qed.
Print Assumptions C47_bounded_refuted.
