(** C42: the work of the parser. *)
From Verif Require Import Query Spec Print SpecCanon Work WorkProofs.

(** Every pair of parentheses around a condition doubles the work: a query that is accepted, of length 27 + 2 n,
    for which the rules of the grammar are entered at least 2^n times.  [parens n t]: t in n pairs of parentheses. *)
Theorem C42_doubling :
  forall tm n, exists input, input = L "SELECT * FROM t WHERE " ++ parens n (L "a = 1") /\ length input = 27 + 2 * n /\
    (exists q, query tm input = Q_ok q) /\ (2 ^ N.of_nat n <= work tm input)%N.
Proof.
  intros tm n. eexists. split; [reflexivity|]. split; [|apply nested_work].
  unfold parens. rewrite !app_length, !repeat_length. cbn [L list_ascii_of_string length]. lia.
Qed.
Print Assumptions C42_doubling.
(** The same around any condition that can be written (SpecCanon.v), for the parser without the rewriting.
    [wrapped n s]: the condition s in n pairs of parentheses; [star_query s]: SELECT * FROM t WHERE s. *)
Theorem C42_doubling_any :
  forall tm fmt n s, c_sc fmt s = true ->
    let t := to_string fmt (star_query (wrapped n s)) in
    t = L "SELECT * FROM t WHERE " ++ parens n (pr_sc fmt s) /\
    parse_it tm t = Q_ok (star_query (wrapped n s)) /\ (2 ^ N.of_nat n <= parse_work tm t)%N.
Proof.
  intros tm fmt n s C t. split; [|now apply parse_cost]. unfold t. now rewrite star_text, wrapped_text by auto using wrapped_canonical.
Qed.
Print Assumptions C42_doubling_any.
Example C42_doubling_any_case : c_sc (fun x => x) (SC_t (BF [] (BP_sc a_is_1)) (L "OR") a_is_1) = true.
Proof. reflexivity. Qed.
(** The count itself, for no parentheses. *)
Example C42_count : work default_mapping (L "SELECT * FROM t WHERE a = 1") = 9%N.
Proof. vm_compute. reflexivity. Qed.

(** No polynomial in the length of the text bounds the work, not even for accepted queries. *)
Theorem C42_polynomial_refuted :
  forall c k : nat, exists input q, query default_mapping input = Q_ok q /\
    (N.of_nat (c * length input ^ k) < work default_mapping input)%N.
Proof.
  intros c k. set (m := c * (2 * k + 29) ^ k). set (n := (k + 1) * m).
  destruct (C42_doubling default_mapping n) as (input & _ & Len & (q & Q) & W). exists input, q. split; [exact Q|].
  apply (N.lt_le_trans _ (2 ^ N.of_nat n)); [|exact W]. clear Q W.
  assert (P : forall x, x < 2 ^ x) by (intros x; apply Nat.pow_gt_lin_r; lia).
  assert (L1 : length input <= (2 * k + 29) * (m + 1)) by (rewrite Len; unfold n; nia).
  assert (L2 : length input ^ k <= (2 * k + 29) ^ k * (2 ^ m) ^ k).
  { rewrite <- Nat.pow_mul_l. apply Nat.pow_le_mono_l. pose proof (P m). nia. }
  assert (L3 : c * length input ^ k <= m * (2 ^ m) ^ k) by (unfold m at 1; nia).
  assert (L4 : m * (2 ^ m) ^ k < 2 ^ n).
  { replace (2 ^ n) with (2 ^ m * (2 ^ m) ^ k).
    - apply Nat.mul_lt_mono_pos_r; [|apply P]. apply Nat.neq_0_lt_0, Nat.pow_nonzero, Nat.pow_nonzero. discriminate.
    - rewrite <- Nat.pow_mul_r, <- Nat.pow_add_r. f_equal. unfold n. nia. }
  replace (2 ^ N.of_nat n)%N with (N.of_nat (2 ^ n)); [lia|]. rewrite Nat2N.inj_pow. reflexivity.
Qed.
Print Assumptions C42_polynomial_refuted.
