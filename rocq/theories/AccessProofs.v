(** The union, table and column accessors (C26-C29). *)
From Verif Require Import Query Spec.

Lemma components_eq q : components q = q_initial q :: map addon_sfw (q_addons q).
Proof. destruct q; reflexivity. Qed.
Lemma components_len q : length (components q) = S (length (q_addons q)).
Proof. rewrite components_eq. cbn. now rewrite map_length. Qed.

Lemma num_sfws q : tables_of (q_initial q) <> [] ->
  get_num_sfws q = (N.of_nat (length (components q)) mod 2 ^ 32)%N.
Proof.
  intros H. unfold get_num_sfws. assert (sfw_empty (q_initial q) = false) as ->.
  { destruct (q_initial q) as [s [|] w]; cbn in *; congruence. }
  rewrite components_len. unfold uint_mod. f_equal. lia.
Qed.

Section Acc.
Variable q : qspec.
Hypothesis Hne : tables_of (q_initial q) <> [].
Hypothesis Hc : countable_query q.

Lemma num_exact : get_num_sfws q = N.of_nat (length (components q)).
Proof. rewrite num_sfws by assumption. apply N.mod_small. exact Hc. Qed.

Lemma get_sfw_in i s : nth_error (components q) i = Some s -> get_sfw q (N.of_nat i) = A_ok s.
Proof.
  intros H. assert (i < length (components q)) as Hi by (apply nth_error_Some; congruence).
  rewrite components_eq in H. unfold get_sfw. destruct i as [|i]; cbn [nth_error] in H.
  - injection H as <-. reflexivity.
  - replace (N.of_nat (S i) =? 0)%N with false by (symmetry; apply N.eqb_neq; lia).
    unfold validate_sfw_index. rewrite num_exact.
    replace (N.of_nat (length (components q)) <=? N.of_nat (S i))%N with false by (symmetry; apply N.leb_gt; lia).
    cbn [abind]. unfold at_. replace (N.to_nat (N.of_nat (S i) - 1)) with i by lia.
    rewrite nth_error_map in H. destruct (nth_error (q_addons q) i); cbn in H; [|discriminate].
    injection H as <-. reflexivity.
Qed.
Lemma get_sfw_out i : length (components q) <= i -> get_sfw q (N.of_nat i) = A_throw.
Proof.
  intros H. rewrite components_len in H. unfold get_sfw.
  replace (N.of_nat i =? 0)%N with false by (symmetry; apply N.eqb_neq; lia).
  unfold validate_sfw_index. rewrite num_exact, components_len.
  replace (N.of_nat (S (length (q_addons q))) <=? N.of_nat i)%N with true by (symmetry; apply N.leb_le; lia).
  reflexivity.
Qed.
Lemma validate_in i : i < length (components q) -> validate_sfw_index q (N.of_nat i) = A_ok tt.
Proof.
  intros H. unfold validate_sfw_index. rewrite num_exact.
  replace (N.of_nat (length (components q)) <=? N.of_nat i)%N with false by (symmetry; apply N.leb_gt; lia). reflexivity.
Qed.
Lemma validate_out i : length (components q) <= i -> validate_sfw_index q (N.of_nat i) = A_throw.
Proof.
  intros H. unfold validate_sfw_index. rewrite num_exact.
  replace (N.of_nat (length (components q)) <=? N.of_nat i)%N with true by (symmetry; apply N.leb_le; lia). reflexivity.
Qed.

Lemma operators_eq : operators q = map addon_op (q_addons q).
Proof. destruct q; reflexivity. Qed.
Lemma get_op_in i o : nth_error (operators q) i = Some o -> get_union_op q (N.of_nat (S i)) = A_ok o.
Proof.
  rewrite operators_eq, nth_error_map. intros H.
  assert (i < length (q_addons q)) as Hi by (apply nth_error_Some; destruct (nth_error _ _); [discriminate|cbn in H; discriminate]).
  unfold get_union_op. rewrite num_exact, components_len.
  replace ((0 <? N.of_nat (S i)) && (N.of_nat (S i) <? N.of_nat (S (length (q_addons q)))))%N with true
    by (symmetry; apply andb_true_iff; split; apply N.ltb_lt; lia).
  unfold at_. replace (N.to_nat (N.of_nat (S i) - 1)) with i by lia.
  destruct (nth_error (q_addons q) i); cbn in *; [|discriminate]. injection H as <-. reflexivity.
Qed.
Lemma get_op_out i : i = 0 \/ length (components q) <= i -> get_union_op q (N.of_nat i) = A_throw.
Proof.
  intros H. unfold get_union_op. rewrite num_exact.
  replace ((0 <? N.of_nat i) && (N.of_nat i <? N.of_nat (length (components q))))%N with false; [reflexivity|].
  symmetry. apply andb_false_iff. destruct H as [->|H]; [left|right]; apply N.ltb_ge; lia.
Qed.

Lemma table_loop_spec n : forall i, i + n = length (components q) ->
  table_loop q n (N.of_nat i) = A_ok (map tables_of (skipn i (components q))).
Proof.
  induction n as [|n IH]; intros i H.
  - rewrite skipn_all2 by lia. reflexivity.
  - cbn [table_loop]. destruct (nth_error (components q) i) as [s|] eqn:E; [|apply nth_error_None in E; lia].
    rewrite (get_sfw_in _ _ E). cbn [abind]. replace (N.of_nat i + 1)%N with (N.of_nat (S i)) by lia.
    rewrite IH by lia. cbn [abind].
    assert (skipn i (components q) = s :: skipn (S i) (components q)) as ->.
    { clear -E. revert E. generalize (components q) as l. induction i; intros [|x l]; cbn; try discriminate.
      - intros H; injection H as ->; reflexivity.
      - intros H. rewrite (IHi _ H). reflexivity. }
    destruct s; reflexivity.
Qed.
Lemma table_lists : get_table_lists_by_sfw q = A_ok (map tables_of (components q)).
Proof.
  unfold get_table_lists_by_sfw. rewrite num_exact, Nnat.Nat2N.id. apply (table_loop_spec _ 0). reflexivity.
Qed.
Lemma combined_tables : get_combined_table_list q = A_ok (concat (map tables_of (components q))).
Proof.
  unfold get_combined_table_list. assert (sfw_empty (q_initial q) = false) as ->.
  { destruct (q_initial q) as [s [|] w]; cbn in *; congruence. }
  rewrite num_exact, Nnat.Nat2N.id. rewrite (table_loop_spec _ 0) by reflexivity. reflexivity.
Qed.

Lemma first_table i s t ts : nth_error (components q) i = Some s -> tables_of s = t :: ts ->
  get_initial_table q (N.of_nat i) = A_ok t.
Proof.
  intros H E. unfold get_initial_table. rewrite validate_in by (apply nth_error_Some; congruence).
  cbn [abind]. rewrite (get_sfw_in _ _ H). cbn [abind]. destruct s as [s0 ts0 w]; cbn in *. rewrite E. reflexivity.
Qed.
Lemma where_in i s : nth_error (components q) i = Some s -> get_where q (N.of_nat i) = A_ok (where_of s).
Proof.
  intros H. unfold get_where. rewrite validate_in by (apply nth_error_Some; congruence).
  cbn [abind]. rewrite (get_sfw_in _ _ H). destruct s; reflexivity.
Qed.
Lemma select_in i s : nth_error (components q) i = Some s -> get_select q (N.of_nat i) = A_ok (select_of s).
Proof.
  intros H. unfold get_select. rewrite validate_in by (apply nth_error_Some; congruence).
  cbn [abind]. rewrite (get_sfw_in _ _ H). destruct s; reflexivity.
Qed.
Lemma all_out i : length (components q) <= i ->
  get_where q (N.of_nat i) = A_throw /\ get_select q (N.of_nat i) = A_throw /\ get_initial_table q (N.of_nat i) = A_throw.
Proof. intros H. unfold get_where, get_select, get_initial_table. rewrite validate_out by assumption. auto. Qed.
End Acc.

(** No accessor reads outside the addon list, for any query and any index. *)
Lemma num_le q : (get_num_sfws q <= N.of_nat (length (components q)))%N.
Proof.
  unfold get_num_sfws. destruct (sfw_empty _); [lia|]. rewrite components_len.
  etransitivity; [apply N.mod_le; discriminate|]. lia.
Qed.
Lemma at_in {A} (l : list A) i : (i < N.of_nat (length l))%N -> exists v, at_ l i = A_ok v.
Proof.
  intros H. unfold at_. destruct (nth_error l (N.to_nat i)) eqn:E; eauto. apply nth_error_None in E. lia.
Qed.
Lemma get_sfw_no_range q i : get_sfw q i <> A_range.
Proof.
  unfold get_sfw. destruct (i =? 0)%N eqn:E0; [discriminate|]. apply N.eqb_neq in E0. unfold validate_sfw_index.
  destruct (get_num_sfws q <=? i)%N eqn:E; [discriminate|]. apply N.leb_gt in E. cbn [abind].
  pose proof (num_le q) as H. rewrite components_len in H.
  destruct (at_in (q_addons q) (i - 1)) as (v & ->); [lia|discriminate].
Qed.
Lemma get_union_op_no_range q i : get_union_op q i <> A_range.
Proof.
  unfold get_union_op. destruct ((0 <? i) && (i <? get_num_sfws q))%N eqn:E; [|discriminate].
  apply andb_true_iff in E as [E0 E]. apply N.ltb_lt in E, E0.
  pose proof (num_le q) as H. rewrite components_len in H.
  destruct (at_in (q_addons q) (i - 1)) as (v & ->); [lia|discriminate].
Qed.
Lemma get_where_no_range q i : get_where q i <> A_range.
Proof.
  unfold get_where, validate_sfw_index. destruct (_ <=? _)%N; [discriminate|]. cbn [abind].
  pose proof (get_sfw_no_range q i). destruct (get_sfw q i); cbn; congruence.
Qed.
Lemma get_select_no_range q i : get_select q i <> A_range.
Proof.
  unfold get_select, validate_sfw_index. destruct (_ <=? _)%N; [discriminate|]. cbn [abind].
  pose proof (get_sfw_no_range q i). destruct (get_sfw q i); cbn; congruence.
Qed.

(** The count is taken modulo 2^32. *)
Lemma count_wraps : exists q, tables_of (q_initial q) <> [] /\
  get_num_sfws q <> N.of_nat (length (components q)).
Proof.
  set (s := SFW (Select [] top_none (C_star (L "*"))) [TR_tc (L "t") []] (Where None None)).
  exists (QS None s (repeat (Addon (L "UNION") s) (N.to_nat (2 ^ 32))) [] None []). split; [discriminate|].
  rewrite num_sfws by discriminate. rewrite components_len. cbn [q_addons]. rewrite repeat_length.
  rewrite Nnat.Nat2N.inj_succ, Nnat.N2Nat.id. intros H.
  assert (N.succ (2 ^ 32) mod 2 ^ 32 < 2 ^ 32)%N by (apply N.mod_lt; discriminate). lia.
Qed.
