(** A condition that is copied again and again: trees that are much larger than the text that was given (C55). *)
From Verif Require Import Query Print SpecLexical SpecNodes SpecCanon AstInd PrintEq CanonBase CanonCond CanonHead CanonQuery CanonAll Preprocess RegexProps RegexPrio TextLemmas Spec SpecRewrite ParenProofs RewriteProofs RewriteBest RewriteSound RewriteExact RewriteMain WorkProofs DepthProofs RegexDepth RewriteSize.
From Coq Require Import Lia.
Local Open Scope nat_scope.

Definition plus_b (n : nat) : text := concat (repeat (L "+b") n).
Definition sum_text (n : nat) : text := L "b = b" ++ plus_b n.
Definition times (k : nat) (x : text) : text := concat (repeat (x ++ L " OR ") k).
Definition call_cond (k : nat) : text := times k (L "$3") ++ L "b = 1".
Definition sum_head : text := L "SELECT a FROM t ".
Definition call_text (n k : nat) : text := sum_head ++ L "WHERE " ++ call_cond k ++ L " AND " ++ dollar_geom ++ L " AND " ++ sum_text n.
Definition spread_text (n k : nat) : text :=
  sum_head ++ L "WHERE " ++ dollar_geom ++ L " AND " ++ times k (sum_text n) ++ L "b = 1" ++ L " AND " ++ sum_text n.

Lemma plus_b_in n c : In c (plus_b n) -> In c (L "+b").
Proof. unfold plus_b. induction n as [|n IH]; [intros []|]. cbn. intuition. Qed.
Lemma sum_in n c : In c (sum_text n) -> In c (L "b = b+").
Proof. unfold sum_text. rewrite in_app_iff. intros [H|H]; [|apply plus_b_in in H]; vm_compute in H |- *; tauto. Qed.
Lemma times_in k x c : In c (times k x) -> In c (x ++ L " OR ").
Proof. unfold times. induction k as [|k IH]; [intros []|]. cbn [repeat concat]. rewrite in_app_iff. intros [H|H]; auto. Qed.
Lemma call_in k c : In c (call_cond k) -> In c (L "$3 OR b = 1").
Proof. unfold call_cond. rewrite in_app_iff. intros [H|H]; [apply times_in in H|]; vm_compute in H |- *; tauto. Qed.
Lemma plus_b_length n : length (plus_b n) = 2 * n.
Proof. unfold plus_b. induction n as [|n IH]; [reflexivity|]. cbn [repeat concat]. rewrite app_length, IH. cbn [length L list_ascii_of_string]. lia. Qed.
Lemma times_length k x : length (times k x) = k * (length x + 4).
Proof. unfold times. induction k as [|k IH]; [reflexivity|]. cbn [repeat concat]. rewrite !app_length, IH. cbn [length L list_ascii_of_string]. lia. Qed.
Lemma call_length n k : length (call_text n k) = 2 * n + 6 * k + 57.
Proof. unfold call_text, call_cond, sum_text. rewrite !app_length, times_length, plus_b_length. cbn [length L list_ascii_of_string sum_head dollar_geom]. lia. Qed.

Lemma sum_ends n : ends_dark (sum_text n).
Proof.
  unfold sum_text, plus_b. destruct n as [|n]; [exists (L "b = "), "b"%char; split; [reflexivity|discriminate]|].
  exists (L "b = b" ++ concat (repeat (L "+b") n) ++ L "+"), "b"%char. split; [|discriminate].
  rewrite <- !app_assoc. f_equal. change (L "+" ++ ["b"%char]) with (L "+b"). clear. induction n as [|n IH]; [reflexivity|]. cbn [repeat concat] in *. rewrite IH at 1. now rewrite <- app_assoc.
Qed.
Lemma sum_no w c n : In (upc c) (map upc w) -> ~ In (upc c) (map upc (L "b = b+")) -> ~ occurs_nc w (sum_text n).
Proof.
  intros I J O. apply (occurs_char _ c) in O; [|exact I]. apply J. apply in_map_iff in O as (d & E & D). apply sum_in in D. rewrite <- E. now apply in_map.
Qed.
Lemma behind_no w c n : In (upc c) (map upc w) -> ~ In (upc c) (map upc (L "(p,q)=1 AND b = b+")) -> ~ occurs_nc w (L "(p,q)=1" ++ L " AND " ++ sum_text n ++ []).
Proof.
  intros I J O. apply (occurs_char _ c) in O; [|exact I]. apply J. apply in_map_iff in O as (d & E & D). rewrite <- E. apply in_map.
  rewrite !in_app_iff in D. destruct D as [D|[D|[D|[]]]]; [| |apply sum_in in D]; vm_compute in D |- *; tauto.
Qed.
Ltac no_char := vm_compute; intuition discriminate.
Lemma call_shape n k : last_geometry (call_text n k) sum_head (call_cond k) dollar_geom (sum_text n) [].
Proof.
  apply (last_geometry_intro _ _ _ _ _ _ (L "WHERE ") (L " AND ") (L " AND ") [] (L "CONTAINS") (L "(p,q)=1")).
  - unfold call_text. now rewrite !app_nil_r.
  - reflexivity.
  - intros O. apply (occurs_char _ "H"%char) in O; [|vm_compute; tauto]. revert O. no_char.
  - unfold call_cond, times. destruct k as [|k]; [exists "b"%char|exists "$"%char]; eexists; (split; [reflexivity|discriminate]).
  - exists (times k (L "$3") ++ L "b = "), "1"%char. split; [unfold call_cond; now rewrite <- app_assoc|discriminate].
  - unfold call_cond. rewrite app_length. cbn [length L list_ascii_of_string]. lia.
  - apply Forall_forall. intros c I. rewrite !in_app_iff in I. assert (J : In c (L "$3 OR b = 1 AND CONTAINS(p,q)=1b = b+")).
    { destruct I as [I|[I|[I|[I|[I|[]]]]]]; [apply call_in in I| | | |apply sum_in in I]; vm_compute in I |- *; tauto. }
    vm_compute in J. repeat (destruct J as [<-|J]; [split; discriminate|]). destruct J.
  - exists (L " "), (L "AND"), (L " "). repeat split; repeat constructor.
  - reflexivity.
  - constructor.
  - now left.
  - exists (L "CONTAINS(p,q)="), "1"%char. split; [reflexivity|discriminate].
  - intros O. apply (occurs_char _ "A"%char) in O; [|vm_compute; tauto]. revert O. no_char.
  - intros O. apply (occurs_char _ "A"%char) in O; [|vm_compute; tauto]. revert O. no_char.
  - intros O. apply (occurs_char _ "G"%char) in O; [|vm_compute; tauto]. revert O. no_char.
  - intros O. apply (occurs_char _ "D"%char) in O; [|vm_compute; tauto]. revert O. no_char.
  - right. split; [exists (L " "), (L "AND"), (L " "); repeat split; repeat constructor|]. split; [right; now eexists|].
    split; [exists "b"%char; eexists; split; [reflexivity|discriminate]|]. split; [apply sum_ends|]. split; [unfold sum_text; cbn; lia|].
    repeat split; [apply (sum_no _ "H"%char)|apply (sum_no _ "G"%char)|apply (sum_no _ "D"%char)]; [vm_compute; tauto|no_char|vm_compute; tauto|no_char|vm_compute; tauto|no_char].
  - left. constructor.
  - apply (behind_no _ "C"%char); [vm_compute; tauto|no_char].
  - apply (behind_no _ "I"%char); [vm_compute; tauto|no_char].
Qed.
Lemma call_check k : check_and_adjust_parens (call_cond k) dollar_geom = inr (call_cond k, dollar_geom).
Proof.
  unfold check_and_adjust_parens. rewrite left_loop_none.
  - unfold call_cond, times. destruct k; reflexivity.
  - intros H. apply call_in in H. revert H. no_char.
  - intros H. apply call_in in H. revert H. no_char.
Qed.
Lemma format_calls m k t : format m the_ngroups (times k (L "$3") ++ t) = times k (cap_str 3 (m_caps m)) ++ format m the_ngroups t.
Proof.
  unfold times. induction k as [|k IH]; [reflexivity|]. cbn [repeat concat]. rewrite <- !app_assoc. rewrite <- IH. reflexivity.
Qed.
Lemma call_rewritten n k : preprocess (call_text n k) = inr (spread_text n k).
Proof.
  destruct (exact_match _ _ _ _ _ _ (call_shape n k)) as (mm & Es & Ep & Esuf & C1 & C2 & C3 & C4).
  unfold preprocess. rewrite Es. unfold tweak_input_string. rewrite C1, C2, C3, call_check.
  unfold replace. rewrite Es, Ep, Esuf, app_nil_r. unfold replacement. replace (is_nil (sum_text n)) with false by reflexivity.
  replace (L "WHERE " ++ dollar_geom ++ L " AND " ++ call_cond k ++ L " AND " ++ sum_text n) with
    ((L "WHERE " ++ dollar_geom ++ L " AND ") ++ times k (L "$3") ++ (L "b = 1" ++ L " AND " ++ sum_text n) ++ []) by (unfold call_cond; now rewrite <- !app_assoc, app_nil_r).
  rewrite format_app by no_char. rewrite format_calls, C3. rewrite format_app.
  - unfold spread_text. rewrite app_nil_r, <- !app_assoc. reflexivity.
  - rewrite !in_app_iff. intros [H|[H|H]]; [| |apply sum_in in H]; revert H; no_char.
Qed.

(** The query that is read. *)
Definition b_factor : factor := Factor [] (NP_vep (VEP (VP_col (CR1 (L "b"))) [])).
Definition sum_ve (n : nat) : ve := VE_nb (VENB b_factor (repeat (VTerm (L "+") b_factor) n)).
Definition b_is (r : ve) : bfac := BF [] (BP_pred (P_cmp (atom (VP_col (CR1 (L "b")))) (L "=") r)).
Definition b_sum (n : nat) : bfac := b_is (sum_ve n).
Fixpoint spread_cond (n k : nat) : sc :=
  match k with O => SC_t (b_is (VE_nb (atom (VP_str (L "1"))))) (L "AND") (SC_f (b_sum n)) | S k' => SC_t (b_sum n) (L "OR") (spread_cond n k') end.
Definition spread_query (n k : nat) : qspec :=
  QS None (SFW (Select [] top_none (C_list [CV_ve (VE_nb (atom (VP_col (CR1 (L "a")))))])) [TR_tc (L "t") []]
    (Where (Some (G_right (GP_contains (Soc_col (CR1 (L "p"))) (Soc_col (CR1 (L "q")))) (L "1"))) (Some (spread_cond n k)))) [] [] None [].

Section Text.
Variable fmt : text -> text.
Lemma sum_pr n : pr_ve fmt (sum_ve n) = L "b" ++ plus_b n.
Proof.
  unfold sum_ve, plus_b. rewrite pr_ve_VE_nb, pr_venb_VENB. change (pr_factor fmt b_factor) with (L "b"). apply f_equal.
  induction n as [|n IH]; [reflexivity|]. cbn [repeat map concat]. rewrite IH. reflexivity.
Qed.
Lemma b_is_pr r : pr_bprim fmt (BP_pred (P_cmp (atom (VP_col (CR1 (L "b")))) (L "=") r)) = L "b = " ++ pr_ve fmt r.
Proof. rewrite pr_bprim_BP_pred, pr_pred_P_cmp. reflexivity. Qed.
Lemma b_is_text r : pr_bfac fmt (b_is r) = L "b = " ++ pr_ve fmt r.
Proof. unfold b_is. rewrite pr_bfac_BF, b_is_pr. reflexivity. Qed.
Lemma sum_canonical n : c_ve fmt (sum_ve n) = true.
Proof.
  unfold sum_ve. rewrite c_ve_VE_nb, c_venb_VENB. apply andb_true_iff. split; [apply andb_true_iff; split|].
  - reflexivity.
  - apply forallb_forall. intros x H. apply repeat_spec in H. subst x. reflexivity.
  - generalize b_factor at 1. induction n as [|n IH]; intros f; [reflexivity|]. cbn [repeat no_comments].
    rewrite IH. change (text_eqb (L "+") (L "-")) with false. now rewrite andb_false_r.
Qed.
Lemma b_is_canonical r : c_ve fmt r = true -> c_bfac fmt (b_is r) = true.
Proof. intros C. unfold b_is. rewrite c_bfac_BF, b_is_pr, c_bprim_BP_pred, c_pred_P_cmp, C. reflexivity. Qed.
Lemma sum_closed n : open_f (b_sum n) = false.
Proof. reflexivity. Qed.
Lemma spread_canonical n k : c_sc fmt (spread_cond n k) = true.
Proof.
  induction k as [|k IH]; cbn [spread_cond].
  - rewrite c_sc_SC_t, c_sc_SC_f. unfold b_sum. rewrite (b_is_canonical _ (sum_canonical n)). reflexivity.
  - rewrite c_sc_SC_t, IH, sum_closed. unfold b_sum. rewrite (b_is_canonical _ (sum_canonical n)). reflexivity.
Qed.
Lemma spread_cond_text n k : pr_sc fmt (spread_cond n k) = times k (sum_text n) ++ L "b = 1" ++ L " AND " ++ sum_text n.
Proof.
  induction k as [|k IH]; pose proof (spread_canonical n) as C; [specialize (C 0)|specialize (C (S k))]; cbn [spread_cond] in *.
  - rewrite pr_sc_t by exact C. rewrite pr_sc_f by (unfold b_sum; rewrite c_sc_SC_f; apply b_is_canonical, sum_canonical). unfold b_sum. rewrite !b_is_text, sum_pr. reflexivity.
  - rewrite pr_sc_t by exact C. rewrite IH. unfold b_sum. rewrite b_is_text, sum_pr. unfold times. cbn [repeat concat]. unfold sum_text. rewrite <- !app_assoc. reflexivity.
Qed.
Lemma spread_query_canonical n k : canonical fmt (spread_query n k) = true.
Proof.
  unfold canonical, spread_query. rewrite c_qspec_QS, c_sfw_SFW, c_select_Select, c_where_Where, spread_canonical. reflexivity.
Qed.
Lemma spread_printed n k : to_string fmt (spread_query n k) = spread_text n k.
Proof.
  unfold to_string, spread_query. rewrite pr_qspec_QS, pr_sfw_SFW, pr_where_Where. cbn [where_empty opt_empty andb map join is_nil concat].
  rewrite (sc_nonempty fmt _ (spread_canonical n k)). rewrite !spread_cond_text.
  unfold spread_text. cbn [map concat]. rewrite ?app_nil_r, <- ?app_assoc. reflexivity.
Qed.
End Text.

Lemma sum_nodes n : n <= length (nodes_ve (sum_ve n)).
Proof.
  unfold sum_ve. cbn [nodes_ve nodes_venb length]. rewrite app_length.
  enough (n <= length (flat_map nodes_vterm (repeat (VTerm (L "+") b_factor) n))) by lia.
  induction n as [|n IH]; [cbn; lia|]. cbn [repeat flat_map]. rewrite app_length. cbn [nodes_vterm length]. lia.
Qed.
Lemma spread_cond_nodes n k : k * n <= length (nodes_sc (spread_cond n k)).
Proof.
  induction k as [|k IH]; [lia|]. cbn [spread_cond nodes_sc length]. rewrite app_length. pose proof (sum_nodes n).
  unfold b_sum, b_is. cbn [nodes_bfac nodes_bprim nodes_pred length]. rewrite app_length. lia.
Qed.
Lemma spread_nodes n k : k * n <= length (nodes_qspec (spread_query n k)).
Proof.
  pose proof (spread_cond_nodes n k). unfold spread_query. cbn [nodes_qspec nodes_sfw nodes_where length onodes]. 
  repeat (rewrite app_length || cbn [length]). lia.
Qed.
