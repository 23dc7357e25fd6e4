(** How long the rewritten text can be. *)
From Verif Require Import Query Print SpecLexical SpecCanon AstInd PrintEq CanonBase CanonCond CanonHead CanonQuery CanonAll Preprocess RegexProps RegexPrio TextLemmas Spec SpecRewrite ParenProofs RewriteProofs RewriteBest RewriteSound RewriteExact RewriteMain WorkProofs DepthProofs RegexDepth.
From Coq Require Import Lia.
Local Open Scope nat_scope.

(** An upper bound for the format string of std::regex_replace: every character stands for at most the whole text. *)
Lemma format_length m ng k : 1 <= k -> length (m_pre m) <= k -> length (m_all m) <= k -> length (m_suf m) <= k ->
  (forall j, length (group_text m ng j) <= k) -> forall n f, length f <= n -> length (format m ng f) <= length f * k.
Proof.
  intros K P A S G. induction n as [|n IH]; intros f Hf; [destruct f; [cbn; lia|cbn in Hf; lia]|].
  destruct f as [|c f1]; [cbn; lia|]. cbn [length] in Hf. cbn [format].
  pose proof (IH f1 ltac:(lia)) as I1.
  destruct (Ascii.eqb c "$"); [|cbn [length]; lia].
  destruct f1 as [|d f2]; [cbn [length]; lia|]. cbn [length] in Hf. pose proof (IH f2 ltac:(lia)) as I2.
  repeat match goal with |- context [if ?b then _ else _] => destruct b end; cbn [length] in *; rewrite ?app_length; try lia.
  destruct f2 as [|e f3]; cbn [length] in *.
  - pose proof (G (digit_val d)). lia.
  - pose proof (IH f3 ltac:(lia)). pose proof (G (digit_val d)). pose proof (G (digit_val d * 10 + digit_val e)).
    destruct (is_digit e); rewrite app_length; lia.
Qed.

Lemma between_length m : and_between m -> 3 <= length m.
Proof. intros (b1 & a & b2 & -> & _ & S & _). rewrite !app_length. apply spelt_len in S. cbn in S. lia. Qed.
Lemma check_length l g l' g' : check_and_adjust_parens l g = inr (l', g') -> length l' <= length l /\ length g' <= length g.
Proof.
  unfold check_and_adjust_parens. destruct (left_loop _ _ _) as [e|[dd ww]]; [discriminate|]. destruct (_ || _); [discriminate|].
  destruct (geom_loop _ _ _ _) as [e|[]]; [discriminate| |]; intros H; injection H as <- <-; [|lia].
  split; [destruct l; cbn; lia|]. destruct g as [|x g] using rev_ind; [cbn; lia|]. rewrite removelast_last, app_length. lia.
Qed.
Lemma wpart_length input pre l g r tl : wpart input pre l g r tl ->
  length (moved pre l g r) + length tl <= length input + 4 /\ length pre + length l + length g + length r + length tl <= length input /\ 6 <= length input.
Proof.
  intros [w m1 m2 -> W _ _ _ M1 _ R]. apply between_length in M1. apply spelt_len in W. cbn in W.
  unfold moved. rewrite !app_length. cbn [length L list_ascii_of_string].
  destruct R as [[-> ->]|(M2 & _ & R)]; [cbn [length]; lia|]. apply between_length in M2. destruct r; [cbn in R; lia|]. rewrite app_length. cbn [length L list_ascii_of_string]. lia.
Qed.
Lemma moved_le pre l g r l' g' : length l' <= length l -> length g' <= length g -> length (moved pre l' g' r) <= length (moved pre l g r).
Proof. intros A B. unfold moved. rewrite !app_length. lia. Qed.

Lemma size_plain input t : ~ In "$"%char input -> preprocess input = inr t -> length t <= length input + 4.
Proof.
  intros D H. destruct (preprocess_exact _ _ D H) as [->|(pre & l & g & r & tl & l' & g' & W & C & ->)]; [lia|].
  apply wpart_length in W as (W & _). apply check_length in C as [A B]. pose proof (moved_le pre l g r l' g' A B). lia.
Qed.

Lemma size_bound input t : preprocess input = inr t -> length t <= length input * (length input + 4).
Proof.
  unfold preprocess. destruct (search the_regex input) as [mm|] eqn:E.
  - pose proof E as E'. apply search_best in E as (Ei & Es & B & _). apply (best_wpart (m_pre mm)) in B. rewrite <- Ei in B.
    unfold tweak_input_string. destruct (check_and_adjust_parens _ _) as [e|[l' g']] eqn:C; [discriminate|]. intros H. injection H as <-.
    unfold replace. rewrite E', Es, app_nil_r, app_length.
    pose proof (wpart_length _ _ _ _ _ _ B) as (W1 & W2 & W3). apply check_length in C as [Cl Cg].
    pose proof (moved_le (m_pre mm) _ _ (cap_str 3 (m_caps mm)) _ _ Cl Cg) as M. rewrite <- replacement_moved, app_length in M.
    assert (length (m_all mm) <= length input) as La by (rewrite Ei, app_length; lia).
    assert (F : length (format mm the_ngroups (replacement l' g' (cap_str 3 (m_caps mm)))) <=
      length (replacement l' g' (cap_str 3 (m_caps mm))) * length input).
    { apply (format_length mm the_ngroups (length input)) with (n := length (replacement l' g' (cap_str 3 (m_caps mm)))); try lia.
      - rewrite Es. cbn. lia.
      - intros j. unfold group_text, the_ngroups. destruct j as [|[|[|[|[|j]]]]]; cbv beta iota delta [Nat.ltb Nat.leb]; try lia. apply Nat.le_0_l. }
    nia.
  - intros H. injection H as <-. nia.
Qed.

(** * A condition that spells out the text in front of WHERE again and again. *)
Definition head_text (n : nat) : text := L "SELECT " ++ ("1"%char :: repeat "0"%char n) ++ L " FROM t ".
Definition dollars (k : nat) : text := concat (repeat (L "$`") k).
Definition dollar_cond (k : nat) : text := L "b = '" ++ dollars k ++ L "'".
Definition dollar_geom : text := L "CONTAINS(p,q)=1".
Definition dollar_text (n k : nat) : text := head_text n ++ L "WHERE " ++ dollar_cond k ++ L " AND " ++ dollar_geom.
Definition copies (n k : nat) : text := concat (repeat (head_text n) k).
Definition copied_text (n k : nat) : text := head_text n ++ L "WHERE " ++ dollar_geom ++ L " AND " ++ L "b = '" ++ copies n k ++ L "'".

Lemma copies_length n k : length (copies n k) = k * (n + 16).
Proof.
  unfold copies. induction k as [|k IH]; [reflexivity|]. cbn [repeat concat]. rewrite app_length, IH. unfold head_text.
  rewrite !app_length. cbn [length L list_ascii_of_string]. rewrite repeat_length. lia.
Qed.
Lemma dollars_length k : length (dollars k) = 2 * k.
Proof. unfold dollars. induction k as [|k IH]; [reflexivity|]. cbn [repeat concat]. rewrite app_length, IH. cbn [length L list_ascii_of_string]. lia. Qed.
Lemma dollar_length n k : length (dollar_text n k) = n + 2 * k + 48.
Proof.
  unfold dollar_text, head_text, dollar_cond, dollar_geom. rewrite !app_length, dollars_length. cbn [length L list_ascii_of_string]. rewrite repeat_length. lia.
Qed.
Lemma copied_length n k : length (copied_text n k) = n + 48 + k * (n + 16).
Proof.
  unfold copied_text, head_text, dollar_geom. rewrite !app_length, copies_length. cbn [length L list_ascii_of_string]. rewrite repeat_length. lia.
Qed.

Lemma dollars_in k c : In c (dollars k) -> c = "$"%char \/ c = "`"%char.
Proof. unfold dollars. induction k as [|k IH]; [intros []|]. cbn. intuition. Qed.
Lemma head_in n c : In c (head_text n) -> In c (L "SELECT 10 FROM t ").
Proof.
  unfold head_text. rewrite !in_app_iff. cbn [In]. intros [H|[[H|H]|H]].
  - vm_compute in H |- *. tauto.
  - vm_compute. tauto.
  - apply repeat_spec in H. subst c. vm_compute. tauto.
  - vm_compute in H |- *. tauto.
Qed.
Lemma copies_in n k c : In c (copies n k) -> In c (L "SELECT 10 FROM t ").
Proof. unfold copies. induction k as [|k IH]; [intros []|]. cbn [repeat concat]. rewrite in_app_iff. intros [H|H]; [now apply head_in in H|auto]. Qed.

Lemma dollar_cond_in k c : In c (dollar_cond k) -> In c (L "b = '$`").
Proof.
  unfold dollar_cond. rewrite !in_app_iff. intros [H|[H|H]]; [| |]; [vm_compute in H |- *; tauto|apply dollars_in in H as [->| ->]; vm_compute; tauto|vm_compute in H |- *; tauto].
Qed.
Lemma dollar_shape n k : last_geometry (dollar_text n k) (head_text n) (dollar_cond k) dollar_geom [] [].
Proof.
  apply (last_geometry_intro _ _ _ _ _ _ (L "WHERE ") (L " AND ") [] [] (L "CONTAINS") (L "(p,q)=1")).
  - unfold dollar_text. now rewrite !app_nil_r.
  - reflexivity.
  - intros O. apply (occurs_char _ "H"%char) in O; [|vm_compute; tauto]. apply in_map_iff in O as (c & E & I). apply head_in in I.
    vm_compute in I. repeat (destruct I as [<-|I]; [discriminate E|]). destruct I.
  - exists "b"%char. eexists. split; [reflexivity|discriminate].
  - exists (L "b = '" ++ dollars k), "'"%char. split; [unfold dollar_cond; now rewrite <- app_assoc|discriminate].
  - unfold dollar_cond. rewrite app_length. cbn [length L list_ascii_of_string]. lia.
  - apply Forall_forall. intros c I. rewrite in_app_iff in I. assert (J : In c (L "b = '$`" ++ L " AND " ++ dollar_geom)).
    { destruct I as [I|I]; [apply dollar_cond_in in I; apply in_app_iff; now left|]. rewrite !app_nil_r in I. apply in_app_iff. now right. }
    vm_compute in J. repeat (destruct J as [<-|J]; [split; discriminate|]). destruct J.
  - exists (L " "), (L "AND"), (L " "). repeat split; repeat constructor.
  - reflexivity.
  - constructor.
  - now left.
  - exists (L "CONTAINS(p,q)="), "1"%char. split; [reflexivity|discriminate].
  - apply (fun H => H). intros O. apply (occurs_char _ "A"%char) in O; [|vm_compute; tauto]. vm_compute in O. intuition discriminate.
  - intros O. apply (occurs_char _ "A"%char) in O; [|vm_compute; tauto]. vm_compute in O. intuition discriminate.
  - intros O. apply (occurs_char _ "G"%char) in O; [|vm_compute; tauto]. vm_compute in O. intuition discriminate.
  - intros O. apply (occurs_char _ "D"%char) in O; [|vm_compute; tauto]. vm_compute in O. intuition discriminate.
  - now left.
  - left. constructor.
  - intros O. apply (occurs_char _ "C"%char) in O; [|vm_compute; tauto]. vm_compute in O. intuition discriminate.
  - intros O. apply (occurs_char _ "I"%char) in O; [|vm_compute; tauto]. vm_compute in O. intuition discriminate.
Qed.

Lemma left_loop_none : forall s d w, ~ In "("%char s -> ~ In ")"%char s -> left_loop s d w = inr (d, w).
Proof.
  induction s as [|c s IH]; intros d w A B; cbn [left_loop]; [reflexivity|].
  destruct (Ascii.eqb_spec c "(") as [->|]; [exfalso; apply A; now left|]. destruct (Ascii.eqb_spec c ")") as [->|]; [exfalso; apply B; now left|].
  apply IH; intros H; [apply A|apply B]; now right.
Qed.
Lemma dollar_check k : check_and_adjust_parens (dollar_cond k) dollar_geom = inr (dollar_cond k, dollar_geom).
Proof.
  unfold check_and_adjust_parens. rewrite left_loop_none.
  - reflexivity.
  - intros H. apply dollar_cond_in in H. vm_compute in H. intuition discriminate.
  - intros H. apply dollar_cond_in in H. vm_compute in H. intuition discriminate.
Qed.
Lemma format_dollars m ng k t : format m ng (dollars k ++ t) = concat (repeat (m_pre m) k) ++ format m ng t.
Proof. unfold dollars. induction k as [|k IH]; [reflexivity|]. cbn [repeat concat]. rewrite <- !app_assoc. rewrite <- IH. reflexivity. Qed.
Lemma format_app m ng a t : ~ In "$"%char a -> format m ng (a ++ t) = a ++ format m ng t.
Proof.
  induction a as [|c a IH]; intros H; [reflexivity|]. cbn [app format]. destruct (Ascii.eqb_spec c "$") as [->|_]; [exfalso; apply H; now left|].
  rewrite IH; [reflexivity|]. intros K. apply H. now right.
Qed.
Lemma dollar_rewritten n k : preprocess (dollar_text n k) = inr (copied_text n k).
Proof.
  destruct (exact_match _ _ _ _ _ _ (dollar_shape n k)) as (mm & Es & Ep & Esuf & C1 & C2 & C3 & C4).
  unfold preprocess. rewrite Es. unfold tweak_input_string. rewrite C1, C2, C3, dollar_check.
  unfold replace. rewrite Es, Ep, Esuf, app_nil_r. unfold replacement. cbn [is_nil]. rewrite app_nil_r.
  change (L "WHERE " ++ dollar_geom ++ L " AND " ++ dollar_cond k) with ((L "WHERE " ++ dollar_geom ++ L " AND " ++ L "b = '") ++ dollars k ++ L "'").
  rewrite format_app by (vm_compute; intuition discriminate). rewrite format_dollars, Ep. reflexivity.
Qed.

(** The query that is read. *)
Definition copied_cond (n k : nat) : sc :=
  SC_f (BF [] (BP_pred (P_cmp (atom (VP_col (CR1 (L "b")))) (L "=") (VE_nb (atom (VP_str (L "'" ++ copies n k ++ L "'"))))))).
Definition copied_query (n k : nat) : qspec :=
  QS None (SFW (Select [] top_none (C_list [CV_ve (VE_nb (atom (VP_str ("1"%char :: repeat "0"%char n))))])) [TR_tc (L "t") []]
    (Where (Some (G_right (GP_contains (Soc_col (CR1 (L "p"))) (Soc_col (CR1 (L "q")))) (L "1"))) (Some (copied_cond n k)))) [] [] None [].

Lemma doubled_none : forall t, ~ In sq t -> is_doubled sq t = true.
Proof.
  induction t as [|c t IH]; intros H; [reflexivity|]. cbn [is_doubled]. destruct (Ascii.eqb_spec c sq) as [->|_]; [exfalso; apply H; now left|].
  apply IH. intros K. apply H. now right.
Qed.
Lemma copies_quoted n k : is_quoted sq (L "'" ++ copies n k ++ L "'") = true.
Proof.
  unfold is_quoted, SpecCanon.between. cbn [L list_ascii_of_string app]. rewrite rev_app_distr. cbn [rev app]. change (Ascii.eqb "'" sq) with true. cbn [andb]. rewrite rev_involutive.
  apply doubled_none. intros H. apply copies_in in H. vm_compute in H. intuition discriminate.
Qed.
Section Text.
Variable fmt : text -> text.
Lemma copied_text0 n k : pr_bprim fmt (BP_pred (P_cmp (atom (VP_col (CR1 (L "b")))) (L "=") (VE_nb (atom (VP_str (L "'" ++ copies n k ++ L "'")))))) = L "b = '" ++ copies n k ++ L "'".
Proof.
  rewrite pr_bprim_BP_pred, pr_pred_P_cmp. unfold atom. rewrite pr_ve_VE_nb, !pr_venb_VENB, !pr_factor_Factor, !pr_nprim_NP_vep, !pr_vep_VEP, pr_vepv_VP_str.
  cbn [map concat app]. now rewrite !app_nil_r.
Qed.
Lemma copied_cond_canonical n k : c_sc fmt (copied_cond n k) = true.
Proof.
  unfold copied_cond. rewrite c_sc_SC_f, c_bfac_BF, copied_text0, c_bprim_BP_pred, c_pred_P_cmp. unfold atom.
  rewrite c_ve_VE_nb, !c_venb_VENB, !c_factor_Factor, !c_nprim_NP_vep, !c_vep_VEP, c_vepv_VP_str, copies_quoted, (orb_true_r (is_number _)). reflexivity.
Qed.
Lemma copied_cond_text n k : pr_sc fmt (copied_cond n k) = L "b = '" ++ copies n k ++ L "'".
Proof. unfold copied_cond. rewrite pr_sc_f by apply copied_cond_canonical. rewrite pr_bfac_BF, copied_text0. reflexivity. Qed.
Lemma copied_canonical n k : canonical fmt (copied_query n k) = true.
Proof.
  unfold canonical, copied_query. rewrite c_qspec_QS, c_sfw_SFW, c_select_Select, c_where_Where, copied_cond_canonical, c_columns_C_list. cbn [forallb].
  rewrite c_colv_CV_ve. unfold atom. rewrite c_ve_VE_nb, !c_venb_VENB, !c_factor_Factor, !c_nprim_NP_vep, !c_vep_VEP, c_vepv_VP_str, long_number. reflexivity.
Qed.
Lemma copied_printed n k : to_string fmt (copied_query n k) = copied_text n k.
Proof.
  unfold to_string, copied_query. rewrite pr_qspec_QS, pr_sfw_SFW, pr_select_Select, pr_where_Where, pr_columns_C_list. cbn [where_empty opt_empty andb map join is_nil concat].
  rewrite pr_colv_CV_ve. unfold atom. rewrite pr_ve_VE_nb, pr_venb_VENB, pr_factor_Factor, pr_nprim_NP_vep, pr_vep_VEP, pr_vepv_VP_str.
  rewrite (sc_nonempty fmt _ (copied_cond_canonical n k)). rewrite !copied_cond_text.
  unfold copied_text, head_text. cbn [map concat]. rewrite ?app_nil_r, <- ?app_assoc. reflexivity.
Qed.
End Text.
