(** The matcher goes as deep as the text behind WHERE is long. *)
From Verif Require Import Query Print SpecCanon AstInd PrintEq CanonBase CanonCond CanonHead CanonQuery CanonAll Spec SpecRewrite RewriteSound QueryProofs WorkProofs Depth DepthProofs RegexCost RegexCostProofs.
From Coq Require Import Lia.
Local Open Scope N_scope.

Lemma star_down : forall X f m i c (k : text -> caps -> counted X), forallb f i = true -> (length i <= m)%nat ->
  2 * len i <= stack (cstar (@cmt (RChr f) X) true m i c k).
Proof.
  intros X f. induction m as [|m IH]; intros i c k F L.
  - destruct i; [cbn; lia|cbn in L; lia].
  - cbn [cstar call stack orelse]. rewrite cmt_chr. destruct i as [|a i]; [change (len []) with 0; lia|].
    cbn [forallb] in F. apply andb_true_iff in F as [Fa F]. rewrite Fa. cbn [call stack].
    replace (length i <? length (a :: i))%nat with true by (symmetry; apply Nat.ltb_lt; cbn; lia).
    rewrite len_cons. specialize (IH i c k F ltac:(cbn in L; lia)). lia.
Qed.

Lemma seq_down : forall X a b i c (k : text -> caps -> counted X), stack (cmt a i c (fun i' c' => cmt b i' c' k)) <= stack (cmt (RSeq a b) i c k).
Proof. intros. cbn [cmt call stack]. lia. Qed.
Lemma grp_down : forall X n a i c (k : text -> caps -> counted X), stack (cmt a i c (fun i' c' => k i' ((n, upto i i') :: c'))) <= stack (cmt (RGrp n a) i c k).
Proof. intros. cbn [cmt call stack]. lia. Qed.
Lemma chr_down : forall X f a i c (k : text -> caps -> counted X), f a = true -> stack (k i c) <= stack (cmt (RChr f) (a :: i) c k).
Proof. intros X f a i c k F. rewrite cmt_chr, F. cbn [call stack]. lia. Qed.
Lemma eq_nc_refl : forall a, eq_nc a a = true.
Proof. intros [[] [] [] [] [] [] [] []]; reflexivity. Qed.
Lemma lit_down : forall X s i c (k : text -> caps -> counted X), stack (k i c) <= stack (cmt (RLit s) (s ++ i) c k).
Proof.
  intros X. induction s as [|a s IH]; intros i c k; cbn [RLit app].
  - cbn [cmt call stack]. lia.
  - etransitivity; [|apply seq_down]. etransitivity; [|apply chr_down, eq_nc_refl]. apply IH.
Qed.

Lemma where_down : forall X a b v c (k : text -> caps -> counted X), a <> " "%char -> forallb is_dot (b :: v) = true ->
  2 * len v <= stack (cmt the_regex (L "WHERE " ++ a :: b :: v) c k).
Proof.
  intros X a b v c k A F. cbn [forallb] in F. apply andb_true_iff in F as [Fb F].
  etransitivity; [|apply seq_down]. etransitivity; [|apply seq_down]. etransitivity; [|apply lit_down].
  etransitivity; [|apply grp_down]. etransitivity; [|apply seq_down].
  etransitivity; [|apply chr_down; apply negb_true_iff, Ascii.eqb_neq, A].
  etransitivity; [|apply seq_down]. etransitivity; [|apply seq_down]. etransitivity; [|apply chr_down, Fb].
  set (k' := fun i' c' => cmt r_nonsp i' c' _).
  change (2 * len v <= stack (cstar (@cmt (RChr is_dot) X) true (length v) v c k') + 1).
  pose proof (star_down X is_dot (length v) v c k' F (le_n _)). lia.
Qed.

Lemma search_down : forall u i, forallb (fun x => negb (eq_nc "W" x)) u = true ->
  stack (csearch the_regex i) <= stack (csearch the_regex (u ++ i)).
Proof.
  intros u i H. induction u as [|x u IH]; [apply N.le_refl|]. cbn [forallb] in H. apply andb_true_iff in H as [Hx H]. specialize (IH H).
  change ((x :: u) ++ i) with (x :: (u ++ i)). cbn [csearch orelse stack].
  rewrite (cmt_out the_regex _ _ _ _ (fun i' c' => Some (i', c'))) by reflexivity.
  replace (mt the_regex (x :: u ++ i) [] (fun i' c' => Some (i', c'))) with (@None (text * caps)); [lia|].
  unfold the_regex, r_left, r_word. cbn [mt L list_ascii_of_string RLit]. unfold RCi. cbn [mt].
  apply negb_true_iff in Hx. rewrite Hx. reflexivity.
Qed.

Theorem rewriting_stack_where : forall u a b v, forallb (fun x => negb (eq_nc "W" x)) u = true -> a <> " "%char -> forallb is_dot (b :: v) = true ->
  2 * len v <= rewriting_stack (u ++ L "WHERE " ++ a :: b :: v).
Proof.
  intros u a b v U A F. unfold rewriting_stack. etransitivity; [|now apply search_down].
  cbn [csearch orelse]. 
  assert (forall i, stack (cmt the_regex i [] (fun i' c' => stop (Some (i', c')))) <= stack (csearch the_regex i)) as T.
  { intros [|x i]; cbn [csearch orelse stack]; lia. }
  etransitivity; [|apply T]. now apply where_down.
Qed.

(** An accepted query without any nesting. *)
Definition long_cond (n : nat) : sc :=
  SC_f (BF [] (BP_pred (P_cmp (atom (VP_col (CR1 (L "a")))) (L "=") (VE_nb (atom (VP_str ("1"%char :: repeat "0"%char n))))))).
Definition long_text (n : nat) : text := L "SELECT * FROM t WHERE " ++ L "a = 1" ++ repeat "0"%char n.
Lemma zeros_digits : forall n, forallb is_digit (repeat "0"%char n) = true.
Proof. induction n; [reflexivity|exact IHn]. Qed.
Lemma long_number : forall n, is_number ("1"%char :: repeat "0"%char n) = true.
Proof. intros n. unfold is_number, is_mantissa, is_digits. cbn [is_nil negb forallb]. rewrite zeros_digits. reflexivity. Qed.
Section Text.
Variable fmt : text -> text.
Lemma long_text0 : forall n, pr_bprim fmt (BP_pred (P_cmp (atom (VP_col (CR1 (L "a")))) (L "=") (VE_nb (atom (VP_str ("1"%char :: repeat "0"%char n)))))) = L "a = 1" ++ repeat "0"%char n.
Proof.
  intros n. rewrite pr_bprim_BP_pred, pr_pred_P_cmp. unfold atom. rewrite pr_ve_VE_nb, !pr_venb_VENB, !pr_factor_Factor, !pr_nprim_NP_vep, !pr_vep_VEP, pr_vepv_VP_str.
  cbn [map concat app]. now rewrite !app_nil_r.
Qed.
Lemma long_canonical : forall n, c_sc fmt (long_cond n) = true.
Proof.
  intros n. unfold long_cond. rewrite c_sc_SC_f, c_bfac_BF, long_text0, c_bprim_BP_pred, c_pred_P_cmp. unfold atom.
  rewrite c_ve_VE_nb, !c_venb_VENB, !c_factor_Factor, !c_nprim_NP_vep, !c_vep_VEP, c_vepv_VP_str, long_number. reflexivity.
Qed.
Lemma long_printed : forall n, to_string fmt (star_query (long_cond n)) = long_text n.
Proof.
  intros n. rewrite star_text by apply long_canonical. unfold long_text. f_equal. unfold long_cond.
  rewrite pr_sc_f by apply long_canonical. rewrite pr_bfac_BF, long_text0. reflexivity.
Qed.
End Text.
Lemma long_plain : forall n, preprocess (long_text n) = inr (long_text n).
Proof.
  intros n. apply not_rewritten. right. split; intros O; apply (occurs_char _ "N"%char) in O; try (vm_compute; tauto).
  all: unfold long_text in O; rewrite !map_app, !in_app_iff in O; destruct O as [O|[O|O]];
    try (vm_compute in O; intuition discriminate); apply in_map_iff in O as (c & E & I); apply repeat_spec in I; subst c; discriminate E.
Qed.
Lemma long_accepted : forall tm n, query tm (long_text n) = Q_ok (star_query (long_cond n)).
Proof.
  intros tm n. unfold query. rewrite long_plain. rewrite <- (long_printed (fun x => x)).
  destruct (parse_cost tm (fun x => x) 0 (long_cond n) (long_canonical _ n)) as [Q _]. exact Q.
Qed.
Lemma long_stack : forall n, 2 * N.of_nat n <= rewriting_stack (long_text n).
Proof.
  intros n. unfold long_text. change (L "SELECT * FROM t WHERE ") with (L "SELECT * FROM t " ++ L "WHERE "). rewrite <- app_assoc.
  etransitivity; [|apply (rewriting_stack_where (L "SELECT * FROM t ") "a"%char " "%char (L "= 1" ++ repeat "0"%char n)); [reflexivity|discriminate|]].
  - unfold len. rewrite app_length, repeat_length. lia.
  - cbn. induction n; [reflexivity|exact IHn].
Qed.
