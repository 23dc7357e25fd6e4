(** The work for parentheses that are never closed. *)
From Verif Require Import Query Grammar Print PegProps Nodes Totality PegSpec PegEquiv TextLemmas SpecLexical LexProofs LexProofs2 First Calc Look Tight Operand TopProofs SpecCanon AstInd PrintEq CanonBase CanonLex CanonGeo CanonHead CanonLead CanonFun CanonPrim CanonVal CanonCond CanonJt CanonJoin CanonSel CanonGeom CanonQuery CanonAll Work Spec SpecRewrite RewriteSound QueryProofs WorkProofs.

Section Open.
Variable tm : mapping.
Notation m := (lookup tm).
Notation costs := (costs tm).
Ltac first_char H := apply reads_first; rewrite H; vm_compute; reflexivity.

Definition opened (n : nat) : text := repeat "("%char n.
Lemma skip_opened n : skip (opened n) = opened n.
Proof. now destruct n. Qed.

Section Step.
Variables (n : nat) (c d : N).
Hypothesis Fv : forall i, skip i = opened n -> fails m p_venb i.
Hypothesis Fs : forall i, skip i = opened n -> fails m p_sc i.
Hypothesis Cv : forall i, skip i = opened n -> costs p_venb i c.
Hypothesis Cs : forall i, skip i = opened n -> costs p_sc i d.

Lemma ve_f i : skip i = opened n -> fails m p_ve i.
Proof. intros H. apply (fails_rule m R_ve), fails_alt; [now apply fails_map, Fv|nextalt H; now apply fails_map, Fs]. Qed.
Lemma ve_c i : skip i = opened n -> costs p_ve i (1 + (c + d)).
Proof.
  intros H. apply (costs_rule tm R_ve), costs_alt2; [now apply costs_map, Cv|now apply fails_map, Fv|].
  nextalt H. now apply costs_map, Cs.
Qed.
Lemma open_lit i : skip i = opened (S n) -> reads m (lit "(") i tt (opened n).
Proof.
  intros H. rewrite <- skip_opened. eapply reads_lit. rewrite H. reflexivity.
Qed.
Lemma sub_f i : skip i = opened (S n) -> fails m g_value_subexpression i.
Proof. intros H. apply fails_map, fails_seq1. eapply fails_seq2; [now apply open_lit|]. intros r Hr. now apply ve_f. Qed.
Lemma sub_c i : skip i = opened (S n) -> costs g_value_subexpression i (1 + (c + d)).
Proof. intros H. apply costs_map, costs_seq1. eapply costs_seq2; [now apply open_lit|]. intros r Hr. now apply ve_c. Qed.
Lemma prim_f i : skip i = opened (S n) -> fails m (g_numeric_primary m) i.
Proof.
  intros H. apply fails_alt; [first_char H|]. nextalt H. apply fails_map, fails_map, fails_seq1. do 8 (apply fails_alt; [first_char H|]; nextalt H). now apply sub_f.
Qed.
Lemma costs_skip {A : Set} (a b : PE A) i x : fails m a i -> (forall r, skip r = skip i -> costs b r x) -> costs (PAlt a b) i x.
Proof. intros F H. exact (costs_alt2 tm a b i 0 x (costs_0 tm a i) F H). Qed.
Lemma prim_c i : skip i = opened (S n) -> costs (g_numeric_primary m) i (1 + (c + d)).
Proof.
  intros H. apply costs_skip; [first_char H|]. nextalt H. apply costs_map, costs_map, costs_seq1. do 8 (apply costs_skip; [first_char H|]; nextalt H). now apply sub_c.
Qed.
Lemma no_sign i : skip i = opened (S n) -> exists v, reads m (POptLex s_sign) i v (opened (S n)).
Proof. intros H. eexists. rewrite <- H. eapply reads_olex_none; [reflexivity|]. rewrite H. reflexivity. Qed.
Lemma venb_f i : skip i = opened (S n) -> fails m p_venb i.
Proof.
  intros H. apply (fails_rule m R_venb), fails_map, fails_seq1, fails_map. destruct (no_sign i H) as [v Hv]. eapply fails_seq2; [exact Hv|].
  intros r Hr. now apply prim_f.
Qed.
Lemma venb_c i : skip i = opened (S n) -> costs p_venb i (1 + (1 + (c + d))).
Proof.
  intros H. apply (costs_rule tm R_venb), costs_map, costs_seq1, costs_map. destruct (no_sign i H) as [v Hv]. eapply costs_seq2; [exact Hv|].
  intros r Hr. now apply prim_c.
Qed.
Notation c' := (1 + (1 + (c + d)))%N.
Lemma cmp_f i : skip i = opened (S n) -> fails m g_comparison_predicate i.
Proof. intros H. now apply fails_map, fails_seq1, fails_seq1, venb_f. Qed.
Lemma btw_f i : skip i = opened (S n) -> fails m g_between_predicate i.
Proof. intros H. now apply fails_map, fails_seq1, fails_seq1, fails_seq1, fails_seq1, fails_seq1, venb_f. Qed.
Lemma in_f i : skip i = opened (S n) -> fails m g_in_predicate i.
Proof. intros H. now apply fails_map, fails_seq1, fails_seq1, fails_seq1, venb_f. Qed.
Lemma null_f i : skip i = opened (S n) -> fails m g_null_predicate i.
Proof. intros H. now apply fails_map, fails_seq1, fails_seq1, fails_seq1, venb_f. Qed.
Lemma like_f i : skip i = opened (S n) -> fails m g_like_predicate i.
Proof. intros H. now apply fails_map, fails_seq1, fails_seq1, fails_seq1, venb_f. Qed.
Lemma pred_f i : skip i = opened (S n) -> fails m g_predicate i.
Proof.
  intros H. apply fails_alt; [now apply cmp_f|nextalt H]. apply fails_alt; [now apply btw_f|nextalt H]. apply fails_alt; [now apply in_f|nextalt H].
  apply fails_alt; [now apply null_f|nextalt H]. apply fails_alt; [now apply like_f|nextalt H]. first_char H.
Qed.
Lemma pred_c i : skip i = opened (S n) -> costs g_predicate i (c' + (c' + (c' + (c' + c')))).
Proof.
  intros H. apply costs_alt2; [now apply costs_map, costs_seq1, costs_seq1, venb_c|now apply cmp_f|nextalt H].
  apply costs_alt2; [now apply costs_map, costs_seq1, costs_seq1, costs_seq1, costs_seq1, costs_seq1, venb_c|now apply btw_f|nextalt H].
  apply costs_alt2; [now apply costs_map, costs_seq1, costs_seq1, costs_seq1, venb_c|now apply in_f|nextalt H].
  apply costs_alt2; [now apply costs_map, costs_seq1, costs_seq1, costs_seq1, venb_c|now apply null_f|nextalt H].
  now apply costs_alt1, costs_map, costs_seq1, costs_seq1, costs_seq1, venb_c.
Qed.
Lemma no_not i : skip i = opened (S n) -> exists v, reads m (POptLex (kws_soft ["NOT"]%string)) i v (opened (S n)).
Proof. intros H. eexists. rewrite <- H. eapply reads_olex_none; [reflexivity|]. rewrite H. reflexivity. Qed.
Lemma psc_f i : skip i = opened (S n) -> fails m (lit "(" >> p_sc >> lit ")" ==> (fun '(_, s, _) => BP_sc s)) i.
Proof. intros H. apply fails_map, fails_seq1. eapply fails_seq2; [now apply open_lit|]. intros r Hr. now apply Fs. Qed.
Lemma bfac_f i : skip i = opened (S n) -> fails m g_boolean_factor i.
Proof.
  intros H. apply fails_map. destruct (no_not i H) as [v Hv]. eapply fails_seq2; [exact Hv|]. clear i H Hv. intros i H.
  apply fails_alt; [now apply fails_map, pred_f|nextalt H]. apply fails_alt; [now apply psc_f|nextalt H; now apply fails_map, venb_f].
Qed.
Lemma bfac_c i : skip i = opened (S n) -> costs g_boolean_factor i ((c' + (c' + (c' + (c' + c')))) + (d + c')).
Proof.
  intros H. apply costs_map. destruct (no_not i H) as [v Hv]. eapply costs_seq2; [exact Hv|]. clear i H Hv. intros i H.
  apply costs_alt2; [now apply costs_map, pred_c|now apply fails_map, pred_f|nextalt H].
  apply costs_alt2; [|now apply psc_f|nextalt H; now apply costs_map, venb_c].
  apply costs_map, costs_seq1. eapply costs_seq2; [now apply open_lit|]. intros r Hr. now apply Cs.
Qed.
Lemma sc_f i : skip i = opened (S n) -> fails m p_sc i.
Proof.
  intros H. apply (fails_rule m R_sc), fails_alt; [now apply fails_map, fails_seq1, fails_seq1, bfac_f|nextalt H; now apply fails_map, bfac_f].
Qed.
Lemma sc_c i : skip i = opened (S n) -> costs p_sc i (1 + (((c' + (c' + (c' + (c' + c')))) + (d + c')) + ((c' + (c' + (c' + (c' + c')))) + (d + c')))).
Proof.
  intros H. apply (costs_rule tm R_sc), costs_alt2; [now apply costs_map, costs_seq1, costs_seq1, bfac_c|now apply fails_map, fails_seq1, fails_seq1, bfac_f|].
  nextalt H. now apply costs_map, bfac_c.
Qed.
End Step.

Lemma costs_less {A : Set} (e : PE A) i a b : costs e i b -> (a <= b)%N -> costs e i a.
Proof. intros H L n N. specialize (H n N). lia. Qed.
Lemma opened_all n : forall i, skip i = opened n ->
  fails m p_venb i /\ fails m p_sc i /\ costs p_venb i (14 ^ N.of_nat n / 14) /\ costs p_sc i (14 ^ N.of_nat n).
Proof.
  induction n as [|n IH].
  - intros i H. repeat apply conj; try (first_char H).
    + apply costs_0.
    + change (costs p_sc i (1 + 0)). apply (costs_rule tm R_sc), costs_0.
  - assert (A : forall i, skip i = opened n -> fails m p_venb i) by (intros i H; now apply IH).
    assert (B : forall i, skip i = opened n -> fails m p_sc i) by (intros i H; now apply IH).
    assert (D : forall i, skip i = opened n -> costs p_venb i 0) by (intros i H; apply costs_0).
    assert (E : forall i, skip i = opened n -> costs p_sc i (14 ^ N.of_nat n)) by (intros i H; now apply IH).
    intros i H. rewrite Nat2N.inj_succ, N.pow_succ_r'. repeat apply conj.
    + now apply (venb_f n A B).
    + now apply (sc_f n A B).
    + rewrite N.mul_comm, N.div_mul by discriminate. eapply costs_less; [now apply (venb_c n 0 (14 ^ N.of_nat n) A D E)|lia].
    + eapply costs_less; [now apply (sc_c n 0 (14 ^ N.of_nat n) A B D E)|lia].
Qed.

Lemma open_query n : costs (g_query m) (L "SELECT * FROM t WHERE " ++ opened n) (14 ^ N.of_nat n).
Proof.
  set (fmt := fun x : text => x). set (i := L "SELECT * FROM t WHERE " ++ opened n).
  enough (X : forall j, skip j = skip i -> costs (g_query m) j (14 ^ N.of_nat n)) by now apply X. intros j H.
  apply costs_map, costs_seq1, costs_seq1, costs_seq1. eapply costs_seq2 with (v := None) (j := skip i).
  - rewrite <- H. apply reads_none, fails_map. do 3 apply fails_exp1. eapply no_hard; [|exact H]. reflexivity.
  - intros r Hr. apply costs_seq1. clear j H. rename Hr into H. apply costs_map. eapply costs_exp2.
    + eapply (rd_select tm fmt [] top_none (C_star (L "*"))) with (k := L "t WHERE " ++ opened n); [reflexivity|exact I|]. rewrite pr_select_Select. exact H.
    + intros r2 H2. eapply costs_seq2.
      * eapply (rd_from tm fmt [TR_tc (L "t") []]) with (k := L " WHERE " ++ opened n); [discriminate| | |exact H2].
        -- constructor; [|constructor]. destruct (all_read tm fmt) as (_ & _ & _ & A & _). apply A. reflexivity.
        -- right. right. exists "WHERE"%string, (opened n). split; [now left|reflexivity].
      * intros r3 H3. apply costs_opt, costs_map. eapply costs_exp2.
        -- eapply (rd_hard m "WHERE" (L "WHERE") " "%char); [reflexivity..|exact H3].
        -- intros r4 H4. rewrite skip_opened in H4.
           apply costs_skip; [|nextalt H4; apply costs_skip].
           ++ destruct n; first_char H4.
           ++ destruct n as [|n]; [first_char H4|]. apply fails_map, fails_exp1. eapply fails_seq2; [eapply open_lit; exact H4|]. intros r5 H5. destruct n; first_char H5.
           ++ nextalt H4. apply costs_map. now apply opened_all.
Qed.
End Open.
Lemma open_plain n : preprocess (L "SELECT * FROM t WHERE " ++ opened n) = inr (L "SELECT * FROM t WHERE " ++ opened n).
Proof.
  apply not_rewritten. right. split; intros O; apply (occurs_char _ "N"%char) in O; try (vm_compute; tauto).
  all: unfold opened in O; rewrite !map_app, !in_app_iff in O; destruct O as [O|O];
    try (vm_compute in O; intuition discriminate); apply in_map_iff in O as (c & E & I); apply repeat_spec in I; subst c; discriminate E.
Qed.
Theorem open_work tm n : (14 ^ N.of_nat n <= work tm (L "SELECT * FROM t WHERE " ++ opened n))%N.
Proof.
  unfold work. rewrite open_plain. apply open_query. intros E. pose proof (parse_it_total tm (L "SELECT * FROM t WHERE " ++ opened n)) as T.
  unfold parse_it, grun in T. now rewrite E in T.
Qed.
