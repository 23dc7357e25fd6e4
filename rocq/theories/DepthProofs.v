(** Bounds for the number of rules that are open at the same time. *)
From Verif Require Import Query Grammar Print PegProps Nodes Totality PegSpec PegEquiv TextLemmas SpecLexical LexProofs LexProofs2 First Calc Look Tight Operand TopProofs SpecCanon AstInd PrintEq CanonBase CanonLex CanonGeo CanonHead CanonLead CanonFun CanonPrim CanonVal CanonCond CanonJt CanonJoin CanonSel CanonGeom CanonQuery CanonAll Work Spec SpecRewrite RewriteSound QueryProofs WorkProofs Depth.

Section Depths.
Variable tm : mapping.
Notation m := (lookup tm).
Notation R n := (run (g_body m) n _).
Notation D n := (nesting (g_body m) n _).
Ltac first_char H := apply reads_first; rewrite H; vm_compute; reflexivity.

(** ** The fuel bounds the depth *)
Lemma star_depth {A : Set} (b : text -> out A) c x : (forall i, c i <= x) -> forall n i, nesting_star b c n i <= x.
Proof. intros H. induction n as [|n IH]; intros i; cbn [nesting_star]; pose proof (H i); destruct (b i) as [v r|r|e|]; try lia. pose proof (IH r). lia. Qed.
Lemma list_depth {A : Set} (b : text -> out A) c s cs x : (forall i, c i <= x) -> (forall i, cs i <= x) -> forall n i, nesting_list b c s cs n i <= x.
Proof.
  intros H K. induction n as [|n IH]; intros i; cbn [nesting_list]; pose proof (K i); destruct (s i) as [v r|r|e|]; try lia; pose proof (H r); destruct (b r) as [v' r'|r'|e|]; try lia.
  pose proof (IH r'). lia.
Qed.
Lemma nesting_fuel n : forall (A : Set) (e : PE A) i, D n e i <= n.
Proof.
  induction n as [n IHn] using lt_wf_ind.
  intros A e; induction e as [nc s|e|e| | | |A w|A B a IHa b IHb|A B a IHa b IHb|A a IHa b IHb|A a IHa|A a IHa|A a IHa|A a IHa s IHs|A B f a IHa|q]; intros i.
  1-7: destruct n; cbn; lia.
  - assert (E : D n (PSeq a b) i = Nat.max (D n a i) (match R n a i with Ok _ i1 => D n b i1 | _ => 0 end)) by now destruct n.
    rewrite E. pose proof (IHa i). destruct (R n a i) as [v r|r|x|]; try lia. pose proof (IHb r). lia.
  - assert (E : D n (PExp a b) i = Nat.max (D n a i) (match R n a i with Ok _ i1 => D n b i1 | _ => 0 end)) by now destruct n.
    rewrite E. pose proof (IHa i). destruct (R n a i) as [v r|r|x|]; try lia. pose proof (IHb r). lia.
  - assert (E : D n (PAlt a b) i = Nat.max (D n a i) (match R n a i with Fail r => D n b r | _ => 0 end)) by now destruct n.
    rewrite E. pose proof (IHa i). destruct (R n a i) as [v r|r|x|]; try lia. pose proof (IHb r). lia.
  - assert (E : D n (POpt a) i = D n a i) by now destruct n. now rewrite E.
  - assert (E : D n (PStar a) i = nesting_star (R n a) (D n a) (length i) i) by now destruct n. rewrite E. now apply star_depth.
  - assert (E : D n (PPlus a) i = Nat.max (D n a i) (match R n a i with Ok _ i1 => nesting_star (R n a) (D n a) (length i1) i1 | _ => 0 end)) by now destruct n.
    rewrite E. pose proof (IHa i). destruct (R n a i) as [v r|r|x|]; try lia. pose proof (star_depth (R n a) (D n a) n IHa (length r) r). lia.
  - assert (E : D n (PList a s) i = Nat.max (D n a i) (match R n a i with Ok _ i1 => nesting_list (R n a) (D n a) (R n s) (D n s) (length i1) i1 | _ => 0 end)) by now destruct n.
    rewrite E. pose proof (IHa i). destruct (R n a i) as [v r|r|x|]; try lia. pose proof (list_depth (R n a) (D n a) (R n s) (D n s) n IHa IHs (length r) r). lia.
  - assert (E : D n (PMap f a) i = D n a i) by now destruct n. now rewrite E.
  - destruct n as [|n]; [cbn; lia|]. cbn [nesting]. pose proof (IHn n (le_n _) _ (g_body m q) i). lia.
Qed.

(** ** Lower bounds *)
Definition deep {A : Set} (e : PE A) (i : text) (c : nat) : Prop := forall n, R n e i <> OOF -> c <= D n e i.
Lemma deep_0 {A : Set} (e : PE A) i : deep e i 0. Proof. intros n _. lia. Qed.
Lemma deep_rule r i c : deep (g_body m r) i c -> deep (PRule r) i (S c).
Proof. intros H [|n] N; [rewrite run_Rule_0 in N; congruence|]. rewrite run_Rule in N. specialize (H n N). cbn [nesting]. lia. Qed.
Lemma deep_map {A B : Set} (f : A -> B) a i c : deep a i c -> deep (PMap f a) i c.
Proof. intros H n N. assert (E : D n (PMap f a) i = D n a i) by now destruct n. rewrite E. apply H. intros X. apply N. now rewrite run_Map, X. Qed.
Lemma deep_opt {A : Set} (a : PE A) i c : deep a i c -> deep (POpt a) i c.
Proof. intros H n N. assert (E : D n (POpt a) i = D n a i) by now destruct n. rewrite E. apply H. intros X. apply N. now rewrite run_Opt, X. Qed.
Lemma deep_seq1 {A B : Set} (a : PE A) (b : PE B) i c : deep a i c -> deep (PSeq a b) i c.
Proof.
  intros H n N. assert (E : D n (PSeq a b) i = Nat.max (D n a i) (match R n a i with Ok _ i1 => D n b i1 | _ => 0 end)) by now destruct n.
  rewrite E. assert (X : c <= D n a i) by (apply H; intros X; apply N; now rewrite run_Seq, X). lia.
Qed.
Lemma deep_seq2 {A B : Set} (a : PE A) (b : PE B) i v j c : reads m a i v j -> (forall r, skip r = j -> deep b r c) -> deep (PSeq a b) i c.
Proof.
  intros (r & E & Hr) H n N. assert (Q : D n (PSeq a b) i = Nat.max (D n a i) (match R n a i with Ok _ i1 => D n b i1 | _ => 0 end)) by now destruct n.
  rewrite Q. assert (X : R n a i <> OOF) by (intros Y; apply N; now rewrite run_Seq, Y).
  apply (ev_iff_run _ _ _ _ _ n X) in E. rewrite E. assert (Y : c <= D n b r) by (apply (H r Hr); intros Y; apply N; now rewrite run_Seq, E, Y). lia.
Qed.
Lemma deep_exp2 {A B : Set} (a : PE A) (b : PE B) i v j c : reads m a i v j -> (forall r, skip r = j -> deep b r c) -> deep (PExp a b) i c.
Proof.
  intros (r & E & Hr) H n N. assert (Q : D n (PExp a b) i = Nat.max (D n a i) (match R n a i with Ok _ i1 => D n b i1 | _ => 0 end)) by now destruct n.
  rewrite Q. assert (X : R n a i <> OOF) by (intros Y; apply N; now rewrite run_Exp, Y).
  apply (ev_iff_run _ _ _ _ _ n X) in E. rewrite E. assert (Y : c <= D n b r) by (apply (H r Hr); intros Y; apply N; now rewrite run_Exp, E, Y). lia.
Qed.
Lemma deep_alt1 {A : Set} (a b : PE A) i c : deep a i c -> deep (PAlt a b) i c.
Proof.
  intros H n N. assert (Q : D n (PAlt a b) i = Nat.max (D n a i) (match R n a i with Fail r => D n b r | _ => 0 end)) by now destruct n.
  rewrite Q. assert (X : c <= D n a i) by (apply H; intros E; apply N; now rewrite run_Alt, E). lia.
Qed.
Lemma deep_alt2 {A : Set} (a b : PE A) i c : fails m a i -> (forall r, skip r = skip i -> deep b r c) -> deep (PAlt a b) i c.
Proof.
  intros (r & E & Hr) H n N. assert (Q : D n (PAlt a b) i = Nat.max (D n a i) (match R n a i with Fail r => D n b r | _ => 0 end)) by now destruct n.
  rewrite Q. assert (X : R n a i <> OOF) by (intros Y; apply N; now rewrite run_Alt, Y).
  apply (ev_iff_run _ _ _ _ _ n X) in E. rewrite E. assert (Y : c <= D n b r) by (apply (H r Hr); intros Y; apply N; now rewrite run_Alt, E, Y). lia.
Qed.

(** ** Values in parentheses *)
(** n opening parentheses in front, whatever follows *)
Lemma open_depth n : forall k i, skip i = skip (repeat "("%char n ++ k) -> deep p_venb i (2 * n).
Proof.
  induction n as [|n IH]; intros k i H; [apply deep_0|]. replace (2 * S n) with (S (S (2 * n))) by lia.
  change (repeat "("%char (S n) ++ k) with ("("%char :: (repeat "("%char n ++ k)) in H. change (skip ("("%char :: (repeat "("%char n ++ k))) with ("("%char :: (repeat "("%char n ++ k)) in H.
  apply (deep_rule R_venb), deep_map, deep_seq1, deep_map.
  assert (S : exists v, reads m (POptLex s_sign) i v (skip i)) by (eexists; eapply reads_olex_none; [reflexivity|rewrite H; reflexivity]). destruct S as [v Hv].
  eapply deep_seq2; [exact Hv|]. nextalt H. apply deep_alt2; [first_char H|]. nextalt H. apply deep_map, deep_map, deep_seq1.
  do 8 (apply deep_alt2; [first_char H|]; nextalt H). apply deep_map, deep_seq1. eapply deep_seq2; [eapply reads_lit; rewrite H; reflexivity|].
  intros r Hr. apply (deep_rule R_ve), deep_alt1, deep_map. exact (IH k r Hr).
Qed.
Lemma deep_less {A : Set} (e : PE A) i a b : deep e i b -> a <= b -> deep e i a.
Proof. intros H L n N. specialize (H n N). lia. Qed.
Lemma open_query_depth n k0 : let k := "a"%char :: k0 in deep (g_query m) (L "SELECT * FROM t WHERE " ++ repeat "("%char n ++ k) (2 * n).
Proof.
  intros k. set (fmt := fun x : text => x). set (w := repeat "("%char n ++ k). set (i := L "SELECT * FROM t WHERE " ++ w).
  enough (X : forall j, skip j = skip i -> deep (g_query m) j (2 * n)) by now apply X. intros j H.
  apply deep_map, deep_seq1, deep_seq1, deep_seq1. eapply deep_seq2 with (v := None) (j := skip i).
  - rewrite <- H. apply reads_none, fails_map. do 3 apply fails_exp1. eapply no_hard; [|exact H]. reflexivity.
  - intros r Hr. apply deep_seq1. clear j H. rename Hr into H. apply deep_map. eapply deep_exp2.
    + eapply (rd_select tm fmt [] top_none (C_star (L "*"))) with (k := L "t WHERE " ++ w); [reflexivity|exact I|]. rewrite pr_select_Select. exact H.
    + intros r2 H2. eapply deep_seq2.
      * eapply (rd_from tm fmt [TR_tc (L "t") []]) with (k := L " WHERE " ++ w); [discriminate| | |exact H2].
        -- constructor; [|constructor]. destruct (all_read tm fmt) as (_ & _ & _ & A & _). apply A. reflexivity.
        -- right. right. exists "WHERE"%string, w. split; [now left|reflexivity].
      * intros r3 H3. apply deep_opt, deep_map. eapply deep_exp2.
        -- eapply (rd_hard m "WHERE" (L "WHERE") " "%char); [reflexivity..|exact H3].
        -- intros r4 H4. destruct n as [|n]; [apply deep_0|]. assert (H4' : skip r4 = "("%char :: (repeat "("%char n ++ k)) by exact H4.
           clear H4. rename H4' into H4. apply deep_alt2; [first_char H4|]. nextalt H4. apply deep_alt2.
           ++ apply fails_map, fails_exp1. eapply fails_seq2; [eapply reads_lit; rewrite H4; reflexivity|]. intros r5 H5. destruct n; first_char H5.
           ++ nextalt H4. apply deep_map. apply (deep_less p_sc _ _ (S (2 * S n))); [|lia].
              apply (deep_rule R_sc), deep_alt1, deep_map, deep_seq1, deep_seq1, deep_map.
              assert (S : exists v, reads m (POptLex (kws_soft ["NOT"]%string)) q0 v (skip q0)) by (eexists; eapply reads_olex_none; [reflexivity|rewrite H4; reflexivity]).
              destruct S as [v Hv]. eapply deep_seq2; [exact Hv|]. nextalt H4. apply deep_alt1, deep_map, deep_alt1, deep_map, deep_seq1, deep_seq1. exact (open_depth (S n) _ _ H4).
Qed.
End Depths.

Lemma query_depth tm t : parse_depth tm t <= 3 * length t + 4.
Proof. apply nesting_fuel. Qed.
Lemma nested_depth tm n k : 2 * n <= parse_depth tm (L "SELECT * FROM t WHERE " ++ repeat "("%char n ++ "a"%char :: k).
Proof.
  apply open_query_depth. intros E. pose proof (parse_it_total tm (L "SELECT * FROM t WHERE " ++ repeat "("%char n ++ "a"%char :: k)) as T.
  unfold parse_it, grun in T. now rewrite E in T.
Qed.

(** ** An accepted query of any depth *)
Definition atom (v : vepv) : venb := VENB (Factor [] (NP_vep (VEP v []))) [].
Fixpoint deeper (n : nat) : venb := match n with O => atom (VP_col (CR1 (L "a"))) | S n' => atom (VP_sub (VE_nb (deeper n'))) end.
Definition deep_cond (n : nat) : sc := SC_f (BF [] (BP_pred (P_cmp (deeper n) (L "=") (VE_nb (atom (VP_str (L "1"))))))).
Section Text.
Variable fmt : text -> text.
Lemma deeper_canonical n : c_venb fmt (deeper n) = true.
Proof.
  induction n as [|n IH]; [reflexivity|]. cbn [deeper]. unfold atom. rewrite c_venb_VENB, c_factor_Factor, c_nprim_NP_vep, c_vep_VEP, c_vepv_VP_sub, c_ve_VE_nb, IH. reflexivity.
Qed.
Lemma deeper_text n : pr_venb fmt (deeper n) = parens n (L "a").
Proof.
  induction n as [|n IH]; [reflexivity|]. rewrite parens_S, <- IH. cbn [deeper]. unfold atom at 1.
  rewrite pr_venb_VENB, pr_factor_Factor, pr_nprim_NP_vep, pr_vep_VEP, pr_vepv_VP_sub, pr_ve_VE_nb. cbn [map concat app]. now rewrite !app_nil_r.
Qed.
Lemma deep_text0 n : pr_bprim fmt (BP_pred (P_cmp (deeper n) (L "=") (VE_nb (atom (VP_str (L "1")))))) = parens n (L "a") ++ L " = 1".
Proof. rewrite pr_bprim_BP_pred, pr_pred_P_cmp, deeper_text. reflexivity. Qed.
Lemma deep_canonical n : c_sc fmt (deep_cond n) = true.
Proof.
  unfold deep_cond. rewrite c_sc_SC_f, c_bfac_BF, deep_text0, c_bprim_BP_pred, c_pred_P_cmp, deeper_canonical. destruct n; reflexivity.
Qed.
Lemma deep_text n : pr_sc fmt (deep_cond n) = parens n (L "a") ++ L " = 1".
Proof. unfold deep_cond. rewrite pr_sc_f by apply deep_canonical. rewrite pr_bfac_BF, deep_text0. reflexivity. Qed.
End Text.
Lemma deep_plain n : preprocess (L "SELECT * FROM t WHERE " ++ parens n (L "a") ++ L " = 1") = inr (L "SELECT * FROM t WHERE " ++ parens n (L "a") ++ L " = 1").
Proof.
  apply not_rewritten. right. split; intros O; apply (occurs_char _ "N"%char) in O; try (vm_compute; tauto).
  all: unfold parens in O; rewrite !map_app, !in_app_iff in O; destruct O as [O|[[O|[O|O]]|O]];
    try (vm_compute in O; intuition discriminate); apply in_map_iff in O as (c & E & I); apply repeat_spec in I; subst c; discriminate E.
Qed.
Lemma deep_accepted tm n : query tm (L "SELECT * FROM t WHERE " ++ parens n (L "a") ++ L " = 1") = Q_ok (star_query (deep_cond n)).
Proof.
  unfold query. rewrite deep_plain. set (fmt := fun x : text => x). rewrite <- (deep_text fmt), <- star_text by apply deep_canonical.
  destruct (parse_cost tm fmt 0 (deep_cond n) (deep_canonical fmt n)) as [Q _]. exact Q.
Qed.
