(** Lower bounds for the number of rules entered. *)
From Verif Require Import Query Grammar Print PegProps Nodes Totality PegSpec PegEquiv TextLemmas SpecLexical LexProofs LexProofs2 First Calc Look Tight Operand TopProofs SpecCanon AstInd PrintEq CanonBase CanonLex CanonGeo CanonHead CanonLead CanonFun CanonPrim CanonVal CanonCond CanonJt CanonJoin CanonSel CanonGeom CanonQuery CanonAll Work Spec SpecRewrite RewriteSound QueryProofs.

Ltac nextalt H := let r := fresh "q" in let E := fresh in intros r E; rewrite <- E in H; clear E.
Section Costs.
Variable tm : mapping.
Notation m := (lookup tm).
Notation R n := (run (g_body m) n _).
Notation C n := (calls (g_body m) n _).
Notation EV := (ev (g_body m) _).
(** every complete evaluation of [e] on [i] enters at least [c] rules *)
Definition costs {A : Set} (e : PE A) (i : text) (c : N) : Prop := forall n, R n e i <> OOF -> (c <= C n e i)%N.

Lemma calls_seq n {A B : Set} (a : PE A) (b : PE B) i : C n (PSeq a b) i = (C n a i + match R n a i with Ok _ i1 => C n b i1 | _ => 0 end)%N.
Proof. now destruct n. Qed.
Lemma calls_exp n {A B : Set} (a : PE A) (b : PE B) i : C n (PExp a b) i = (C n a i + match R n a i with Ok _ i1 => C n b i1 | _ => 0 end)%N.
Proof. now destruct n. Qed.
Lemma calls_alt n {A : Set} (a b : PE A) i : C n (PAlt a b) i = (C n a i + match R n a i with Fail r => C n b r | _ => 0 end)%N.
Proof. now destruct n. Qed.
Lemma calls_opt n {A : Set} (a : PE A) i : C n (POpt a) i = C n a i.
Proof. now destruct n. Qed.
Lemma calls_map n {A B : Set} (f : A -> B) (a : PE A) i : C n (PMap f a) i = C n a i.
Proof. now destruct n. Qed.

Lemma costs_0 {A : Set} (e : PE A) i : costs e i 0. Proof. intros n _. lia. Qed.
Lemma costs_rule r i c : costs (g_body m r) i c -> costs (PRule r) i (1 + c).
Proof. intros H [|n] N; [rewrite run_Rule_0 in N; congruence|]. rewrite run_Rule in N. specialize (H n N). cbn [calls]. lia. Qed.
Lemma costs_map {A B : Set} (f : A -> B) a i c : costs a i c -> costs (PMap f a) i c.
Proof. intros H n N. rewrite calls_map. apply H. intros E. apply N. now rewrite run_Map, E. Qed.
Lemma costs_opt {A : Set} (a : PE A) i c : costs a i c -> costs (POpt a) i c.
Proof. intros H n N. rewrite calls_opt. apply H. intros E. apply N. now rewrite run_Opt, E. Qed.
Lemma costs_seq1 {A B : Set} (a : PE A) (b : PE B) i c : costs a i c -> costs (PSeq a b) i c.
Proof. intros H n N. rewrite calls_seq. assert (X : (c <= C n a i)%N) by (apply H; intros E; apply N; now rewrite run_Seq, E). lia. Qed.
Lemma costs_seq2 {A B : Set} (a : PE A) (b : PE B) i v j c : reads m a i v j -> (forall r, skip r = j -> costs b r c) -> costs (PSeq a b) i c.
Proof.
  intros (r & E & Hr) H n N. rewrite calls_seq. assert (X : R n a i <> OOF) by (intros Y; apply N; now rewrite run_Seq, Y).
  apply (ev_iff_run _ _ _ _ _ n X) in E. rewrite E. assert (Y : (c <= C n b r)%N) by (apply (H r Hr); intros Y; apply N; now rewrite run_Seq, E, Y). lia.
Qed.
Lemma costs_exp1 {A B : Set} (a : PE A) (b : PE B) i c : costs a i c -> costs (PExp a b) i c.
Proof. intros H n N. rewrite calls_exp. assert (X : (c <= C n a i)%N) by (apply H; intros E; apply N; now rewrite run_Exp, E). lia. Qed.
Lemma costs_exp2 {A B : Set} (a : PE A) (b : PE B) i v j c : reads m a i v j -> (forall r, skip r = j -> costs b r c) -> costs (PExp a b) i c.
Proof.
  intros (r & E & Hr) H n N. rewrite calls_exp. assert (X : R n a i <> OOF) by (intros Y; apply N; now rewrite run_Exp, Y).
  apply (ev_iff_run _ _ _ _ _ n X) in E. rewrite E. assert (Y : (c <= C n b r)%N) by (apply (H r Hr); intros Y; apply N; now rewrite run_Exp, E, Y). lia.
Qed.
Lemma costs_alt1 {A : Set} (a b : PE A) i c : costs a i c -> costs (PAlt a b) i c.
Proof. intros H n N. rewrite calls_alt. assert (X : (c <= C n a i)%N) by (apply H; intros E; apply N; now rewrite run_Alt, E). lia. Qed.
Lemma costs_alt2 {A : Set} (a b : PE A) i c c' : costs a i c -> fails m a i -> (forall r, skip r = skip i -> costs b r c') -> costs (PAlt a b) i (c + c').
Proof.
  intros K (r & E & Hr) H n N. rewrite calls_alt. assert (X : R n a i <> OOF) by (intros Y; apply N; now rewrite run_Alt, Y).
  specialize (K n X). apply (ev_iff_run _ _ _ _ _ n X) in E. rewrite E. assert (Y : (c' <= C n b r)%N) by (apply (H r Hr); intros Y; apply N; now rewrite run_Alt, E, Y). lia.
Qed.

Variable fmt : text -> text.
Fixpoint wrapped (n : nat) (s : sc) : sc := match n with O => s | S n' => SC_f (BF [] (BP_sc (wrapped n' s))) end.
Lemma wrapped_canonical n s : c_sc fmt s = true -> c_sc fmt (wrapped n s) = true.
Proof. intros H. induction n as [|n IH]; [exact H|]. cbn [wrapped]. rewrite c_sc_SC_f, c_bfac_BF, c_bprim_BP_sc, IH, pr_bprim_BP_sc. reflexivity. Qed.
Lemma sc_all s : c_sc fmt s = true -> Rsc m fmt s /\ Vsc m fmt s.
Proof. destruct (all_read tm fmt) as (_ & _ & A & _). apply A. Qed.
Lemma wrapped_cost n s : c_sc fmt s = true -> forall i k, vstop k = true -> bstop k = true -> pstop k = true ->
  skip i = skip (pr_sc fmt (wrapped n s) ++ k) -> costs p_sc i (2 ^ N.of_nat n).
Proof.
  intros Cs. induction n as [|n IH]; intros i k V B P H.
  { change (costs p_sc i (1 + 0)). apply (costs_rule R_sc), costs_0. }
  assert (E : (2 ^ N.of_nat (S n) = 2 ^ N.of_nat n + 2 ^ N.of_nat n)%N) by (rewrite Nat2N.inj_succ, N.pow_succ_r'; lia). rewrite E. clear E.
  assert (CW : c_sc fmt (wrapped (S n) s) = true) by now apply wrapped_canonical. assert (CN : c_sc fmt (wrapped n s) = true) by now apply wrapped_canonical.
  cbn [wrapped] in *. set (w := wrapped n s) in *. rewrite pr_sc_f in H by exact CW. destruct (sc_all w CN) as [Rw Vw].
  assert (RF : forall r, skip r = skip (pr_bfac fmt (BF [] (BP_sc w)) ++ k) -> reads m g_boolean_factor r (BF [] (BP_sc w)) (skip k)).
  { intros r Hr. apply (rd_bfac m fmt [] (BP_sc w)) with (k := k); auto.
    - split; [|]; rewrite pr_bprim_BP_sc; reflexivity.
    - now apply rd_bsc. }
  assert (CF : forall r, skip r = skip (pr_bfac fmt (BF [] (BP_sc w)) ++ k) -> costs g_boolean_factor r (2 ^ N.of_nat n)).
  { clear i H. intros i H. rewrite pr_bfac_BF, <- app_assoc in H. apply costs_map. eapply (costs_seq2 _ _ _ []).
    - eapply no_osofts; [|exact H]. rewrite pr_bprim_BP_sc. reflexivity.
    - intros r Hr. clear H. rename Hr into H. cbn [nl_sp is_nil app] in H. rewrite pr_bprim_BP_sc, <- !app_assoc in H. replace (2 ^ N.of_nat n)%N with (0 + 2 ^ N.of_nat n)%N by lia.
      apply costs_alt2; [apply costs_0| |].
      + apply fails_map. destruct (Vw k) as [_ V2]. destruct (is_value w).
        * destruct (V2 V) as [v Hv]. eapply no_pred_val; [|exact P|]; [|rewrite H; reflexivity]. intros r' Hr'. apply Hv. congruence.
        * apply no_pred; [|rewrite H; reflexivity]. intros r' Hr'. apply V2. congruence.
      + nextalt H. apply costs_alt1, costs_map, costs_seq1. eapply (costs_seq2 _ _ _ tt).
        * eapply rd_lit; [|exact H]. reflexivity.
        * intros r' Hr'. eapply (IH r' (L ")" ++ k)); [reflexivity..|exact Hr']. }
  intros x NX. enough (X : (2 ^ N.of_nat n + 2 ^ N.of_nat n <= C x p_sc i)%N) by exact X. revert x NX.
  enough (X : costs p_sc i (1 + (2 ^ N.of_nat n + 2 ^ N.of_nat n))) by (intros x NX; specialize (X x NX); lia).
  apply (costs_rule R_sc). apply costs_alt2.
  - apply costs_map, costs_seq1, costs_seq1. now apply CF.
  - apply fails_map, fails_seq1. eapply fails_seq2; [apply RF; exact H|]. intros r Hr. eapply sfail_lex; [|exact B|exact Hr]. reflexivity.
  - nextalt H. apply costs_map. now apply CF.
Qed.

Definition star_query (s : sc) : qspec :=
  QS None (SFW (Select [] top_none (C_star (L "*"))) [TR_tc (L "t") []] (Where None (Some s))) [] [] None [].
Lemma star_canonical s : c_sc fmt s = true -> canonical fmt (star_query s) = true.
Proof.
  intros Cs. unfold canonical, star_query. rewrite c_qspec_QS, c_sfw_SFW, c_select_Select, c_where_Where. rewrite Cs. reflexivity.
Qed.
Lemma star_text s : c_sc fmt s = true -> to_string fmt (star_query s) = L "SELECT * FROM t WHERE " ++ pr_sc fmt s.
Proof.
  intros Cs. unfold to_string, star_query. rewrite pr_qspec_QS, pr_sfw_SFW, pr_select_Select, pr_where_Where. cbn [where_empty opt_empty andb].
  rewrite (sc_nonempty fmt s Cs). cbn [is_nil map concat]. rewrite !app_nil_r. reflexivity.
Qed.
Lemma star_cost n s : c_sc fmt s = true -> costs (g_query m) (L "SELECT * FROM t WHERE " ++ pr_sc fmt (wrapped n s)) (2 ^ N.of_nat n).
Proof.
  intros Cs. pose proof (wrapped_canonical n s Cs) as CW. set (w := wrapped n s) in *. set (i := L "SELECT * FROM t WHERE " ++ pr_sc fmt w).
  enough (X : forall j, skip j = skip i -> costs (g_query m) j (2 ^ N.of_nat n)) by now apply X. intros j H.
  apply costs_map, costs_seq1, costs_seq1, costs_seq1. eapply costs_seq2 with (v := None) (j := skip i).
  - rewrite <- H. apply reads_none, fails_map. do 3 apply fails_exp1. eapply no_hard; [|exact H]. reflexivity.
  - intros r Hr. apply costs_seq1. clear j H. rename Hr into H. apply costs_map. eapply costs_exp2.
    + eapply (rd_select tm fmt [] top_none (C_star (L "*"))) with (k := L "t WHERE " ++ pr_sc fmt w); [reflexivity|exact I|]. rewrite pr_select_Select. exact H.
    + intros r2 H2. eapply costs_seq2.
      * eapply (rd_from tm fmt [TR_tc (L "t") []]) with (k := L " WHERE " ++ pr_sc fmt w); [discriminate| | |exact H2].
        -- constructor; [|constructor]. destruct (all_read tm fmt) as (_ & _ & _ & A & _). apply A. reflexivity.
        -- right. right. exists "WHERE"%string, (pr_sc fmt w). split; [now left|reflexivity].
      * intros r3 H3. apply costs_opt, costs_map. eapply costs_exp2.
        -- eapply (rd_hard m "WHERE" (L "WHERE") " "%char); [reflexivity..|exact H3].
        -- intros r4 H4. rewrite <- (app_nil_r (pr_sc fmt w)) in H4.
           replace (2 ^ N.of_nat n)%N with (0 + (0 + 2 ^ N.of_nat n))%N by lia.
           apply costs_alt2; [apply costs_0| |].
           ++ apply fails_map, fails_seq1. eapply (sc_nogeo m fmt w []); [exact CW|exact I|exact I|exact H4].
           ++ nextalt H4. apply costs_alt2; [apply costs_0| |].
              ** apply fails_map, fails_exp1. eapply (sc_noparen m fmt w []); [exact CW|exact I|exact H4].
              ** nextalt H4. apply costs_map. eapply (wrapped_cost n s Cs _ []); [reflexivity..|exact H4].
Qed.

Lemma parse_cost n s : c_sc fmt s = true -> let t := to_string fmt (star_query (wrapped n s)) in
  parse_it tm t = Q_ok (star_query (wrapped n s)) /\ (2 ^ N.of_nat n <= parse_work tm t)%N.
Proof.
  intros Cs t. pose proof (wrapped_canonical n s Cs) as CW. pose proof (star_canonical _ CW) as CQ.
  assert (Q : parse_it tm t = Q_ok (star_query (wrapped n s))).
  { apply parse_it_ok. destruct (all_read tm fmt) as (_ & _ & _ & _ & _ & A).
    destruct (A _ true CQ t [] (or_introl eq_refl)) as (r & E & S); [now rewrite app_nil_r|]. exists r. split; [exact E|now apply skip_white]. }
  split; [exact Q|]. unfold parse_work. subst t. rewrite star_text in Q |- * by exact CW. apply (star_cost n s Cs). intros E.
  unfold parse_it, grun in Q. rewrite E in Q. discriminate.
Qed.
End Costs.

(** The text of n pairs of parentheses around a = 1. *)
Definition parens (n : nat) (t : text) : text := repeat "("%char n ++ t ++ repeat ")"%char n.
Definition a_is_1 : sc := SC_f (BF [] (BP_pred (P_cmp (VENB (Factor [] (NP_vep (VEP (VP_col (CR1 (L "a"))) []))) []) (L "=") (VE_nb (VENB (Factor [] (NP_vep (VEP (VP_str (L "1")) []))) []))))).
Lemma parens_S n t : parens (S n) t = "("%char :: parens n t ++ [")"%char].
Proof. unfold parens. cbn [repeat app]. f_equal. rewrite <- !app_assoc. do 2 f_equal. change (")"%char :: repeat ")"%char n) with (repeat ")"%char (S n)). now rewrite <- repeat_cons. Qed.
Lemma wrapped_text fmt n s : c_sc fmt s = true -> pr_sc fmt (wrapped n s) = parens n (pr_sc fmt s).
Proof.
  intros Cs. induction n as [|n IH]; [unfold parens; cbn [repeat wrapped app]; now rewrite app_nil_r|]. rewrite parens_S, <- IH.
  pose proof (wrapped_canonical fmt (S n) s Cs) as CW. cbn [wrapped] in CW |- *. rewrite pr_sc_f by exact CW. rewrite pr_bfac_BF, pr_bprim_BP_sc. reflexivity.
Qed.
Lemma occurs_char w c t : occurs_nc w t -> In (upc c) (map upc w) -> In (upc c) (map upc t).
Proof.
  intros (a & x & b & -> & E) I. rewrite !map_app, !in_app_iff. right. left. unfold upper in E. now rewrite E.
Qed.
Lemma nested_plain n : preprocess (L "SELECT * FROM t WHERE " ++ parens n (L "a = 1")) = inr (L "SELECT * FROM t WHERE " ++ parens n (L "a = 1")).
Proof.
  apply not_rewritten. right. split; intros O; apply (occurs_char _ "N"%char) in O; try (vm_compute; tauto).
  all: unfold parens in O; rewrite !map_app, !in_app_iff in O; destruct O as [O|[O|[O|O]]];
    try (vm_compute in O; intuition discriminate); apply in_map_iff in O as (c & E & I); apply repeat_spec in I; subst c; discriminate E.
Qed.
Theorem nested_work tm n :
  let input := L "SELECT * FROM t WHERE " ++ parens n (L "a = 1") in
  (exists q, query tm input = Q_ok q) /\ (2 ^ N.of_nat n <= work tm input)%N.
Proof.
  intros input. set (fmt := fun x : text => x). assert (Cs : c_sc fmt a_is_1 = true) by reflexivity.
  destruct (parse_cost tm fmt n a_is_1 Cs) as [Q W]. rewrite star_text in Q, W by now apply wrapped_canonical. rewrite wrapped_text in Q, W by exact Cs.
  unfold query, work, input. rewrite nested_plain. split; [eexists; exact Q|exact W].
Qed.
