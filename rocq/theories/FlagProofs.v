(** Other spellings of conditions on geometries, in the texts of canonical queries (C23, C24). *)
From Verif Require Import Spec SpecSpelling SpecSystem SpecFlags Query Grammar Print Nodes Totality PegSpec PegEquiv TextLemmas SpecLexical LexProofs LexProofs2 First Calc Look Tight SpecCanon PrintEq CanonBase CanonLex CanonGeo CanonHead CanonLead CanonVal CanonCond CanonJt CanonJoin CanonSel CanonGeom CanonQuery CanonAll CanonPrim QueryProofs RewriteSound Written.

Section Flags.
Variable tm : mapping.
Variable fmt : text -> text.
Notation m := (lookup tm).
Notation reads := (Calc.reads m).
Notation fails := (Calc.fails m).

Lemma arguments_rest s : shape_arguments fmt s ++ L ")" = shape_rest fmt s.
Proof. destruct s; cbn [shape_arguments shape_rest]; now rewrite <- ?app_assoc. Qed.
Lemma rd_operand o t i k : c_soc fmt o = true -> operand_spelt fmt o t -> gstop k -> skip i = skip (t ++ k) -> reads (g_shape_or_column m) i o (skip k).
Proof.
  intros C S K H. destruct o as [s|c].
  - destruct S as (word & w & a & -> & U & W & A). rewrite <- !app_assoc, (app_assoc (shape_arguments fmt s)), arguments_rest in H. apply reads_alt1. eapply reads_map with (v := s); [|reflexivity].
    eapply rd_shape_nc; [exact C|exact U|exact W|exact A|exact H].
  - cbn in S. subst t. now apply (rd_soc m fmt).
Qed.
Lemma rd_predicate p t i k : c_gpred fmt p = true -> predicate_spelt fmt p t -> skip i = skip (t ++ k) -> reads (g_contains m <|> g_intersects m) i p (skip k).
Proof.
  intros C S H. destruct p as [e b|a b].
  - destruct S as (v & -> & V). rewrite c_gpred_GP_intersects in C. apply andb_true_iff in C as [C1 C2]. rewrite <- !app_assoc in H. apply reads_alt2.
    { apply fails_map. do 4 apply fails_exp1. apply fails_seq1. eapply no_kw; [|exact H]. reflexivity. }
    intros r0 H0. rewrite H in H0. eapply reads_map with (v := (tt, tt, e, tt, b, tt)); [|reflexivity].
    eapply reads_exp; [eapply reads_exp; [eapply reads_exp; [eapply reads_exp; [eapply reads_seq|]|]|]|].
    + eapply (rd_kw m "INTERSECTS" (L "INTERSECTS")); [reflexivity|reflexivity|]. exact H0.
    + intros r Hr. eapply rd_open. exact Hr.
    + intros r Hr. destruct (all_read tm fmt) as (A & _). eapply (ve_arg m fmt e (A e C1)); [|exact Hr]. reflexivity.
    + intros r Hr. eapply rd_comma. exact Hr.
    + intros r Hr. eapply rd_operand; [exact C2|exact V| |exact Hr]. eexists. right. reflexivity.
    + intros r Hr. eapply rd_close. exact Hr.
  - destruct S as (u & v & -> & U & V). rewrite c_gpred_GP_contains in C. apply andb_true_iff in C as [C1 C2]. rewrite <- !app_assoc in H. apply reads_alt1.
    eapply reads_map with (v := (tt, tt, a, tt, b, tt)); [|reflexivity].
    eapply reads_exp; [eapply reads_exp; [eapply reads_exp; [eapply reads_exp; [eapply reads_seq|]|]|]|].
    + eapply (rd_kw m "CONTAINS" (L "CONTAINS")); [reflexivity|reflexivity|]. exact H.
    + intros r Hr. eapply rd_open. exact Hr.
    + intros r Hr. eapply rd_operand; [exact C1|exact U| |exact Hr]. eexists. left. reflexivity.
    + intros r Hr. eapply rd_comma. exact Hr.
    + intros r Hr. eapply rd_operand; [exact C2|exact V| |exact Hr]. eexists. right. reflexivity.
    + intros r Hr. eapply rd_close. exact Hr.
Qed.
Lemma predicate_first p t k : predicate_spelt fmt p t -> exists r, t ++ k = "C"%char :: r \/ t ++ k = "I"%char :: r.
Proof. destruct p; cbn; [intros (v & -> & _)|intros (u & v & -> & _)]; eexists; [right|left]; reflexivity. Qed.
Lemma no_left_spelt p t i k : predicate_spelt fmt p t -> skip i = skip (t ++ k) -> fails (g_geometry_left m) i.
Proof. intros S H. apply fails_map, fails_seq1, fails_seq1. destruct (predicate_first p t k S) as (r & [E|E]); rewrite E in H; (eapply (first_byte m); [exact H|reflexivity]). Qed.
Lemma rd_spelt p f t g i k : c_gpred fmt p = true -> flag f -> geometry_spelt fmt p f t g -> noeq k -> skip i = skip (t ++ k) -> reads (g_geometry m) i g (skip k).
Proof.
  intros C F S K H. destruct S as [u f w w' P W W'|u f w w' P W W'|u P].
  - rewrite <- !app_assoc in H. apply reads_alt2; [eapply no_left_spelt; [exact P|exact H]|]. intros r0 H0. rewrite H in H0. eapply reads_map with (v := (p, f)); [|reflexivity].
    eapply reads_seq; [eapply rd_predicate; [exact C|exact P|exact H0]|]. intros r Hr. rewrite skip_w in Hr by exact W. apply reads_alt1.
    eapply reads_map with (v := (tt, f)); [|reflexivity]. eapply reads_exp; [eapply rd_lit; [|exact Hr]; reflexivity|].
    intros r2 H2. rewrite skip_w in H2 by exact W'. now apply (rd_flag tm).
  - rewrite <- !app_assoc in H. apply reads_alt1. eapply reads_map with (v := (f, tt, p)); [|reflexivity]. eapply reads_seq; [eapply reads_seq|].
    + eapply (rd_flag tm); [exact F|exact H].
    + intros r Hr. rewrite skip_w in Hr by exact W. eapply rd_lit; [|exact Hr]; reflexivity.
    + intros r Hr. rewrite skip_w in Hr by exact W'. eapply rd_predicate; [exact C|exact P|exact Hr].
  - apply reads_alt2; [eapply no_left_spelt; [exact P|exact H]|]. intros r0 H0. rewrite H in H0. eapply reads_map with (v := (p, L "1")); [|reflexivity].
    eapply reads_seq; [eapply rd_predicate; [exact C|exact P|exact H0]|]. intros r Hr.
    apply reads_alt2; [|intros r2 H2; rewrite <- Hr, <- H2; apply reads_ret]. apply fails_map, fails_exp1. eapply (no_lit m "=" r k); [|exact Hr].
    unfold noeq in K. destruct (skip k) as [|c x]; [reflexivity|]. cbn [strip L list_ascii_of_string eq_ch]. rewrite Ascii.eqb_sym, K. reflexivity.
Qed.
Lemma spelt_facts w t w' : c_where fmt true w = true -> where_spelt fmt w t w' ->
  match w with Where (Some (G_right p f)) s => c_gpred fmt p = true /\ flag f /\ (forall x, s = Some x -> c_sc fmt x = true) | Where (Some _) _ => False | Where None s => forall x, s = Some x -> c_sc fmt x = true end.
Proof.
  intros C S. assert (X : forall p f s, c_where fmt true (Where (Some (G_right p f)) s) = true -> c_gpred fmt p = true /\ flag f /\ (forall x, s = Some x -> c_sc fmt x = true)).
  { intros p f s C0. rewrite c_where_Where in C0. apply andb_true_iff in C0 as [Cg Cs]. rewrite c_geom_G_right in Cg. cbn [andb] in Cg. apply andb_true_iff in Cg as [Cp Cf].
    apply one_of_iff in Cf. split; [exact Cp|]. split; [|intros x ->; exact Cs]. destruct Cf as [<-|[<-|[]]]; [now left|now right]. }
  destruct S; try (now apply X); rewrite c_where_Where in C; apply andb_true_iff in C as [_ Cs]; intros x E; [discriminate|]. now injection E as <-.
Qed.
Lemma rd_where_spelt w t w' i k : c_where fmt true w = true -> where_spelt fmt w t w' -> fol later k -> skip i = skip (t ++ k) -> reads (POpt (g_where m)) i (wopt w') (skip k).
Proof.
  intros C S K H. pose proof (spelt_facts w t w' C S) as X. destruct (all_read tm fmt) as (_ & _ & ASC & _).
  pose proof (later_fol fmt k K) as K'. destruct (fol_facts tm k K') as (V & (_ & _ & B & P) & _). pose proof (fol_noeq k K') as NE. pose proof (vstop_bnd k V) as BK.
  destruct S as [|s|p f t g G|p f t g G|p f t g s G].
  - apply (rd_where tm fmt true (Where None None)); [exact C|split; discriminate|exact K|exact H].
  - specialize (X s eq_refl). destruct (ASC s X) as [Rs _]. apply (rd_where tm fmt true (Where None (Some s))); [exact C|split; [discriminate|]|exact K|].
    + intros x E. now injection E as <-.
    + cbn [where_empty opt_empty]. rewrite (sc_nonempty fmt s X). cbn [andb]. rewrite pr_where_Where, (sc_nonempty fmt s X). exact H.
  - destruct X as (Cp & F & _). apply reads_some. rewrite <- app_assoc in H. eapply reads_map with (v := ([], Where (Some g) None)); [|reflexivity]. eapply reads_exp.
    + eapply (rd_hard m "WHERE" (L "WHERE") " "%char); [reflexivity..|exact H].
    + intros r Hr. apply reads_alt1. eapply reads_map with (v := (g, None)); [|reflexivity]. eapply (reads_seq m _ _ _ _ (skip k)); [eapply rd_spelt; [exact Cp|exact F|exact G|exact NE|exact Hr]|].
      intros r2 H2. rewrite <- H2. apply reads_none. apply fails_map, fails_exp1. clear - K H2. destruct K as [->|[(t & ->)|(w & t & I & ->)]]; [..|cbn [In later] in I; repeat (destruct I as [I|I]); [..|destruct I]; subst]; (eapply no_kw; [|exact H2]; reflexivity).
  - destruct X as (Cp & F & _). apply reads_some. rewrite <- !app_assoc in H. eapply reads_map with (v := ([], Where (Some g) None)); [|reflexivity]. eapply reads_exp.
    + eapply (rd_hard m "WHERE" (L "WHERE") " "%char); [reflexivity..|exact H].
    + intros r Hr. apply reads_alt2; [apply fails_map, fails_seq1; eapply (look_class m); [exact Hr|reflexivity]|]. intros r2 H2. rewrite Hr in H2.
      apply reads_alt1. eapply reads_map with (v := (tt, g, tt)); [|reflexivity]. eapply reads_exp; [eapply reads_seq|].
      * eapply rd_open. exact H2.
      * intros r3 H3. eapply (rd_spelt p f t g r3 (L ")" ++ k)); [exact Cp|exact F|exact G|reflexivity|exact H3].
      * intros r3 H3. eapply rd_close. exact H3.
  - destruct X as (Cp & F & Cs). specialize (Cs s eq_refl). destruct (ASC s Cs) as [Rs _]. apply reads_some. rewrite <- !app_assoc in H. eapply reads_map with (v := ([], Where (Some g) (Some s))); [|reflexivity]. eapply reads_exp.
    + eapply (rd_hard m "WHERE" (L "WHERE") " "%char); [reflexivity..|exact H].
    + intros r Hr. apply reads_alt1. eapply reads_map with (v := (g, Some s)); [|reflexivity]. eapply (reads_seq m _ _ _ _ (skip (L " AND " ++ pr_sc fmt s ++ k))); [eapply (rd_spelt p f t g r (L " AND " ++ pr_sc fmt s ++ k)); [exact Cp|exact F|exact G|reflexivity|exact Hr]|].
      intros r2 H2. apply reads_some. eapply reads_map with (v := (tt, s)); [|reflexivity]. eapply reads_exp; [eapply (rd_kw m "AND" (L "AND")); [reflexivity|reflexivity|exact H2]|].
      intros r3 H3. apply Rs; auto.
Qed.
Lemma canonical_select s : c_select fmt s = true -> Rselect tm fmt s.
Proof.
  intros C. destruct s as [q t c]. pose proof C as C'. rewrite c_select_Select in C. apply andb_true_iff in C as [_ C]. apply rd_select; [exact C'|].
  destruct c as [s|l]; [exact I|]. destruct (all_read tm fmt) as (A & _). rewrite c_columns_C_list in C. apply andb_true_iff in C as [_ C].
  apply Forall_forall. intros x X. pose proof (proj1 (forallb_forall _ _) C x X) as Cx. destruct x as [e a|s|e].
  - rewrite c_colv_CV_as in Cx. apply andb_true_iff in Cx as [C1 C2]. apply rd_as; [now apply A|now apply is_name_ok].
  - rewrite c_colv_CV_star in Cx. now apply rd_item_star.
  - rewrite c_colv_CV_ve in Cx. apply rd_item_ve; [now apply A|exact Cx].
Qed.
Lemma where_text w t w' k : where_spelt fmt w t w' -> fol later k -> fol clauses (t ++ k).
Proof.
  intros S K. destruct S; [now apply (later_fol fmt)|..]; right; right; eexists "WHERE"%string, _; (split; [now left|]); rewrite <- ?app_assoc; try reflexivity.
Qed.
Lemma rd_sfw_spelt s t s' i k : c_sfw fmt true s = true -> sfw_spelt fmt s t s' -> fol later k -> skip i = skip (t ++ k) -> reads (g_sfw_gen m (g_where m)) i s' (skip k).
Proof.
  intros C S K H. destruct S as [s ts w t w' S]. rewrite c_sfw_SFW in C. rewrite <- !app_assoc in H. apply andb_true_iff in C as [C Cw]. apply andb_true_iff in C as [C Ct]. apply andb_true_iff in C as [Cs Cn].
  eapply reads_map with (v := (s, (ts, wopt w'))); [|now rewrite wopt_odef]. eapply reads_exp; [apply (canonical_select s Cs); exact H|].
  intros r Hr. destruct (all_read tm fmt) as (_ & _ & _ & AT & _).
  eapply reads_seq; [apply (rd_from tm fmt ts r (t ++ k)); [now intros ->| |eapply where_text; eauto|exact Hr]|].
  - apply Forall_forall. intros x X. apply AT. now apply (proj1 (forallb_forall _ _) Ct).
  - intros r2 H2. eapply rd_where_spelt; eauto.
Qed.
Lemma sfw_start s t s' k : sfw_spelt fmt s t s' -> exists r, t ++ k = L "SELECT " ++ r.
Proof. intros [[q top c] ts w u w' S]. rewrite pr_select_Select, <- !app_assoc. eexists. reflexivity. Qed.
Lemma op_start op s t s' k : one_of op ["UNION"; "UNION ALL"; "UNION DISTINCT"]%string = true -> sfw_spelt fmt s t s' -> fol ["UNION"]%string (L " " ++ op ++ L " " ++ t ++ k).
Proof.
  intros Co S. right. right. destruct (sfw_start _ _ _ k S) as (r & ->). exists "UNION"%string. apply one_of_iff in Co.
  cbn [map In] in Co. repeat (destruct Co as [<-|Co]); [..|destruct Co]; eexists; (split; [now left|reflexivity]).
Qed.
Lemma rd_addons_spelt ad u ad' : addons_spelt fmt ad u ad' -> forallb (c_addon fmt true) ad = true -> forall i k, fol ["GROUP"; "HAVING"; "ORDER"]%string k -> skip i = skip (u ++ k) ->
  reads (PStar (g_addon_gen m (g_where m))) i ad' (skip k).
Proof.
  intros S. induction S as [|op s t s' l u l' S SS IH]; intros C i k K H.
  - cbn [app] in H. rewrite <- H. apply reads_star_nil. apply fails_map, fails_seq1. clear - K H. destruct K as [->|[(t & ->)|(w & t & I & ->)]]; [..|cbn [In] in I; repeat (destruct I as [I|I]); [..|destruct I]; subst]; (eapply no_softs; [|exact H]; reflexivity).
  - cbn [forallb] in C. apply andb_true_iff in C as [C Cl]. rewrite c_addon_Addon in C. apply andb_true_iff in C as [Co Cs]. pose proof Co as Co'. apply one_of_iff in Co. rewrite <- !app_assoc in H.
    eapply (reads_star_cons m _ _ _ (skip (u ++ k))).
    + eapply reads_map with (v := (op, s')); [|reflexivity]. eapply (reads_seq m _ _ _ _ (skip (L " " ++ t ++ u ++ k))).
      * destruct (sfw_start s t s' (u ++ k) S) as (r & E). rewrite E in *. eapply reads_lex; [reflexivity|]. rewrite H. cbn [map In] in Co. repeat (destruct Co as [<-|Co]); [..|destruct Co]; reflexivity.
      * intros r Hr. eapply rd_sfw_spelt; [exact Cs|exact S| |exact Hr]. destruct SS as [|op2 s2 t2 s2' l2 u2 l2' S2 SS2]; [eapply fol_mono; [|exact K]; cbn; tauto|].
        rewrite <- !app_assoc. cbn [forallb] in Cl. apply andb_true_iff in Cl as [Cl _]. rewrite c_addon_Addon in Cl. apply andb_true_iff in Cl as [Cl _]. eapply fol_mono; [|eapply op_start; eauto]. cbn. tauto.
    + intros r Hr. apply IH; auto.
Qed.
Lemma rd_query_spelt q t q' i k : c_qspec fmt true q = true -> query_spelt fmt q t q' -> qend k -> skip i = skip (t ++ k) -> reads (g_query m) i q' (skip k).
Proof.
  intros C S K E. destruct S as [w s t s' ad u ad' g h o S SA]. rewrite c_qspec_QS in C. rewrite <- !app_assoc in E.
  apply andb_true_iff in C as [C Co]. apply andb_true_iff in C as [C Ch]. apply andb_true_iff in C as [C Cg]. apply andb_true_iff in C as [C Ca]. apply andb_true_iff in C as [Cw Cs].
  change (forallb c_sort o = true) in Co. destruct (all_read tm fmt) as (AV & _ & ASC & _ & ASQ & _).
  set (tO := (if is_nil o then [] else L " ORDER BY " ++ join (L ",") (map pr_sort o)) ++ k) in *.
  assert (FO : fol ["ORDER"]%string tO).
  { subst tO. destruct o as [|x o]; [destruct K as [->|(z & ->)]; [now left|right; left; now exists z]|]. right. right. cbn [is_nil]. rewrite <- app_assoc. eexists _, _. split; [now left|reflexivity]. }
  assert (RO : forall r, skip r = skip tO -> reads (POpt (g_order_by m)) r (oget o) (skip k)).
  { intros r Hr. subst tO. destruct o as [|x o].
    - cbn [is_nil app oget] in *. rewrite <- Hr. apply reads_none, fails_map, fails_seq1, fails_seq1. clear - K Hr. destruct K as [->|(z & ->)]; (eapply no_hard; [|exact Hr]; reflexivity).
    - cbn [is_nil oget] in *. rewrite <- app_assoc in Hr. apply reads_some. now apply rd_order. }
  clearbody tO.
  set (tH := match h with Some s0 => L " HAVING " ++ pr_sc fmt s0 | None => [] end ++ tO) in *.
  assert (FH : fol ["HAVING"; "ORDER"]%string tH).
  { subst tH. destruct h as [x|]; [|eapply fol_mono; [|exact FO]; cbn; tauto]. rewrite <- app_assoc. right. right. eexists _, _. split; [now left|reflexivity]. }
  assert (RH : forall r, skip r = skip tH -> reads (POpt g_having) r h (skip tO)).
  { intros r Hr. subst tH. destruct h as [x|].
    - rewrite <- app_assoc in Hr. apply reads_some. apply (rd_having tm fmt); auto. now apply ASC.
    - cbn [app] in Hr. rewrite <- Hr. apply reads_none, fails_map, fails_exp1. clear - FO Hr. destruct FO as [->|[(t & ->)|(w & t & I & ->)]]; [..|destruct I as [<-|[]]]; (eapply no_hard; [|exact Hr]; reflexivity). }
  clearbody tH.
  set (tG := (if is_nil g then [] else L " GROUP BY " ++ join (L ",") (map (pr_gterm fmt) g)) ++ tH) in *.
  assert (FG : fol ["GROUP"; "HAVING"; "ORDER"]%string tG).
  { subst tG. destruct g as [|x g]; [eapply fol_mono; [|exact FH]; cbn; tauto|]. right. right. cbn [is_nil]. rewrite <- app_assoc. eexists _, _. split; [now left|reflexivity]. }
  assert (RG : forall r, skip r = skip tG -> reads (POpt (g_group_by m)) r (oget g) (skip tH)).
  { intros r Hr. subst tG. destruct g as [|x g].
    - cbn [is_nil app oget] in *. rewrite <- Hr. apply reads_none, fails_map, fails_exp1, fails_exp1. clear - FH Hr. destruct FH as [->|[(t & ->)|(w & t & I & ->)]]; [..|destruct I as [<-|[<-|[]]]]; (eapply no_hard; [|exact Hr]; reflexivity).
    - cbn [is_nil oget] in *. rewrite <- app_assoc in Hr. apply reads_some. apply (rd_group tm fmt); auto; [discriminate|]. apply Forall_forall. intros y Y. pose proof (proj1 (forallb_forall _ _) Cg y Y) as Cy.
      destruct y as [e|c]; [rewrite c_gterm_GT_ve in Cy; now apply AV|rewrite c_gterm_GT_col in Cy; discriminate]. }
  clearbody tG.
  assert (FA : fol later (u ++ tG)).
  { destruct SA as [|op s1 t1 s1' l u l' S1 SA1]; [eapply fol_mono; [|exact FG]; cbn; tauto|]. rewrite <- !app_assoc. cbn [forallb] in Ca. apply andb_true_iff in Ca as [Ca _]. rewrite c_addon_Addon in Ca. apply andb_true_iff in Ca as [Ca _].
    eapply fol_mono; [|eapply op_start; eauto]. cbn. tauto. }
  eapply reads_map with (v := (w, (s', ad'), oget g, h, oget o)); [|now rewrite !oget_odef].
  eapply (reads_seq m _ _ _ _ (skip tO)); [|intros r Hr; now apply RO]. eapply (reads_seq m _ _ _ _ (skip tH)); [|intros r Hr; now apply RH]. eapply (reads_seq m _ _ _ _ (skip tG)); [|intros r Hr; now apply RG].
  eapply (reads_seq m _ _ _ _ (skip (t ++ u ++ tG))).
  - destruct w as [w|].
    + rewrite <- app_assoc in E. apply reads_some. change (skip (t ++ u ++ tG)) with (skip (L " " ++ t ++ u ++ tG)). apply (rd_with tm fmt); auto.
      destruct w as [n cols q]. rewrite c_with_With in Cw. apply andb_true_iff in Cw as [_ Cw]. now apply ASQ.
    + cbn [app] in E. rewrite <- E. apply reads_none, fails_map. do 3 apply fails_exp1. destruct (sfw_start s t s' (u ++ tG) S) as (z & Et). rewrite Et in E. eapply no_hard; [|exact E]. reflexivity.
  - intros r Hr. eapply (reads_seq m _ _ _ _ (skip (u ++ tG))).
    + eapply rd_sfw_spelt; [exact Cs|exact S|exact FA|exact Hr].
    + intros r2 H2. eapply rd_addons_spelt; [exact SA|exact Ca|exact FG|exact H2].
Qed.
Lemma parse_spelt q t q' : canonical fmt q = true -> query_spelt fmt q t q' -> parse_it tm t = Q_ok q'.
Proof.
  intros C S. apply parse_it_ok. destruct (rd_query_spelt q t q' t [] C S) as (r & E & Z); [now left|now rewrite app_nil_r|]. exists r. split; [exact E|now apply skip_white].
Qed.
(** The text is the same. *)
Lemma where_print w t w' : where_spelt fmt w t w' -> pr_where fmt w' = pr_where fmt w /\ where_empty w' = where_empty w.
Proof. intros S. destruct S as [|s|p f t g G|p f t g G|p f t g s G]; try (now split); destruct G; split; reflexivity. Qed.
Lemma sfw_print s t s' : sfw_spelt fmt s t s' -> pr_sfw fmt s' = pr_sfw fmt s.
Proof. intros [s0 ts w u w' S]. destruct (where_print _ _ _ S) as [E F]. now rewrite !pr_sfw_SFW, E, F. Qed.
Lemma query_print q t q' : query_spelt fmt q t q' -> pr_qspec fmt q' = pr_qspec fmt q.
Proof.
  intros [w i u i' ad v ad' g h o S SA]. assert (A : map (pr_addon fmt) ad' = map (pr_addon fmt) ad).
  { induction SA as [|op s t1 s' l u1 l' S1 SA IH]; [reflexivity|]. cbn [map]. rewrite !pr_addon_Addon, (sfw_print _ _ _ S1), IH. reflexivity. }
  now rewrite !pr_qspec_QS, (sfw_print _ _ _ S), A.
Qed.

(** ** Anything but 0 and 1 behind "=" *)
Definition throws {A : Set} (e : PE A) (i : text) : Prop := exists x, ev (g_body m) A e i (Throw (ExExpect x)).
Lemma throws_seq2 {A B : Set} (a : PE A) (b : PE B) i v j : reads a i v j -> (forall r, skip r = j -> throws b r) -> throws (a >> b) i.
Proof. intros (r & E & S) H. destruct (H r S) as (x & X). exists x. eapply ev_seq_th2; eassumption. Qed.
Lemma throws_exp2 {A B : Set} (a : PE A) (b : PE B) i v j : reads a i v j -> (forall r, skip r = j -> throws b r) -> throws (a >! b) i.
Proof. intros (r & E & S) H. destruct (H r S) as (x & X). exists x. eapply ev_exp_th2; eassumption. Qed.
Lemma throws_exp {A B : Set} (a : PE A) (b : PE B) i v j : reads a i v j -> (forall r, skip r = j -> fails b r) -> throws (a >! b) i.
Proof. intros (r & E & S) H. destruct (H r S) as (x & X & _). exists x. eapply ev_exp_unmet; eassumption. Qed.
Lemma throws_seq1 {A B : Set} (a : PE A) (b : PE B) i : throws a i -> throws (a >> b) i.
Proof. intros (x & X). exists x. now apply ev_seq_th. Qed.
Lemma throws_exp1 {A B : Set} (a : PE A) (b : PE B) i : throws a i -> throws (a >! b) i.
Proof. intros (x & X). exists x. now apply ev_exp_th. Qed.
Lemma throws_map {A B : Set} (f : A -> B) (a : PE A) i : throws a i -> throws (a ==> f) i.
Proof. intros (x & X). exists x. now apply ev_map_th. Qed.
Lemma throws_alt1 {A : Set} (a b : PE A) i : throws a i -> throws (a <|> b) i.
Proof. intros (x & X). exists x. now apply ev_alt_th. Qed.
Lemma throws_alt2 {A : Set} (a b : PE A) i : fails a i -> (forall r, skip r = skip i -> throws b r) -> throws (a <|> b) i.
Proof. intros (r & E & S) H. destruct (H r S) as (x & X). exists x. eapply ev_alt_2; eassumption. Qed.
Lemma throws_opt {A : Set} (a : PE A) i : throws a i -> throws (POpt a) i.
Proof. intros (x & X). exists x. now apply ev_opt_th. Qed.

Definition no_flag (k : text) : Prop := match skip k with c :: _ => c <> "0"%char /\ c <> "1"%char | [] => True end.
Lemma geometry_throws p u w k i : c_gpred fmt p = true -> predicate_spelt fmt p u -> white w -> no_flag k -> skip i = skip (u ++ w ++ L "=" ++ k) -> throws (g_geometry m) i.
Proof.
  intros C P W F H. apply throws_alt2; [eapply no_left_spelt; [exact P|exact H]|]. intros r0 H0. rewrite H in H0. apply throws_map.
  eapply throws_seq2; [eapply rd_predicate; [exact C|exact P|exact H0]|]. intros r Hr. rewrite skip_w in Hr by exact W. apply throws_alt1, throws_map.
  eapply throws_exp; [eapply rd_lit; [|exact Hr]; reflexivity|]. intros r2 H2. apply reads_first. rewrite H2. unfold no_flag in F. destruct (skip k) as [|c x]; [reflexivity|].
  cbn [hd_of]. revert F. clear. destruct c as [[] [] [] [] [] [] [] []]; vm_compute; intros [A B]; try reflexivity; exfalso; (now apply A) || (now apply B).
Qed.
Lemma bad_flag s ts p u w k : c_select fmt s = true -> forallb (c_tref fmt) ts = true -> ts <> [] -> c_gpred fmt p = true -> predicate_spelt fmt p u -> white w -> no_flag k ->
  exists x, parse_it tm (pr_select fmt s ++ L " FROM " ++ join (L ", ") (map (pr_tref fmt) ts) ++ L " WHERE " ++ u ++ w ++ L "=" ++ k) = Q_err (E_expect x).
Proof.
  intros Cs Ct N Cp P W F. set (t := pr_select fmt s ++ _).
  assert (T : throws (g_query m) t).
  { apply throws_map. do 3 apply throws_seq1. assert (Z : fails g_with t).
    { apply fails_map. do 3 apply fails_exp1. eapply no_hard; [|exact eq_refl]. subst t. destruct s as [q top c]. rewrite pr_select_Select, <- !app_assoc. reflexivity. }
    eapply (throws_seq2 _ _ _ None (skip t)); [apply reads_none; exact Z|]. intros r Hr. apply throws_seq1, throws_map. eapply throws_exp2; [apply (canonical_select s Cs); exact Hr|].
    intros r2 H2. destruct (all_read tm fmt) as (_ & _ & _ & AT & _).
    eapply throws_seq2; [apply (rd_from tm fmt ts r2 (L " WHERE " ++ u ++ w ++ L "=" ++ k)); [exact N| | |exact H2]|].
    - apply Forall_forall. intros x X. apply AT. now apply (proj1 (forallb_forall _ _) Ct).
    - right. right. eexists "WHERE"%string, _. split; [now left|reflexivity].
    - intros r3 H3. apply throws_opt, throws_map. eapply throws_exp2; [eapply (rd_hard m "WHERE" (L "WHERE") " "%char); [reflexivity..|exact H3]|].
      intros r4 H4. apply throws_alt1, throws_map, throws_seq1. eapply geometry_throws; [exact Cp|exact P|exact W|exact F|exact H4]. }
  destruct T as (x & T). apply g_query_ev_iff in T; [|discriminate]. unfold parse_it. rewrite T. now exists x.
Qed.
End Flags.
