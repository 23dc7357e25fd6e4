(** Queries: printed FROM, WHERE, GROUP BY, HAVING, ORDER BY, WITH and UNION clauses are read back. *)
From Verif Require Import Query Grammar Print PegProps PegSpec PegEquiv TextLemmas SpecLexical LexProofs LexProofs2 First Calc Look Tight Operand TopProofs SpecCanon AstInd PrintEq CanonBase CanonLex CanonGeo CanonHead CanonLead CanonFun CanonPrim CanonVal CanonCond CanonJt CanonJoin CanonSel CanonGeom.

Section Query.
Variable tm : mapping.
Variable fmt : text -> text.
Notation m := (lookup tm).
Notation reads := (reads m).
Notation fails := (fails m).

(** ** What may come after a clause *)
Definition fol (ws : list string) (k : text) : Prop := k = [] \/ (exists t, k = L ")" ++ t) \/ (exists w t, In w ws /\ k = L " " ++ L w ++ L " " ++ t).
Definition clauses : list string := ["WHERE"; "UNION"; "GROUP"; "HAVING"; "ORDER"]%string.
Lemma fol_mono ws vs k : (forall w, In w ws -> In w vs) -> fol ws k -> fol vs k.
Proof. intros I [K|[K|(w & t & H & K)]]; [now left|right; now left|right; right; exists w, t; auto]. Qed.
Lemma end_fails {A : Set} (e : PE A) i : gclass m e None = C_fail -> skip i = [] -> fails e i.
Proof. intros G H. apply reads_first. now rewrite H. Qed.
Ltac clause I := cbn [In clauses] in I; repeat (destruct I as [I|I]); [..|destruct I]; subst.
Lemma fol_facts k : fol clauses k -> vstop k = true /\ jfol m k /\ nospec m k.
Proof.
  intros [->|[(t & ->)|(w & t & I & ->)]].
  - split; [reflexivity|split; [split; [|split; [|split; reflexivity]]|]]; (intros i H; apply end_fails; [reflexivity|exact H]).
  - apply paren_follow.
  - assert (B : bnd (L " " ++ t) = true) by reflexivity. assert (W : word (L w)) by (clause I; now apply is_word_ok). assert (D : dark (L w)) by now apply word_dark'.
    assert (S : skip (L " " ++ L w ++ L " " ++ t) = L w ++ L " " ++ t) by (change (skip (L " " ++ L w ++ L " " ++ t)) with (skip (L w ++ L " " ++ t)); now apply dark_skip).
    assert (S' : skip (L " " ++ L w ++ L " " ++ t) = skip (L w ++ L " " ++ t)) by reflexivity.
    split; [now apply vstop_word|split; [split; [|split; [|split]]|]].
    + apply (noalias_nc m (L w) _ _ S B). clause I; reflexivity.
    + apply (nosuffix_word m w _ _ S); [|exact B|]; clear S S'; clause I; reflexivity.
    + rewrite (bstop_skip _ _ S'). apply (bstop_word (L w) (L w)); [|exact D|exact B|]; clear S S'; clause I; reflexivity.
    + rewrite (pstop_skip _ _ S'). apply (pstop_word (L w) (L w)); [|exact D|exact B|]; clear S S'; clause I; reflexivity.
    + apply (nospec_word m (L w) _ _ S B). clear S S'; clause I; reflexivity.
Qed.
Lemma comma_facts t : vstop (L "," ++ t) = true /\ jfol m (L "," ++ t) /\ nospec m (L "," ++ t).
Proof.
  split; [reflexivity|split; [split; [|split; [|split; reflexivity]]|]].
  - eapply noalias_char; reflexivity.
  - eapply nosuffix_char; reflexivity.
  - intros i H. eapply look_class; [exact H|reflexivity].
Qed.
Ltac after K := destruct K as [->|[(?t & ->)|(?w & ?t & ?I & ->)]]; [..|match goal with I : In _ _ |- _ => clause I end].

(** ** FROM *)
Lemma rd_from ts i k : ts <> [] -> Forall (Rtref m fmt) ts -> fol clauses k -> skip i = skip (L "FROM " ++ join (L ", ") (map (pr_tref fmt) ts) ++ k) -> reads g_from_clause i ts (skip k).
Proof.
  intros N R K H. destruct (fol_facts k K) as (V & J & S). eapply reads_map with (v := ([], ts)); [|reflexivity]. eapply reads_exp.
  - eapply (rd_hard m "FROM" (L "FROM") " "%char); [reflexivity..|exact H].
  - intros r Hr. eapply (rd_list m _ _ (L ", ") (pr_tref fmt) (fun k => vstop k = true /\ jfol m k /\ nospec m k)); [exact N| | | | | |exact Hr].
    + eapply Forall_impl; [|exact R]. intros t Rt i0 k0 (V0 & J0 & S0) H0. apply Rt; auto.
    + intros t. apply (comma_facts (L " " ++ t)).
    + intros r2 t Ht. change (skip t) with (skip (L " " ++ t)). now apply rd_comma.
    + auto.
    + intros r2 H2. clear - K H2. after K; (eapply no_lit; [|exact H2]; reflexivity).
Qed.

(** ** GROUP BY, HAVING, ORDER BY *)
Definition Rgterm (g : gterm) : Prop := match g with GT_ve e => Rve m fmt e | GT_col _ => False end.
Lemma fol_v k : fol clauses k -> vstop k = true.
Proof. intros K. apply (fol_facts k K). Qed.
Lemma rd_group gs i k : gs <> [] -> Forall Rgterm gs -> fol ["HAVING"; "ORDER"]%string k -> skip i = skip (L " GROUP BY " ++ join (L ",") (map (pr_gterm fmt) gs) ++ k) -> reads (g_group_by m) i gs (skip k).
Proof.
  intros N R K H. assert (K' : fol clauses k) by (eapply fol_mono; [|exact K]; cbn; tauto). destruct (fol_facts k K') as (V & (_ & _ & B & P) & _).
  eapply reads_map with (v := ([], [], gs)); [|reflexivity]. eapply reads_exp; [eapply reads_exp|].
  - eapply (rd_hard m "GROUP" (L "GROUP") " "%char); [reflexivity..|exact H].
  - intros r Hr. eapply (rd_hard m "BY" (L "BY") " "%char); [reflexivity..|exact Hr].
  - intros r Hr. eapply (rd_list m _ _ (L ",") (pr_gterm fmt) (fun k => vstop k = true /\ bstop k = true /\ pstop k = true)); [exact N| | | | | |exact Hr].
    + eapply Forall_impl; [|exact R]. intros [e|c] Rt i0 k0 (V0 & B0 & P0) H0; [|destruct Rt]. rewrite pr_gterm_GT_ve in H0. apply reads_alt1. eapply reads_map; [|reflexivity]. apply Rt; auto.
    + intros t. repeat split; reflexivity.
    + intros r2 t Ht. now apply rd_comma.
    + auto.
    + intros r2 H2. clear - K H2. after K; (eapply no_lit; [|exact H2]; reflexivity).
Qed.
Lemma rd_having s i k : Rsc m fmt s -> fol ["ORDER"]%string k -> skip i = skip (L " HAVING " ++ pr_sc fmt s ++ k) -> reads g_having i s (skip k).
Proof.
  intros R K H. assert (K' : fol clauses k) by (eapply fol_mono; [|exact K]; cbn; tauto). destruct (fol_facts k K') as (V & (_ & _ & B & P) & _).
  eapply reads_map with (v := ([], s)); [|reflexivity]. eapply reads_exp.
  - eapply (rd_hard m "HAVING" (L "HAVING") " "%char); [reflexivity..|exact H].
  - intros r Hr. apply R; auto.
Qed.
Definition qend (k : text) : Prop := k = [] \/ exists t, k = L ")" ++ t.
Definition c_sort (s : sort_spec) : bool := match s with Sort k o => match k with SK_col c => c_colref is_name c | SK_int d => is_digits d end && (is_nil o || one_of_nc o ["ASC"; "DESC"]%string) end.
Lemma rd_sort s i k : c_sort s = true -> qend k \/ (exists t, k = L "," ++ t) -> skip i = skip (pr_sort s ++ k) -> reads (g_sort_specification m) i s (skip k).
Proof.
  destruct s as [y o]. intros C K H. unfold c_sort in C. apply andb_true_iff in C as [Cy Co].
  assert (OL : o = [] \/ In (upper o) (map L ["ASC"; "DESC"]%string)) by (apply orb_true_iff in Co as [Q|Q]; [left; now destruct o|right; now apply one_of_nc_iff]). clear Co.
  eapply reads_map with (v := (y, o)); [|reflexivity]. cbn [pr_sort] in H. rewrite <- app_assoc in H. set (k1 := (if is_nil o then [] else L " " ++ o) ++ k) in *.
  assert (K1 : bnd k1 = true /\ nodot k1 /\ skip k1 = skip (o ++ k)).
  { subst k1. destruct OL as [->|OL].
    - cbn [is_nil app]. destruct K as [[->|(t & ->)]|(t & ->)]; repeat split; reflexivity.
    - assert (W : word o) by (eapply listed_word; [|exact OL]; reflexivity). destruct (word_starts _ W) as (x & z & -> & X). cbn [is_nil]. split; [reflexivity|split; [|reflexivity]].
      unfold nodot. change (skip ((L " " ++ x :: z) ++ k)) with (skip ((x :: z) ++ k)). cbn [app]. rewrite (skip_id x) by now apply letter_idchar. revert X. clear. destruct x as [[] [] [] [] [] [] [] []]; vm_compute; congruence. }
  destruct K1 as (B & D & E). clearbody k1. eapply reads_seq with (j := skip (o ++ k)).
  - rewrite <- E. destruct y as [c|d].
    + apply reads_alt1. eapply reads_map; [|reflexivity]. apply rd_colref; [|now apply boundary_nstop, bnd_ok|exact D|exact H]. eapply c_colref_ok; [|exact Cy]. apply is_name_ok.
    + apply is_digits_ok in Cy. assert (X : skip (d ++ k1) = d ++ k1) by (destruct (digits_starts _ Cy) as (x & z & -> & X); apply dark_skip0; cbn; revert X; clear; destruct x as [[] [] [] [] [] [] [] []]; vm_compute; congruence).
      rewrite X in H. apply reads_alt2.
      * apply fails_map. destruct (digits_starts _ Cy) as (x & z & -> & Y). eapply look_class; [exact H|]. revert Y. clear. destruct x as [[] [] [] [] [] [] [] []]; vm_compute; congruence.
      * intros r Hr. eapply reads_map; [|reflexivity]. eapply reads_lex; [reflexivity|]. rewrite Hr, H. apply digits_run; [exact Cy|]. clear - B. destruct k1 as [|c k1]; [easy|]. cbn in *. intros Z. apply is_digit_iff in Z.
        revert B Z. destruct c as [[] [] [] [] [] [] [] []]; vm_compute; congruence.
  - intros r Hr. destruct OL as [->|OL].
    + cbn [app] in Hr. rewrite <- Hr. apply reads_olex_none; [reflexivity|]. rewrite Hr. clear - K. destruct K as [[->|(t & ->)]|(t & ->)]; reflexivity.
    + assert (W : word o) by (eapply listed_word; [|exact OL]; reflexivity). eapply (reads_olex m _ _ o k); [reflexivity|]. rewrite Hr, dark_skip by now apply word_dark'.
      apply strs_pick; [|left; clear - K; destruct K as [[->|(t & ->)]|(t & ->)]; reflexivity|reflexivity]. cbn [map In] in OL. destruct OL as [OL|[OL|[]]]; rewrite <- OL; reflexivity.
Qed.
Lemma qend_fol k : qend k -> fol clauses k.
Proof. intros [->|(t & ->)]; [now left|right; left; now exists t]. Qed.
Lemma rd_order os i k : os <> [] -> forallb c_sort os = true -> qend k -> skip i = skip (L " ORDER BY " ++ join (L ",") (map pr_sort os) ++ k) -> reads (g_order_by m) i os (skip k).
Proof.
  intros N C K H. eapply reads_map with (v := ([], [], os)); [|reflexivity]. eapply reads_seq; [eapply reads_seq|].
  - eapply (rd_hard m "ORDER" (L "ORDER") " "%char); [reflexivity..|exact H].
  - intros r Hr. eapply (rd_hard m "BY" (L "BY") " "%char); [reflexivity..|exact Hr].
  - intros r Hr. eapply (rd_list m _ _ (L ",") pr_sort (fun k => qend k \/ (exists t, k = L "," ++ t))); [exact N| | | | | |exact Hr].
    + apply Forall_forall. intros s I i0 k0 K0 H0. rewrite forallb_forall in C. apply rd_sort; auto.
    + intros t. right. now exists t.
    + intros r2 t Ht. now apply rd_comma.
    + now left.
    + intros r2 H2. clear - K H2. destruct K as [->|(t & ->)]; (eapply no_lit; [|exact H2]; reflexivity).
Qed.

(** ** WHERE *)
Definition wh (geo : bool) : PE wherec := if geo then g_where m else g_where_no_geometry.
Definition later : list string := ["UNION"; "GROUP"; "HAVING"; "ORDER"]%string.
Lemma later_fol k : fol later k -> fol clauses k.
Proof. apply fol_mono. cbn. tauto. Qed.
Lemma later_no_where geo i k : fol later k -> skip i = skip k -> fails (wh geo) i.
Proof. intros K H. destruct geo; apply fails_map; [apply fails_exp1|apply fails_seq1]; after K; ((eapply no_hard; [|exact H]; reflexivity) || (eapply no_soft; [|exact H]; reflexivity)). Qed.
Definition Rwhere (w : wherec) : Prop := match w with Where g s => (forall p fl, g = Some (G_right p fl) -> Rgpred m fmt p) /\ (forall x, s = Some x -> Rsc m fmt x) end.
Lemma fol_noeq k : fol clauses k -> noeq k.
Proof. intros K. after K; reflexivity || exact I. Qed.
Definition wopt (w : wherec) : option wherec := match w with Where None None => None | _ => Some w end.
Lemma wopt_odef w : odef (Where None None) (wopt w) = w.
Proof. now destruct w as [[g|] [s|]]. Qed.
Lemma rd_where geo w i k : c_where fmt geo w = true -> Rwhere w -> fol later k -> skip i = skip ((if where_empty w then [] else L " WHERE " ++ pr_where fmt w) ++ k) ->
  reads (POpt (wh geo)) i (wopt w) (skip k).
Proof.
  intros C R K H. destruct w as [g s]. destruct R as [Rg Rs]. rewrite c_where_Where in C. apply andb_true_iff in C as [Cg Cs].
  pose proof (later_fol k K) as K'. destruct (fol_facts k K') as (V & (_ & _ & B & P) & _). pose proof (fol_noeq k K') as NE. pose proof (vstop_bnd k V) as BK.
  destruct g as [g|].
  - apply andb_true_iff in Cg as [-> Cg]. destruct g as [fl p|p fl]; [rewrite c_geom_G_left in Cg; discriminate|]. rewrite c_geom_G_right in Cg. apply andb_true_iff in Cg as [Cp Cf].
    assert (GE : geom_empty (G_right p fl) = false) by now apply (gpred_nonempty fmt). apply reads_some.
    cbn [where_empty opt_empty] in H. rewrite GE in H. cbn [andb] in H. rewrite pr_where_Where, GE, <- !app_assoc in H.
    eapply reads_map with (v := ([], Where (Some (G_right p fl)) s)); [|reflexivity]. eapply reads_exp.
    + eapply (rd_hard m "WHERE" (L "WHERE") " "%char); [reflexivity..|exact H].
    + intros r Hr. apply reads_alt1. eapply reads_map with (v := (G_right p fl, s)); [|reflexivity]. eapply reads_seq; [eapply rd_geom; [exact Cp|exact Cf|now apply (Rg p fl)|exact Hr]|].
      intros r2 H2. destruct s as [s|].
      * rewrite (sc_nonempty fmt s Cs), <- app_assoc in H2. apply reads_some. eapply reads_map with (v := (tt, s)); [|reflexivity]. eapply reads_exp; [eapply (rd_kw m "AND" (L "AND")); [reflexivity|reflexivity|exact H2]|].
        intros r3 H3. apply (Rs s eq_refl); auto.
      * cbn [app] in H2. rewrite <- H2. apply reads_none. apply fails_map, fails_exp1. clear - K H2. after K; (eapply no_kw; [|exact H2]; reflexivity).
  - destruct s as [s|].
    + cbn [where_empty opt_empty] in H. rewrite (sc_nonempty fmt s Cs) in H. cbn [andb] in H. rewrite pr_where_Where, (sc_nonempty fmt s Cs), <- !app_assoc in H.
      apply reads_some. destruct geo; cbn [wh].
      * eapply reads_map with (v := ([], Where None (Some s))); [|reflexivity]. eapply reads_exp; [eapply (rd_hard m "WHERE" (L "WHERE") " "%char); [reflexivity..|exact H]|].
        intros r Hr. apply reads_alt2; [apply fails_map, fails_seq1; eapply (sc_nogeo m fmt s k); [exact Cs|now apply bnd_word|exact NE|exact Hr]|]. intros r2 H2. change (skip (pr_sc fmt s ++ k)) with (skip (L " " ++ pr_sc fmt s ++ k)) in Hr. rewrite Hr in H2.
        apply reads_alt2; [apply fails_map, fails_exp1; eapply (sc_noparen m fmt s k); [exact Cs|now apply bnd_word|exact H2]|]. intros r3 H3. rewrite H2 in H3.
        eapply reads_map; [|reflexivity]. apply (Rs s eq_refl); auto.
      * eapply reads_map with (v := ([], s)); [|reflexivity]. eapply reads_seq; [eapply (rd_soft m "WHERE" (L "WHERE") " "%char); [reflexivity..|exact H]|]. intros r Hr. apply (Rs s eq_refl); auto.
    + cbn [where_empty opt_empty andb app] in H. rewrite <- H. apply reads_none. eapply later_no_where; [exact K|exact H].
Qed.

(** ** SELECT ... FROM ... WHERE, UNION *)
Definition Rsfw (s : sfw) : Prop := match s with SFW s ts w => Rselect tm fmt s /\ Forall (Rtref m fmt) ts /\ Rwhere w end.
Lemma pr_sfw_start s k : exists t, pr_sfw fmt s ++ k = L "SELECT " ++ t.
Proof. destruct s as [[q top c] ts w]. rewrite pr_sfw_SFW, pr_select_Select, <- !app_assoc. eexists. reflexivity. Qed.
Lemma rd_sfw geo s i k : c_sfw fmt geo s = true -> Rsfw s -> fol later k -> skip i = skip (pr_sfw fmt s ++ k) -> reads (g_sfw_gen m (wh geo)) i s (skip k).
Proof.
  destruct s as [s ts w]. intros C (Rs & Rt & Rw) K H. rewrite c_sfw_SFW in C. rewrite pr_sfw_SFW, <- !app_assoc in H. apply andb_true_iff in C as [C Cw]. apply andb_true_iff in C as [C Ct]. apply andb_true_iff in C as [Cs Cn].
  set (tl := (if where_empty w then [] else L " WHERE " ++ pr_where fmt w) ++ k) in *.
  assert (KT : fol clauses tl). { subst tl. destruct (where_empty w); [now apply later_fol|]. right. right. exists "WHERE"%string, (pr_where fmt w ++ k). split; [now left|]. now rewrite <- !app_assoc. }
  eapply reads_map with (v := (s, (ts, wopt w))); [|now rewrite wopt_odef]. eapply reads_exp; [apply Rs; exact H|].
  intros r Hr. eapply reads_seq; [apply rd_from; [now intros ->|exact Rt|exact KT|exact Hr]|]. intros r2 H2. now apply rd_where.
Qed.
Definition Raddon (a : addon) : Prop := match a with Addon _ s => Rsfw s end.
Lemma rd_addon geo a i k : c_addon fmt geo a = true -> Raddon a -> fol later k -> skip i = skip (pr_addon fmt a ++ k) -> reads (g_addon_gen m (wh geo)) i a (skip k).
Proof.
  destruct a as [op s]. intros C R K H. rewrite c_addon_Addon in C. rewrite pr_addon_Addon, <- !app_assoc in H. apply andb_true_iff in C as [Co Cs]. apply one_of_iff in Co.
  eapply reads_map with (v := (op, s)); [|reflexivity]. eapply (reads_seq m _ _ _ _ (skip (L " " ++ pr_sfw fmt s ++ k))).
  - destruct (pr_sfw_start s k) as (t & E). rewrite E in *. eapply reads_lex; [reflexivity|]. rewrite H. cbn [map In] in Co. repeat (destruct Co as [<-|Co]); [..|destruct Co]; reflexivity.
  - intros r Hr. now apply rd_sfw.
Qed.
Lemma addon_start a k : c_addon fmt true a = true \/ c_addon fmt false a = true -> fol ["UNION"]%string (pr_addon fmt a ++ k).
Proof.
  intros C. right. right. destruct a as [op s]. rewrite !c_addon_Addon in C. rewrite pr_addon_Addon, <- !app_assoc. destruct (pr_sfw_start s k) as (t & ->). exists "UNION"%string.
  assert (Co : one_of op ["UNION"; "UNION ALL"; "UNION DISTINCT"]%string = true) by (destruct C as [C|C]; now apply andb_true_iff in C as [C _]). apply one_of_iff in Co.
  cbn [map In] in Co. repeat (destruct Co as [<-|Co]); [..|destruct Co]; eexists; (split; [now left|reflexivity]).
Qed.

(** ** WITH *)
Definition Rwith (w : withc) : Prop := match w with With _ _ q => Rsubq m fmt q end.
Lemma rd_with w i k : c_with fmt w = true -> Rwith w -> skip i = skip (pr_with fmt w ++ k) -> reads g_with i w (skip k).
Proof.
  destruct w as [n cols q]. intros C R H. rewrite c_with_With in C. rewrite pr_with_With, <- !app_assoc in H. apply andb_true_iff in C as [C Cq]. apply andb_true_iff in C as [Cn Cc]. apply is_name_ok in Cn.
  set (t := L " AS " ++ pr_subq fmt q ++ k) in *.
  eapply reads_map with (v := ([], n, (if is_nil cols then None else Some cols, Some []), q)); [|now destruct cols]. eapply reads_exp; [eapply reads_exp; [eapply reads_exp|]|].
  - eapply (rd_hard m "WITH" (L "WITH") " "%char); [reflexivity..|exact H].
  - intros r Hr. eapply rd_name; [exact Cn| |exact Hr]. destruct (is_nil cols); split; reflexivity.
  - intros r Hr. instantiate (1 := skip (pr_subq fmt q ++ k)). eapply (reads_seq m _ _ _ _ (skip t)).
    + destruct cols as [|c cols].
      * cbn [is_nil app] in *. rewrite <- Hr. apply reads_none, fails_map, fails_exp1, fails_seq1. eapply no_lit; [|exact Hr]. reflexivity.
      * cbn [is_nil] in *. rewrite <- !app_assoc in Hr. apply reads_some. eapply reads_map with (v := (tt, c :: cols, tt)); [|reflexivity]. eapply reads_exp; [eapply reads_seq|].
        -- eapply rd_open. exact Hr.
        -- intros r2 H2. rewrite <- (map_id (c :: cols)) in H2. eapply (rd_list m _ _ (L ",") (fun x => x) (fun k => nstop k)); [discriminate| | | | | |exact H2].
           ++ apply Forall_forall. intros x I i0 k0 K0 H0. rewrite forallb_forall in Cc. apply rd_name; [apply is_name_ok; auto|exact K0|exact H0].
           ++ intros y. split; reflexivity.
           ++ intros r3 y Hy. now apply rd_comma.
           ++ split; reflexivity.
           ++ intros r3 H3. eapply no_lit; [|exact H3]. reflexivity.
        -- intros r2 H2. eapply rd_close. exact H2.
    + intros r2 H2. apply reads_some. eapply (rd_hard m "AS" (L "AS") " "%char); [reflexivity..|exact H2].
  - intros r Hr. now apply R.
Qed.

(** ** Queries *)
Definition Rquery (q : qspec) : Prop :=
  match q with QS w i ad g h o => (forall x, w = Some x -> Rwith x) /\ Rsfw i /\ Forall Raddon ad /\ Forall Rgterm g /\ (forall x, h = Some x -> Rsc m fmt x) end.
Definition oget {A} (l : list A) : option (list A) := match l with [] => None | _ => Some l end.
Lemma oget_odef {A} (l : list A) : odef [] (oget l) = l. Proof. now destruct l. Qed.
Lemma rd_query geo q i k : c_qspec fmt geo q = true -> Rquery q -> qend k -> skip i = skip (pr_qspec fmt q ++ k) -> reads (g_query_gen m (wh geo)) i q (skip k).
Proof.
  destruct q as [w s ad g h o]. intros C (Rw & Rs & Ra & Rg & Rh) K E. rewrite c_qspec_QS in C. rewrite pr_qspec_QS, <- !app_assoc in E.
  apply andb_true_iff in C as [C Co]. apply andb_true_iff in C as [C Ch]. apply andb_true_iff in C as [C Cg]. apply andb_true_iff in C as [C Ca]. apply andb_true_iff in C as [Cw Cs].
  change (forallb c_sort o = true) in Co.
  set (tO := (if is_nil o then [] else L " ORDER BY " ++ join (L ",") (map pr_sort o)) ++ k) in *.
  assert (FO : fol ["ORDER"]%string tO).
  { subst tO. destruct o as [|x o]; [destruct K as [->|(t & ->)]; [now left|right; left; now exists t]|]. right. right. cbn [is_nil]. rewrite <- app_assoc. eexists _, _. split; [now left|reflexivity]. }
  assert (RO : forall r, skip r = skip tO -> reads (POpt (g_order_by m)) r (oget o) (skip k)).
  { intros r Hr. subst tO. destruct o as [|x o].
    - cbn [is_nil app oget] in *. rewrite <- Hr. apply reads_none, fails_map, fails_seq1, fails_seq1. clear - K Hr. destruct K as [->|(t & ->)]; (eapply no_hard; [|exact Hr]; reflexivity).
    - cbn [is_nil oget] in *. rewrite <- app_assoc in Hr. apply reads_some. now apply rd_order. }
  clearbody tO.
  set (tH := match h with Some s0 => if sc_empty s0 then [] else L " HAVING " ++ pr_sc fmt s0 | None => [] end ++ tO) in *.
  assert (FH : fol ["HAVING"; "ORDER"]%string tH).
  { subst tH. destruct h as [x|]; [|eapply fol_mono; [|exact FO]; cbn; tauto]. rewrite (sc_nonempty fmt x Ch), <- app_assoc. right. right. eexists _, _. split; [now left|reflexivity]. }
  assert (RH : forall r, skip r = skip tH -> reads (POpt g_having) r h (skip tO)).
  { intros r Hr. subst tH. destruct h as [x|].
    - rewrite (sc_nonempty fmt x Ch), <- app_assoc in Hr. apply reads_some. apply rd_having; auto.
    - cbn [app] in Hr. rewrite <- Hr. apply reads_none, fails_map, fails_exp1. clear - FO Hr. after FO; (eapply no_hard; [|exact Hr]; reflexivity). }
  clearbody tH.
  set (tG := (if is_nil g then [] else L " GROUP BY " ++ join (L ",") (map (pr_gterm fmt) g)) ++ tH) in *.
  assert (FG : fol ["GROUP"; "HAVING"; "ORDER"]%string tG).
  { subst tG. destruct g as [|x g]; [eapply fol_mono; [|exact FH]; cbn; tauto|]. right. right. cbn [is_nil]. rewrite <- app_assoc. eexists _, _. split; [now left|reflexivity]. }
  assert (RG : forall r, skip r = skip tG -> reads (POpt (g_group_by m)) r (oget g) (skip tH)).
  { intros r Hr. subst tG. destruct g as [|x g].
    - cbn [is_nil app oget] in *. rewrite <- Hr. apply reads_none, fails_map, fails_exp1, fails_exp1. clear - FH Hr. after FH; (eapply no_hard; [|exact Hr]; reflexivity).
    - cbn [is_nil oget] in *. rewrite <- app_assoc in Hr. apply reads_some. apply rd_group; auto. discriminate. }
  clearbody tG.
  eapply reads_map with (v := (w, (s, ad), oget g, h, oget o)); [|now rewrite !oget_odef].
  eapply (reads_seq m _ _ _ _ (skip tO)); [|intros r Hr; now apply RO]. eapply (reads_seq m _ _ _ _ (skip tH)); [|intros r Hr; now apply RH]. eapply (reads_seq m _ _ _ _ (skip tG)); [|intros r Hr; now apply RG].
  eapply (reads_seq m _ _ _ _ (skip (pr_sfw fmt s ++ concat (map (pr_addon fmt) ad) ++ tG))).
  - destruct w as [w|].
    + assert (W : with_empty w = false). { destruct w as [n cols q]. rewrite c_with_With in Cw. apply andb_true_iff in Cw as [Cw _]. apply andb_true_iff in Cw as [Cw _]. cbn. now rewrite (is_name_nonempty n Cw). }
      rewrite W, <- app_assoc in E. apply reads_some. change (skip (pr_sfw fmt s ++ ?x)) with (skip (L " " ++ pr_sfw fmt s ++ x)). apply rd_with; auto.
    + cbn [app] in E. rewrite <- E. apply reads_none, fails_map. do 3 apply fails_exp1. destruct (pr_sfw_start s (concat (map (pr_addon fmt) ad) ++ tG)) as (t & Et). rewrite Et in E. eapply no_hard; [|exact E]. reflexivity.
  - intros r Hr.
    assert (FA : fol later (concat (map (pr_addon fmt) ad) ++ tG)).
    { destruct ad as [|a ad]; [eapply fol_mono; [|exact FG]; cbn; tauto|]. cbn [map concat forallb] in *. rewrite <- app_assoc. apply andb_true_iff in Ca as [Ca _]. eapply fol_mono; [|apply addon_start]; [cbn; tauto|]. destruct geo; auto. }
    eapply (reads_seq m _ _ _ _ (skip (concat (map (pr_addon fmt) ad) ++ tG))).
    + now apply rd_sfw.
    + intros r2 H2. eapply (rd_star m _ (pr_addon fmt) (fol later)); [| | | |exact H2].
      * apply Forall_forall. intros a I i0 k0 K0 H0. rewrite forallb_forall in Ca. rewrite Forall_forall in Ra. apply rd_addon; auto.
      * intros a t I. rewrite forallb_forall in Ca. eapply fol_mono; [|apply addon_start]; [cbn; tauto|]. specialize (Ca a I). destruct geo; auto.
      * eapply fol_mono; [|exact FG]; cbn; tauto.
      * intros r3 H3. apply fails_map, fails_seq1. clear - FG H3. after FG; (eapply no_softs; [|exact H3]; reflexivity).
Qed.
End Query.
