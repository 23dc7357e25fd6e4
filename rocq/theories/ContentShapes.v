(** C14: coordinate systems and table functions. *)
From Verif Require Import Query PegProps Gen Spec TextLemmas SpecLexical LexProofs LexProofs2 LexDec First Operand TopProofs NonEmpty SpecContent
  ContentCalc ContentLeaves ContentTokens ContentOut ContentNames.

Section Shapes.
Variable m : text -> option text.
Variable fmt : text -> text.
Variable stray : Prop.
Variable Nr : forall r, attr r -> list text -> Prop.
Notation cont := (cont stray Nr).
Notation cont0 := (cont0 stray Nr).
Notation norm := (normal m fmt stray).
Notation prn := (prn m fmt stray).
Notation outs := (outs m fmt).
Notation shut := (shut m fmt).
Notation G := (gen (Pr stray Nr)).

(** *** Coordinate systems *)
Definition sysp (f : frame) (l : list text) : Prop := exists s, l = [s] /\ coord_sys s (pr_frame f).
Lemma gen_kw w t k v : G (kw w) t k v -> exists sp x, t = sp ++ x /\ white sp /\ upper x = upper (L w).
Proof. intros (sp & x & -> & W & S). apply strip_nc_iff in S as [_ U]. exists sp, x. split; auto. split; auto. now apply spaces_white. Qed.
Lemma gen_frame t k f : G g_reference_frame t k f -> exists sp x, t = sp ++ x /\ white sp /\ upper x = pr_frame f.
Proof.
  unfold g_reference_frame. intros [(u & H & ->)|(sp & t1 & -> & W & [(u & H & ->)|(sp2 & t2 & -> & W2 & (u & H & ->))])].
  - apply gen_kw in H. exact H.
  - apply gen_kw in H as (sp1 & x & -> & W1 & U). exists (sp ++ sp1), x. rewrite app_assoc. split; auto. split; auto.
    apply spaces_white in W. now apply Forall_app.
  - apply gen_kw in H as (sp1 & x & -> & W1 & U). exists (sp ++ sp2 ++ sp1), x. rewrite <- !app_assoc. split; auto. split; auto.
    apply spaces_white in W. apply spaces_white in W2. apply Forall_app; split; auto. apply Forall_app; auto.
Qed.
Lemma no_quote_upper x w : upper x = w -> ~ In sq w -> ~ In sq x.
Proof. intros <- H I. apply H. now apply (upper_in sq). Qed.
Lemma not_in_app {A} (c : A) a b : ~ In c a -> ~ In c b -> ~ In c (a ++ b).
Proof. intros Ha Hb H. apply in_app_or in H as [H|H]; auto. Qed.
Lemma c0_coord_sys : cont0 g_coord_sys sysp.
Proof.
  unfold g_coord_sys. intros t k f (x & Hx & ->) _. destruct x as [[[u of] op] u']. cbn [fst snd] in *.
  destruct Hx as (t1 & t2 & -> & (t3 & t4 & -> & (t5 & t6 & -> & Q1 & Hf) & Hp) & Q2). cbn [fst snd] in *.
  destruct Q1 as (sp0 & x0 & -> & W0 & S0). apply strip_exact in S0 as ->.
  destruct Q2 as (sp3 & x3 & -> & W3 & S3). apply strip_exact in S3 as ->. apply spaces_white in W0. apply spaces_white in W3.
  assert (F : exists w1 fr, t6 = w1 ++ fr /\ white w1 /\ ((fr = [] /\ pr_frame (odef ICRS of) = L "ICRS") \/ (upper fr = pr_frame (odef ICRS of)))).
  { destruct of as [f|]; cbn [gen odef] in *.
    - apply gen_frame in Hf as (sp & x & -> & W & U). eauto 6.
    - apply spaces_white in Hf. exists t6, []. rewrite app_nil_r. auto. }
  assert (P : exists w2 ps, t4 = w2 ++ ps /\ white w2 /\ (ps = [] \/ upper ps = L "GEOCENTER")).
  { destruct op as [f|]; cbn [gen] in *.
    - unfold g_reference_position in Hp. apply gen_kw in Hp as (sp & x & -> & W & U). eauto 6.
    - apply spaces_white in Hp. exists t4, []. rewrite app_nil_r. auto. }
  destruct F as (w1 & fr & -> & W1 & F), P as (w2 & ps & -> & W2 & P).
  set (s := L "'" ++ w1 ++ fr ++ w2 ++ ps ++ sp3 ++ L "'").
  exists [s]. split.
  - replace ((((sp0 ++ L "'") ++ w1 ++ fr) ++ w2 ++ ps) ++ sp3 ++ L "'") with (sp0 ++ s) by (unfold s; now rewrite <- !app_assoc).
    apply lexes_prefix; auto. apply LI_literal. constructor. unfold s.
    replace (w1 ++ fr ++ w2 ++ ps ++ sp3 ++ L "'") with ((w1 ++ fr ++ w2 ++ ps ++ sp3) ++ L "'") by now rewrite <- !app_assoc.
    apply quoted_literal. repeat apply not_in_app; try (eapply white_no; eauto; reflexivity).
    + destruct F as [[-> _]|F]; [intros []|]. eapply no_quote_upper; [exact F|]. destruct (odef ICRS of); cbn; intuition discriminate.
    + destruct P as [->|P]; [intros []|]. eapply no_quote_upper; [exact P|]. cbn; intuition discriminate.
  - exists s. split; auto. exists w1, fr, w2, ps, sp3. repeat split; auto. destruct F as [F|F]; [left; auto|right]. split; auto.
    destruct (odef ICRS of); cbn; auto.
Qed.
Definition headp (w : string) (f : frame) (l : list text) : Prop := norm l [L w; L "("; coord_literal (pr_frame f); L ","].
Lemma c0_head w : kwb w = true -> kw_case w (L w) = true -> mem (upper (L w)) shapes = true -> cont0 (g_shape_head w) (headp w).
Proof.
  intros Kw Cw Sw. unfold g_shape_head. eapply c0_map.
  { apply c0_seq; [apply c0_seq; [apply c0_kw, Kw|apply c0_lit; cbn; tauto]|].
    apply c0_opt. apply c0_map with (P := both sysp (fun _ l => l = [L ","])) (Q := (fun f l => exists s, l = [s; L ","] /\ coord_sys s (pr_frame f))).
    - apply cont0_exp, c0_seq; [apply c0_coord_sys|apply c0_lit; cbn; tauto].
    - intros [f u] l (l1 & l2 & -> & (s & -> & C) & ->). exists s. auto. }
  cbn beta. intros [[u u'] f] l (l1 & l2 & -> & (l3 & l4 & -> & (x & -> & U) & ->) & F). cbn [fst snd] in *. unfold headp.
  pose proof Cw as Cw'. apply andb_true_iff in Cw as [Ew Cw]. apply text_eqb_iff in Ew.
  destruct f as [f|]; cbn [optly odef] in *.
  - destruct F as (s & -> & C). cbn [app]. apply norm_cons; [eapply norm_kw; eauto|]. apply norm_cons; [constructor|].
    apply norm_cons; [now constructor|constructor].
  - subst l2. cbn [app]. rewrite <- Ew. rewrite <- U. change (L "ICRS") with (pr_frame ICRS). apply normal_no_coord. rewrite U. now apply mem_iff.
Qed.
Lemma frame_literal f : token (coord_literal (pr_frame f)) /\ ~ ends_word (coord_literal (pr_frame f)).
Proof.
  assert (S : string_literal (coord_literal (pr_frame f))).
  { unfold coord_literal. replace (pr_frame f ++ L " GEOCENTER'") with ((pr_frame f ++ L " GEOCENTER") ++ L "'") by now rewrite <- app_assoc.
    apply quoted_literal. destruct f; cbn; intuition discriminate. }
  split; [right; right; left; now constructor|now apply string_end].
Qed.
(** The start of a printed shape. *)
Lemma head_out w f : schk [] (L w) = true -> slex [] (L w) = [L w] ->
  shut (L w ++ L "(" ++ coord_literal (pr_frame f) ++ L ",") [L w; L "("; coord_literal (pr_frame f); L ","].
Proof.
  intros H E. destruct (frame_literal f) as [T N].
  change [L w; L "("; coord_literal (pr_frame f); L ","] with ([L w] ++ [L "("] ++ [coord_literal (pr_frame f)] ++ [L ","]).
  apply shut_safe; [rewrite <- E; now apply outs_lit|now apply safe_cons|discriminate|].
  apply shut_app; [apply shut_mark; cbn; tauto|]. apply shut_app; [now apply shut_token|apply shut_mark; cbn; tauto].
Qed.

(** *** Table functions *)
Definition argp (a : text) (l : list text) : Prop := exists w w', l = [L "'" ++ w ++ a ++ w' ++ L "'"] /\ white w /\ white w' /\ dotted_name a.
Lemma arg_token w a w' : white w -> white w' -> dotted_name a -> string_literal (L "'" ++ w ++ a ++ w' ++ L "'").
Proof.
  intros W W' D. replace (w ++ a ++ w' ++ L "'") with ((w ++ a ++ w') ++ L "'") by now rewrite <- !app_assoc.
  apply quoted_literal. repeat apply not_in_app; [eapply white_no; eauto; reflexivity|now apply dotted_no|eapply white_no; eauto; reflexivity].
Qed.
Lemma arg_LI k w a w' : white w -> white w' -> dotted_name a -> LI k (L "'" ++ w ++ a ++ w' ++ L "'") [L "'" ++ w ++ a ++ w' ++ L "'"].
Proof. intros. apply LI_literal. constructor. now apply arg_token. Qed.
Lemma args_tail k tl vs : tail_of (G (PLex s_pqi)) (G (lit "','")) k tl vs -> forall w a sp k', white w -> dotted_name a -> white sp ->
  exists l, LI k' (L "'" ++ w ++ a ++ tl ++ sp ++ L "'") l /\ commas argp (a :: vs) l.
Proof.
  induction 1 as [|s t v t' vs Hs Hv Ht IH]; intros w a sp k' W D Sp.
  - cbn [app]. eexists. split; [now apply arg_LI|]. constructor. exists w, sp. auto.
  - destruct Hs as (s0 & x0 & -> & Ws & S0). apply strip_exact in S0 as ->. destruct Hv as (s1 & x & -> & Wx & X).
    eapply takes_lexeme in X; [|apply takes_pqi]. destruct X as (-> & Dx). apply spaces_white in Ws. apply spaces_white in Wx.
    destruct (IH s1 x sp k' Wx Dx Sp) as (l & Hl & Cl).
    exists ([L "'" ++ w ++ a ++ s0 ++ L "'"] ++ [L ","] ++ l). split.
    + replace (L "'" ++ w ++ a ++ ((s0 ++ L "','") ++ (s1 ++ x) ++ t') ++ sp ++ L "'")
        with ((L "'" ++ w ++ a ++ s0 ++ L "'") ++ L "," ++ (L "'" ++ s1 ++ x ++ t' ++ sp ++ L "'")) by (change (L "','") with (L "'" ++ L "," ++ L "'"); now rewrite <- !app_assoc).
      apply lexes_app; [now apply arg_LI|]. apply lexes_app; [apply LI_mark; cbn; tauto|exact Hl].
    + cbn [app]. apply (commas_more argp a [_]); auto. exists w, s0. auto.
Qed.
Definition tvfp (v : tref) (l : list text) : Prop := exists f args, v = TR_tvf f args /\ prn (pr_tvf f args) l.
Lemma takes_tvf x k v : lexeme s_tvf_head x k v -> exists tb, x = tb ++ L "(" ++ v ++ L "('" /\ upper tb = L "TABLE" /\ dotted_name v.
Proof.
  intros H. apply lexeme_hold in H. unfold lexeme in H. rewrite run_seq in H.
  destruct (srun (SLit true (L "table(")) [] (x ++ k)) as [a0 r| | |] eqn:E; try discriminate.
  cbn [srun] in E. destruct (strip true (L "table(") (x ++ k)) as [[u r']|] eqn:E0; [|discriminate]. injection E as <- ->.
  apply strip_nc_iff in E0 as [E U]. rename H into E1.
  rewrite run_seq in E1. destruct (srun s_pqi [] r) as [a2 i2| | |] eqn:E2; try discriminate. apply takes_pqi in E2 as (y & -> & -> & D).
  cbn [srun app] in E1. destruct (strip false (L "('") i2) as [[z r2]|] eqn:E3; [|discriminate]. injection E1 as -> ->.
  apply strip_cs_iff in E3 as [-> ->]. change (upper (L "table(")) with (L "TABLE" ++ L "(") in U.
  apply upper_split in U as (tb & p & -> & U1 & U2). assert (p = L "(") as ->.
  { destruct p as [|c [|d p]]; try discriminate. cbn in U2. injection U2 as C. clear - C. revert C. revert c. by_byte. }
  exists tb. split; auto. rewrite !app_assoc in E. apply app_inv_tail in E as ->. now rewrite <- !app_assoc.
Qed.
Lemma dotted_token a : dotted_name a -> token a. Proof. intros D. do 4 right. now left. Qed.
Lemma arg_out a l : argp a l -> prn (L "'" ++ a ++ L "'") l.
Proof.
  intros (w & w' & -> & W & W' & D). exists [L "'" ++ a ++ L "'"]. split; [|now constructor].
  apply outs_token. right; right; left. constructor. change (L "'" ++ a ++ L "'") with (L "'" ++ [] ++ a ++ [] ++ L "'").
  apply arg_token; auto; constructor.
Qed.
Lemma c0_tvf : cont0 g_table_valued_function tvfp.
Proof.
  unfold g_table_valued_function. intros t k v (x & Hx & ->) _. destruct x as [[[f oa] u] u']. cbn [fst snd] in *.
  destruct Hx as (t1 & t2 & -> & (t3 & t4 & -> & (t5 & t6 & -> & Hh & Ha) & Hq) & Hc). cbn [fst snd] in *.
  destruct Hh as (sp0 & x & -> & W0 & X). apply takes_tvf in X as (tb & -> & U & D). apply spaces_white in W0.
  destruct Hq as (sp1 & q & -> & W1 & S1). apply strip_exact in S1 as ->. destruct Hc as (sp2 & c & -> & W2 & S2). apply strip_exact in S2 as ->.
  apply spaces_white in W1. apply spaces_white in W2. destruct (kw_word "TABLE" tb eq_refl U) as [Wt Kt].
  assert (Arg : exists la, LI (L ")" ++ sp2 ++ L ")" ++ k) (L "'" ++ t6 ++ sp1 ++ L "'") la /\
      (oa <> None /\ commas argp (odef [] oa) la \/ oa = None /\ exists w, white w /\ la = [L "'" ++ w ++ L "'"])).
  { destruct oa as [args|]; cbn [gen odef] in *.
    - destruct Ha as (t7 & t8 & a & vs & -> & -> & (s7 & y & -> & W7 & Y) & Ht).
      eapply takes_lexeme in Y; [|apply takes_pqi]. destruct Y as (-> & Dy). apply spaces_white in W7.
      destruct (args_tail _ _ _ Ht s7 y sp1 (L ")" ++ sp2 ++ L ")" ++ k) W7 Dy W1) as (l & Hl & Cl). exists l.
      split; [now rewrite <- !app_assoc|]. left. split; [discriminate|auto].
    - apply spaces_white in Ha. exists [L "'" ++ (t6 ++ sp1) ++ L "'"]. assert (W : white (t6 ++ sp1)) by (apply Forall_app; auto). split.
      + rewrite (app_assoc t6). apply LI_literal. constructor. apply quoted_literal. eapply white_no; [exact W|reflexivity].
      + right. split; auto. eauto. }
  destruct Arg as (la & Hla & Arg).
  exists ([tb] ++ [L "("] ++ [f] ++ [L "("] ++ la ++ [L ")"] ++ [L ")"]). split.
  - replace ((((sp0 ++ tb ++ L "(" ++ f ++ L "('") ++ t6) ++ sp1 ++ L "')") ++ sp2 ++ L ")")
      with (sp0 ++ tb ++ L "(" ++ f ++ L "(" ++ (L "'" ++ t6 ++ sp1 ++ L "'") ++ L ")" ++ sp2 ++ L ")") by (change (L "('") with (L "(" ++ L "'"); change (L "')") with (L "'" ++ L ")"); now rewrite <- !app_assoc).
    apply lexes_prefix; auto. apply lexes_app; [now apply LI_keyword|]. apply lexes_app; [apply LI_mark; cbn; tauto|].
    apply lexes_app. { apply lexes_one; [left; now apply dotted_token|]. right. intros _. now apply (safe_cons "("%char). }
    apply lexes_app; [apply LI_mark; cbn; tauto|]. apply lexes_app; [rewrite <- !app_assoc; exact Hla|].
    apply lexes_app; [apply LI_mark; cbn; tauto|]. apply lexes_prefix; auto. apply LI_mark; cbn; tauto.
  - exists f, (odef [] oa). split; auto. unfold pr_tvf.
    assert (Nt : norm [tb] [L "table"]) by now constructor.
    assert (Of : outs f [f]) by (apply outs_token; now apply dotted_token).
    destruct Arg as [[_ C]|[-> (w & W & ->)]].
    + destruct (join_out m fmt stray argp (fun a => L "'" ++ a ++ L "'") (L ",") _ _ C (or_introl eq_refl) (fun v l _ H => arg_out v l H)) as (l' & O & N).
      exists ([L "table"; L "("] ++ [f] ++ [L "("] ++ l' ++ [L ")"; L ")"]). split.
      * outs_tac.
      * cbn [app]. apply norm_cons; auto. do 3 (apply norm_cons; [constructor|]). constructor; auto. apply norm_refl.
    + cbn [odef map join app]. exists ([L "table"; L "("] ++ [f] ++ [L "("] ++ [] ++ [L ")"; L ")"]). split.
      * eapply outs_shut; [eapply shut_litl; reflexivity|]. apply outs_safe; auto; [now apply safe_cons|]. now apply (outs_litl m fmt "())" [L "("; L ")"; L ")"]).
      * cbn [app]. apply norm_cons; auto. do 2 (apply norm_cons; [constructor|]).
        change (norm ([L "("; L "'" ++ w ++ L "'"; L ")"] ++ [L ")"]) ([L "("; L ")"] ++ [L ")"])). constructor; [now constructor|constructor].
Qed.
End Shapes.
