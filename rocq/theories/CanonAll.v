(** Every printed canonical query is read back: the parts are put together by induction on the query. *)
From Verif Require Import Query Grammar Print PegProps Nodes Totality PegSpec PegEquiv TextLemmas SpecLexical LexProofs LexProofs2 First Calc Look Tight Operand TopProofs SpecCanon AstInd PrintEq CanonBase CanonLex CanonGeo CanonHead CanonLead CanonFun CanonPrim CanonVal CanonCond CanonJt CanonJoin CanonSel CanonGeom CanonQuery.

Lemma all_of {A : Set} (c : A -> bool) (R : A -> Prop) l : forallb c l = true -> Forall (fun x => c x = true -> R x) l -> Forall R l.
Proof. induction l as [|x l IH]; intros C F; [constructor|]. cbn in C. apply andb_true_iff in C as [C1 C2]. inversion_clear F. constructor; auto. Qed.
Lemma not_nil {A} (l : list A) : negb (is_nil l) = true -> l <> [].
Proof. now intros H ->. Qed.

Section All.
Variable tm : mapping.
Variable fmt : text -> text.
Notation m := (lookup tm).
Notation arg := (arg m fmt).

Definition A_ve (v : ve) : Prop := c_ve fmt v = true -> Rve m fmt v.
Definition A_venb (v : venb) : Prop := c_venb fmt v = true -> Rvenb m fmt v.
Definition A_vterm (t : vterm) : Prop := c_vterm fmt t = true -> Rfactor m fmt (factor_of t).
Definition A_factor (f : factor) : Prop := c_factor fmt f = true -> Rfactor m fmt f.
Definition A_nprim (p : nprim) : Prop := c_nprim fmt p = true -> Rnprim m fmt p.
Definition A_nvf (f : nvf) : Prop := c_nvf fmt f = true -> Rnvf m fmt f.
Definition A_vep (v : vep) : Prop := c_vep fmt v = true -> Rnprim m fmt (NP_vep v).
Definition A_vepv (v : vepv) : Prop := c_vepv fmt v = true -> Rvepv m fmt v.
Definition A_swhen (w : swhen) : Prop := c_swhen fmt w = true -> whenr m g_simple_when (pr_swhen fmt) w.
Definition A_qwhen (w : qwhen) : Prop := c_qwhen fmt w = true -> whenr m g_searched_when (pr_qwhen fmt) w.
Definition A_result (r : result) : Prop := c_result fmt r = true -> result_empty r = false /\ res m fmt r.
Definition A_sc (s : sc) : Prop := c_sc fmt s = true -> Rsc m fmt s /\ Vsc m fmt s.
Definition A_bfac (f : bfac) : Prop := c_bfac fmt f = true -> Rbfac m fmt f /\ match f with BF n p => (if is_nil n then True else one_of_nc n ["NOT"%string] = true) /\ Vbprim m fmt p end.
Definition A_bprim (p : bprim) : Prop := c_bprim fmt p = true -> Rbprim m fmt p /\ Vbprim m fmt p.
Definition A_pred (p : pred) : Prop := c_pred fmt p = true -> Rpred m fmt p /\ Hpred m fmt p.
Definition A_intarget (t : intarget) : Prop := c_intarget fmt t = true -> Rintarget m fmt t.
Definition A_subq (q : subq) : Prop := c_subq fmt q = true -> Rsubq m fmt q.
Definition A_jt (j : jt) : Prop := (c_jt fmt j = true -> Rjt m fmt j) /\ match j with JT_p j' => c_jt fmt j' = true -> Rjt m fmt j' | JT_q _ => True end.
Definition A_qjoin (q : qjoin) : Prop := c_qjoin fmt q = true -> Rjt m fmt (JT_q q).
Definition A_qjhead (h : qjhead) : Prop := c_qjhead fmt h = true -> match h with QH_tc n a => tname name n /\ (is_nil a = true \/ name a) | QH_jt (JT_p j) => Rjt m fmt j | QH_jt (JT_q _) => False end.
Definition A_jsuf (s : jsuf) : Prop := c_jsuf fmt s = true -> Rjsuf m fmt s.
Definition A_jspec (s : jspec) : Prop := c_jspec fmt s = true -> Rspec m fmt s.
Definition A_tref (t : tref) : Prop := c_tref fmt t = true -> Rtref m fmt t.
Definition A_qspec (q : qspec) : Prop := forall geo, c_qspec fmt geo q = true -> Rqspec m fmt geo q.
Definition A_with (w : withc) : Prop := c_with fmt w = true -> Rwith tm fmt w.
Definition A_addon (a : addon) : Prop := forall geo, c_addon fmt geo a = true -> Raddon tm fmt a.
Definition A_sfw (s : sfw) : Prop := forall geo, c_sfw fmt geo s = true -> Rsfw tm fmt s.
Definition A_where (w : wherec) : Prop := forall geo, c_where fmt geo w = true -> Rwhere tm fmt w.
Definition A_geom (g : geom) : Prop := c_geom fmt g = true -> match g with G_right p _ => Rgpred m fmt p | G_left _ _ => True end.
Definition A_gpred (p : gpred) : Prop := c_gpred fmt p = true -> Rgpred m fmt p.
Definition A_select (s : select) : Prop := c_select fmt s = true -> Rselect tm fmt s.
Definition A_columns (c : columns) : Prop := c_columns fmt c = true -> match c with C_star _ => True | C_list l => Forall (Rcolv tm fmt) l end.
Definition A_colv (c : colv) : Prop := c_colv fmt c = true -> Rcolv tm fmt c.
Definition A_gterm (g : gterm) : Prop := c_gterm fmt g = true -> Rgterm tm fmt g.

Ltac sp := repeat match goal with H : _ && _ = true |- _ => apply andb_true_iff in H as [? ?] end.
Lemma a_arg v : A_ve v -> c_ve fmt v = true -> arg v.
Proof. intros A C. apply ve_arg. auto. Qed.
Lemma a_args l : Forall A_ve l -> forallb (c_ve fmt) l = true -> Forall arg l.
Proof. intros A C. eapply all_of; [exact C|]. eapply Forall_impl; [|exact A]. intros v H X. now apply a_arg. Qed.
Lemma ve_lead' v k : c_ve fmt v = true -> lead (pr_ve fmt v ++ L ")" ++ k).
Proof. intros C. apply lead_all; [exact C|now apply no_word_char]. Qed.

Lemma ve_venb p : Rve m fmt (VE_nb p) -> Rvenb m fmt p.
Proof.
  intros R i k K H. assert (V : reads m p_ve i (VE_nb p) (skip k)). { apply R; [exact K|discriminate|discriminate|]. now rewrite pr_ve_VE_nb. }
  set (n := 3 * length i + 3). assert (T : grun m n p_ve i <> OOF) by (apply grun_total; [reflexivity|unfold n; lia]).
  destruct V as (r & E & S). apply (ev_iff_run (g_body m) _ _ _ _ n T) in E. apply (inv_rule (g_body m) n R_ve) in E as (n' & _ & E). change (g_body m R_ve) with g_value_expression in E.
  apply inv_alt in E as [E|(i1 & _ & _ & E)]; apply inv_map in E as (x & X & E); [|discriminate]. injection X as <-. exists r. split; [|exact S].
  rewrite <- E. apply run_ev. rewrite E. discriminate.
Qed.
Lemma dark_nil t : dark (t ++ []) -> dark t.
Proof. now rewrite app_nil_r. Qed.
Lemma bprim_dark n p : is_nil n = true -> c_bfac fmt (BF n p) = true -> dark (pr_bprim fmt p).
Proof. intros N C. destruct n; [|discriminate]. apply dark_nil, lead_dark. change (pr_bprim fmt p) with (pr_bfac fmt (BF [] p)). apply lead_all; [exact C|exact I]. Qed.
Lemma venb_dark v : c_venb fmt v = true -> dark (pr_venb fmt v).
Proof. intros C. apply dark_nil, lead_dark, lead_all; [exact C|exact I]. Qed.
Lemma alias_of a : is_nil a || is_name a = true -> is_nil a = true \/ name a.
Proof. intros [H|H]%orb_true_iff; [now left|right; now apply is_name_ok]. Qed.
Lemma names_of l : forallb is_name l = true -> Forall name l.
Proof. induction l as [|x l IH]; intros H; [constructor|]. cbn in H. apply andb_true_iff in H as [H1 H2]. constructor; [now apply is_name_ok|auto]. Qed.

Theorem all_read :
  (forall v, A_ve v) /\ (forall v, A_venb v) /\ (forall v, A_sc v) /\ (forall v, A_tref v) /\ (forall v, A_subq v) /\ (forall v, A_qspec v).
Proof.
  edestruct (ast_ind A_ve A_venb A_vterm A_factor A_nprim A_nvf A_vep A_vepv A_swhen A_qwhen A_result A_sc A_bfac A_bprim A_pred A_intarget A_subq A_jt A_qjoin A_qjhead A_jsuf A_jspec A_tref A_qspec A_with A_addon A_sfw A_where A_geom A_gpred A_select A_columns A_colv A_gterm).
  - intros v H C. rewrite c_ve_VE_nb in C. apply rd_ve_nb. auto.
  - intros s H C. rewrite c_ve_VE_sc in C. sp. destruct H as [R V]; [assumption|]. now apply rd_ve_sc.
  - intros f ts H F C. pose proof C as C'. rewrite c_venb_VENB in C. sp. apply rd_venb; [exact C'|auto|]. eapply all_of; [eassumption|exact F].
  - intros op f H C. rewrite c_vterm_VTerm in C. sp. cbn. auto.
  - intros s p H C. rewrite c_factor_Factor in C. sp. apply rd_factor; auto.
  - intros v H C. rewrite c_nprim_NP_vep in C. auto.
  - intros f H C. rewrite c_nprim_NP_nvf in C. apply rd_nvf. auto.
  - intros f a H C i k K. rewrite c_nvf_NV_trig1 in C. sp. apply rd_trig1; auto using a_arg.
  - intros f a b H1 H2 C i k K. rewrite c_nvf_NV_trig2 in C. sp. apply rd_trig2; auto using a_arg.
  - intros f C i k K. rewrite c_nvf_NV_math0 in C. apply rd_math0; auto.
  - intros f a H C i k K. rewrite c_nvf_NV_math1 in C. sp. apply rd_math1; auto using a_arg, ve_lead'.
  - intros f a b H1 H2 C i k K. rewrite c_nvf_NV_math2 in C. sp. apply rd_math2; auto using a_arg.
  - intros a t n H C i k K. rewrite c_nvf_NV_cast in C. sp. apply rd_cast; auto using a_arg.
  - intros f a C i k K. rewrite c_nvf_NV_geo1 in C. sp. apply rd_geo1; auto.
  - intros f a b C i k K. rewrite c_nvf_NV_geo2 in C. sp. apply rd_geo2; auto.
  - intros f l H C i k K. rewrite c_nvf_NV_udf in C. apply andb_true_iff in C as [C1 C2]. apply rd_udf; auto using a_args.
  - intros s C i k K. rewrite c_nvf_NV_str in C. apply rd_noarg; auto.
  - intros v l H F C. rewrite c_vep_VEP in C. apply andb_true_iff in C as [C C3]. sp. apply rd_vep; auto using a_args. intros N. destruct v as [| |[]| | | | | | | |]; auto.
    destruct l; [congruence|]. cbn [is_nil orb] in C3. apply negb_true_iff in C3. intros U. unfold one_of_nc in C3. rewrite U in C3. discriminate.
  - intros l F C i k K _ _. rewrite c_vepv_VP_array in C. sp. apply rd_array; auto using a_args, not_nil.
  - intros s C i k K _ Q. rewrite c_vepv_VP_str in C. rewrite pr_vepv_VP_str. rewrite !orb_true_iff in C. destruct C as [[C|C]|C].
    + now apply rd_number.
    + apply rd_string; [exact C|]. apply Q. apply is_quoted_ok in C as (b & -> & _). reflexivity.
    + apply one_of_nc_iff in C. cbn [map In] in C.
      destruct C as [C|[C|[C|[C|[C|[C|[]]]]]]]; [apply rd_bool|apply rd_bool|apply rd_null|apply rd_null_cast|apply rd_null_cast|apply rd_null_cast]; auto; apply one_of_nc_iff; cbn [map In]; auto.
  - intros c C i k K I _. rewrite c_vepv_VP_col in C. rewrite pr_vepv_VP_col. now apply rd_col.
  - intros s C i k K _ _. rewrite c_vepv_VP_setstr in C. rewrite pr_vepv_VP_setstr. now apply rd_count_star.
  - intros ty q a H C i k K _ _. rewrite c_vepv_VP_set in C. sp. apply rd_set; auto using a_arg, ve_lead'.
  - intros a b H1 H2 C i k K _ _. rewrite c_vepv_VP_nullif in C. sp. apply rd_nullif; auto using a_arg.
  - intros l F C i k K _ _. rewrite c_vepv_VP_coalesce in C. sp. apply rd_coalesce; auto using a_args, not_nil.
  - intros x w e H F O C i k K _ _. rewrite c_vepv_VP_case in C. sp. apply rd_case; auto using a_arg, not_nil; [eapply all_of; eassumption|]. destruct e as [r|]; [|exact I]. now apply O.
  - intros w e F O C i k K _ _. rewrite c_vepv_VP_scase in C. sp. apply rd_scase; auto using not_nil; [eapply all_of; eassumption|]. destruct e as [r|]; [|exact I]. now apply O.
  - intros a H C i k K _ _. rewrite c_vepv_VP_any in C. apply rd_any; auto using a_arg.
  - intros a H C i k K _ _. rewrite c_vepv_VP_sub in C. apply rd_sub; auto using a_arg.
  - intros a r H1 H2 C. rewrite c_swhen_SWhen in C. sp. apply rd_swhen; auto using a_arg. now apply H2.
  - intros a r H1 H2 C. rewrite c_qwhen_QWhen in C. sp. apply rd_qwhen; [|now apply H2]. intros i k K E. destruct H1 as [R _]; [assumption|]. apply R; [now apply astop_v|now apply astop_b|intros _; now apply astop_p|exact E].
  - intros s C. rewrite c_result_Res_str in C. discriminate.
  - intros a H C. rewrite c_result_Res_ve in C. split; [now apply (ve_nonempty fmt)|]. intros i k K E. rewrite pr_result_Res_ve in E. apply reads_alt1. eapply reads_map; [|reflexivity]. now apply (a_arg a).
  - intros f H C. pose proof C as C'. rewrite c_sc_SC_f in C. destruct (H C) as [R V]. assert (RS : Rsc m fmt (SC_f f)) by now apply rd_sc_f. split; [exact RS|]. now apply Vsc_ok.
  - intros f op s H1 H2 C. pose proof C as C'. rewrite c_sc_SC_t in C. sp. destruct H1 as [R V]; [assumption|]. destruct H2 as [R2 _]; [assumption|]. assert (RS : Rsc m fmt (SC_t f op s)) by now apply rd_sc_t. split; [exact RS|]. now apply Vsc_ok.
  - intros n p H C. pose proof C as C'. rewrite c_bfac_BF in C. apply andb_true_iff in C as [C1 C2]. destruct (H C2) as [R V]. split.
    + apply rd_bfac; [|exact R]. destruct (is_nil n) eqn:E; [|exact C1]. split; [|now apply negb_true_iff in C1]. now apply (bprim_dark n p E).
    + split; [|exact V]. destruct (is_nil n); [exact I|exact C1].
  - intros p H C. rewrite c_bprim_BP_pred in C. destruct (H C) as [R V]. split; [now apply rd_bpred|now apply V_pred].
  - intros s H C. rewrite c_bprim_BP_sc in C. destruct (H C) as [R V]. split; [now apply rd_bsc|now apply V_sc].
  - intros v H C. rewrite c_bprim_BP_val in C. sp. assert (R : Rvenb m fmt v) by auto. split; [|now apply V_val]. apply rd_bval; [exact R| |now apply negb_true_iff|now apply negb_true_iff]. now apply venb_dark.
  - intros l op r H1 H2 C. rewrite c_pred_P_cmp in C. sp. split; [apply rd_cmp|apply hd_cmp]; auto.
  - intros v n lo hi H1 H2 H3 C. rewrite c_pred_P_between in C. sp. split; [apply rd_between|apply hd_between]; auto. now apply negb_true_iff.
  - intros v n t H1 H2 C. rewrite c_pred_P_in in C. sp. split; [apply rd_in|apply hd_in]; auto.
  - intros v n H1 C. rewrite c_pred_P_null in C. sp. split; [apply rd_isnull|apply hd_isnull]; auto.
  - intros v n p H1 H2 C. rewrite c_pred_P_like in C. sp. split; [|apply hd_like; auto]. destruct p as [p|s]; [|discriminate]. apply rd_like; auto. now apply ve_venb, H2.
  - intros q H C. rewrite c_pred_P_exists in C. split; [apply rd_exists; auto|]. intros X. discriminate X.
  - intros q H C. rewrite c_intarget_In_sub in C. apply rd_in_sub. auto.
  - intros l F C. pose proof C as C'. rewrite c_intarget_In_list in C. apply andb_true_iff in C as [C _]. apply andb_true_iff in C as [_ C]. apply rd_in_list; [exact C'|]. eapply all_of; [exact C|exact F].
  - intros j [H _] C. pose proof C as C'. rewrite c_subq_SQ_jt in C. sp. apply rd_subq_jt; auto.
  - intros q H C. rewrite c_subq_SQ_q in C. apply rd_subq_q. auto.
  - intros q H. split; [|exact I]. intros C. rewrite c_jt_JT_q in C. auto.
  - intros j [H _]. split; [|exact H]. intros C. rewrite c_jt_JT_p in C. apply rd_jt_p. auto.
  - intros h ss H F C. rewrite c_qjoin_QJ in C. sp. apply rd_jt_q; [exact (H H0)|now apply not_nil| |assumption]. eapply all_of; [eassumption|]. eapply Forall_impl; [|exact F]. intros s A X. split; auto.
  - intros n a C. rewrite c_qjhead_QH_tc in C. sp. split; [now apply is_table_name_ok|now apply alias_of].
  - intros j [_ H] C. rewrite c_qjhead_QH_jt in C. destruct j as [q|j]; [discriminate|auto].
  - intros nat ty t sp H O C. pose proof C as C'. rewrite c_jsuf_JS in C. apply andb_true_iff in C as [C C2]. sp. apply rd_jsuf; auto. intros s ->. sp. now apply O.
  - intros l C. rewrite c_jspec_JSp_using in C. sp. apply rd_using; auto using not_nil, names_of.
  - intros s H C. rewrite c_jspec_JSp_on in C. apply rd_on. now apply H.
  - intros n a C. rewrite c_tref_TR_tc in C. sp. apply rd_tref_tc; [now apply is_table_name_ok|now apply alias_of].
  - intros j [H _] C. rewrite c_tref_TR_jt in C. apply rd_tref_jt. auto.
  - intros q a H C. rewrite c_tref_TR_dc in C. apply andb_true_iff in C as [C1 C2]. destruct q as [j|q]; [discriminate|]. apply rd_tref_dc; auto using is_name_ok.
  - intros f l C. rewrite c_tref_TR_tvf in C. sp. apply rd_tref_tvf; auto using not_nil.
  - intros w i ad g h o Hw Hi Fa Fg Hh geo C i' k K E. assert (R : Rquery tm fmt (QS w i ad g h o)).
    { rewrite c_qspec_QS in C. apply andb_true_iff in C as [C _]. apply andb_true_iff in C as [C Ch]. apply andb_true_iff in C as [C Cg]. apply andb_true_iff in C as [C Ca]. apply andb_true_iff in C as [Cw Cs]. repeat split.
      - intros x ->. auto.
      - now apply (Hi geo).
      - eapply all_of; [exact Ca|]. eapply Forall_impl; [|exact Fa]. intros a A. apply A.
      - eapply all_of; [exact Cg|exact Fg].
      - intros x ->. now apply Hh. }
    pose proof (rd_query tm fmt geo _ i' k C R K E) as Z. destruct geo; exact Z.
  - intros n cols q H C. rewrite c_with_With in C. sp. apply H. assumption.
  - intros op s H geo C. rewrite c_addon_Addon in C. sp. now apply (H geo).
  - intros s ts w H F W geo C. rewrite c_sfw_SFW in C. sp. repeat split; [auto| |now apply (W geo)]. eapply all_of; [eassumption|exact F].
  - intros g s H1 H2 geo C. rewrite c_where_Where in C. sp. split; [intros p fl ->|intros x ->]; sp; [now apply H1|now apply H2].
  - intros t p H C. exact I.
  - intros p fl H C. rewrite c_geom_G_right in C. sp. auto.
  - intros e s H C. rewrite c_gpred_GP_intersects in C. sp. apply rd_intersects; auto.
  - intros a b C. rewrite c_gpred_GP_contains in C. sp. now apply rd_contains.
  - intros q t c H C. pose proof C as C'. rewrite c_select_Select in C. apply andb_true_iff in C as [_ C]. apply rd_select; [exact C'|exact (H C)].
  - intros s C. exact I.
  - intros l F C. rewrite c_columns_C_list in C. sp. eapply all_of; [eassumption|exact F].
  - intros e a H C. rewrite c_colv_CV_as in C. sp. apply rd_as; auto using is_name_ok.
  - intros s C. rewrite c_colv_CV_star in C. now apply rd_item_star.
  - intros e H C. rewrite c_colv_CV_ve in C. apply rd_item_ve; auto.
  - intros e H C. rewrite c_gterm_GT_ve in C. cbn. auto.
  - intros c C. rewrite c_gterm_GT_col in C. discriminate.
  - intuition auto.
Qed.
End All.
