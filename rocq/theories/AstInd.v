(** An induction principle for the whole abstract syntax, with hypotheses for the members of lists
    and options. *)
From Verif Require Import Ast.

Definition optP {A : Set} (P : A -> Prop) (o : option A) : Prop := match o with Some x => P x | None => True end.

Section Ind.
Variable P_ve : ve -> Prop.
Variable P_venb : venb -> Prop.
Variable P_vterm : vterm -> Prop.
Variable P_factor : factor -> Prop.
Variable P_nprim : nprim -> Prop.
Variable P_nvf : nvf -> Prop.
Variable P_vep : vep -> Prop.
Variable P_vepv : vepv -> Prop.
Variable P_swhen : swhen -> Prop.
Variable P_qwhen : qwhen -> Prop.
Variable P_result : result -> Prop.
Variable P_sc : sc -> Prop.
Variable P_bfac : bfac -> Prop.
Variable P_bprim : bprim -> Prop.
Variable P_pred : pred -> Prop.
Variable P_intarget : intarget -> Prop.
Variable P_subq : subq -> Prop.
Variable P_jt : jt -> Prop.
Variable P_qjoin : qjoin -> Prop.
Variable P_qjhead : qjhead -> Prop.
Variable P_jsuf : jsuf -> Prop.
Variable P_jspec : jspec -> Prop.
Variable P_tref : tref -> Prop.
Variable P_qspec : qspec -> Prop.
Variable P_withc : withc -> Prop.
Variable P_addon : addon -> Prop.
Variable P_sfw : sfw -> Prop.
Variable P_wherec : wherec -> Prop.
Variable P_geom : geom -> Prop.
Variable P_gpred : gpred -> Prop.
Variable P_select : select -> Prop.
Variable P_columns : columns -> Prop.
Variable P_colv : colv -> Prop.
Variable P_gterm : gterm -> Prop.
Hypothesis H_VE_nb : forall (x0 : venb), P_venb x0 -> P_ve (VE_nb x0).
Hypothesis H_VE_sc : forall (x0 : sc), P_sc x0 -> P_ve (VE_sc x0).
Hypothesis H_VENB : forall (x0 : factor) (x1 : list vterm), P_factor x0 -> Forall P_vterm x1 -> P_venb (VENB x0 x1).
Hypothesis H_VTerm : forall (x0 : text) (x1 : factor), P_factor x1 -> P_vterm (VTerm x0 x1).
Hypothesis H_Factor : forall (x0 : text) (x1 : nprim), P_nprim x1 -> P_factor (Factor x0 x1).
Hypothesis H_NP_vep : forall (x0 : vep), P_vep x0 -> P_nprim (NP_vep x0).
Hypothesis H_NP_nvf : forall (x0 : nvf), P_nvf x0 -> P_nprim (NP_nvf x0).
Hypothesis H_NV_trig1 : forall (x0 : text) (x1 : ve), P_ve x1 -> P_nvf (NV_trig1 x0 x1).
Hypothesis H_NV_trig2 : forall (x0 : text) (x1 : ve) (x2 : ve), P_ve x1 -> P_ve x2 -> P_nvf (NV_trig2 x0 x1 x2).
Hypothesis H_NV_math0 : forall (x0 : text), P_nvf (NV_math0 x0).
Hypothesis H_NV_math1 : forall (x0 : text) (x1 : ve), P_ve x1 -> P_nvf (NV_math1 x0 x1).
Hypothesis H_NV_math2 : forall (x0 : text) (x1 : ve) (x2 : ve), P_ve x1 -> P_ve x2 -> P_nvf (NV_math2 x0 x1 x2).
Hypothesis H_NV_cast : forall (x0 : ve) (x1 : text) (x2 : text), P_ve x0 -> P_nvf (NV_cast x0 x1 x2).
Hypothesis H_NV_geo1 : forall (x0 : text) (x1 : poc), P_nvf (NV_geo1 x0 x1).
Hypothesis H_NV_geo2 : forall (x0 : text) (x1 : poc) (x2 : poc), P_nvf (NV_geo2 x0 x1 x2).
Hypothesis H_NV_udf : forall (x0 : text) (x1 : list ve), Forall P_ve x1 -> P_nvf (NV_udf x0 x1).
Hypothesis H_NV_str : forall (x0 : text), P_nvf (NV_str x0).
Hypothesis H_VEP : forall (x0 : vepv) (x1 : list ve), P_vepv x0 -> Forall P_ve x1 -> P_vep (VEP x0 x1).
Hypothesis H_VP_array : forall (x0 : list ve), Forall P_ve x0 -> P_vepv (VP_array x0).
Hypothesis H_VP_str : forall (x0 : text), P_vepv (VP_str x0).
Hypothesis H_VP_col : forall (x0 : colref), P_vepv (VP_col x0).
Hypothesis H_VP_setstr : forall (x0 : text), P_vepv (VP_setstr x0).
Hypothesis H_VP_set : forall (x0 : text) (x1 : text) (x2 : ve), P_ve x2 -> P_vepv (VP_set x0 x1 x2).
Hypothesis H_VP_nullif : forall (x0 : ve) (x1 : ve), P_ve x0 -> P_ve x1 -> P_vepv (VP_nullif x0 x1).
Hypothesis H_VP_coalesce : forall (x0 : list ve), Forall P_ve x0 -> P_vepv (VP_coalesce x0).
Hypothesis H_VP_case : forall (x0 : ve) (x1 : list swhen) (x2 : option result), P_ve x0 -> Forall P_swhen x1 -> optP P_result x2 -> P_vepv (VP_case x0 x1 x2).
Hypothesis H_VP_scase : forall (x0 : list qwhen) (x1 : option result), Forall P_qwhen x0 -> optP P_result x1 -> P_vepv (VP_scase x0 x1).
Hypothesis H_VP_any : forall (x0 : ve), P_ve x0 -> P_vepv (VP_any x0).
Hypothesis H_VP_sub : forall (x0 : ve), P_ve x0 -> P_vepv (VP_sub x0).
Hypothesis H_SWhen : forall (x0 : ve) (x1 : result), P_ve x0 -> P_result x1 -> P_swhen (SWhen x0 x1).
Hypothesis H_QWhen : forall (x0 : sc) (x1 : result), P_sc x0 -> P_result x1 -> P_qwhen (QWhen x0 x1).
Hypothesis H_Res_str : forall (x0 : text), P_result (Res_str x0).
Hypothesis H_Res_ve : forall (x0 : ve), P_ve x0 -> P_result (Res_ve x0).
Hypothesis H_SC_f : forall (x0 : bfac), P_bfac x0 -> P_sc (SC_f x0).
Hypothesis H_SC_t : forall (x0 : bfac) (x1 : text) (x2 : sc), P_bfac x0 -> P_sc x2 -> P_sc (SC_t x0 x1 x2).
Hypothesis H_BF : forall (x0 : text) (x1 : bprim), P_bprim x1 -> P_bfac (BF x0 x1).
Hypothesis H_BP_pred : forall (x0 : pred), P_pred x0 -> P_bprim (BP_pred x0).
Hypothesis H_BP_sc : forall (x0 : sc), P_sc x0 -> P_bprim (BP_sc x0).
Hypothesis H_BP_val : forall (x0 : venb), P_venb x0 -> P_bprim (BP_val x0).
Hypothesis H_P_cmp : forall (x0 : venb) (x1 : text) (x2 : ve), P_venb x0 -> P_ve x2 -> P_pred (P_cmp x0 x1 x2).
Hypothesis H_P_between : forall (x0 : venb) (x1 : text) (x2 : ve) (x3 : ve), P_venb x0 -> P_ve x2 -> P_ve x3 -> P_pred (P_between x0 x1 x2 x3).
Hypothesis H_P_in : forall (x0 : venb) (x1 : text) (x2 : intarget), P_venb x0 -> P_intarget x2 -> P_pred (P_in x0 x1 x2).
Hypothesis H_P_null : forall (x0 : venb) (x1 : text), P_venb x0 -> P_pred (P_null x0 x1).
Hypothesis H_P_like : forall (x0 : venb) (x1 : text) (x2 : ve), P_venb x0 -> P_ve x2 -> P_pred (P_like x0 x1 x2).
Hypothesis H_P_exists : forall (x0 : subq), P_subq x0 -> P_pred (P_exists x0).
Hypothesis H_In_sub : forall (x0 : subq), P_subq x0 -> P_intarget (In_sub x0).
Hypothesis H_In_list : forall (x0 : list ve), Forall P_ve x0 -> P_intarget (In_list x0).
Hypothesis H_SQ_jt : forall (x0 : jt), P_jt x0 -> P_subq (SQ_jt x0).
Hypothesis H_SQ_q : forall (x0 : qspec), P_qspec x0 -> P_subq (SQ_q x0).
Hypothesis H_JT_q : forall (x0 : qjoin), P_qjoin x0 -> P_jt (JT_q x0).
Hypothesis H_JT_p : forall (x0 : jt), P_jt x0 -> P_jt (JT_p x0).
Hypothesis H_QJ : forall (x0 : qjhead) (x1 : list jsuf), P_qjhead x0 -> Forall P_jsuf x1 -> P_qjoin (QJ x0 x1).
Hypothesis H_QH_tc : forall (x0 : text) (x1 : text), P_qjhead (QH_tc x0 x1).
Hypothesis H_QH_jt : forall (x0 : jt), P_jt x0 -> P_qjhead (QH_jt x0).
Hypothesis H_JS : forall (x0 : bool) (x1 : jtype) (x2 : tref) (x3 : option jspec), P_tref x2 -> optP P_jspec x3 -> P_jsuf (JS x0 x1 x2 x3).
Hypothesis H_JSp_using : forall (x0 : list text), P_jspec (JSp_using x0).
Hypothesis H_JSp_on : forall (x0 : sc), P_sc x0 -> P_jspec (JSp_on x0).
Hypothesis H_TR_tc : forall (x0 : text) (x1 : text), P_tref (TR_tc x0 x1).
Hypothesis H_TR_jt : forall (x0 : jt), P_jt x0 -> P_tref (TR_jt x0).
Hypothesis H_TR_dc : forall (x0 : subq) (x1 : text), P_subq x0 -> P_tref (TR_dc x0 x1).
Hypothesis H_TR_tvf : forall (x0 : text) (x1 : list text), P_tref (TR_tvf x0 x1).
Hypothesis H_QS : forall (x0 : option withc) (x1 : sfw) (x2 : list addon) (x3 : list gterm) (x4 : option sc) (x5 : list sort_spec), optP P_withc x0 -> P_sfw x1 -> Forall P_addon x2 -> Forall P_gterm x3 -> optP P_sc x4 -> P_qspec (QS x0 x1 x2 x3 x4 x5).
Hypothesis H_With : forall (x0 : text) (x1 : list text) (x2 : subq), P_subq x2 -> P_withc (With x0 x1 x2).
Hypothesis H_Addon : forall (x0 : text) (x1 : sfw), P_sfw x1 -> P_addon (Addon x0 x1).
Hypothesis H_SFW : forall (x0 : select) (x1 : list tref) (x2 : wherec), P_select x0 -> Forall P_tref x1 -> P_wherec x2 -> P_sfw (SFW x0 x1 x2).
Hypothesis H_Where : forall (x0 : option geom) (x1 : option sc), optP P_geom x0 -> optP P_sc x1 -> P_wherec (Where x0 x1).
Hypothesis H_G_left : forall (x0 : text) (x1 : gpred), P_gpred x1 -> P_geom (G_left x0 x1).
Hypothesis H_G_right : forall (x0 : gpred) (x1 : text), P_gpred x0 -> P_geom (G_right x0 x1).
Hypothesis H_GP_intersects : forall (x0 : ve) (x1 : soc), P_ve x0 -> P_gpred (GP_intersects x0 x1).
Hypothesis H_GP_contains : forall (x0 : soc) (x1 : soc), P_gpred (GP_contains x0 x1).
Hypothesis H_Select : forall (x0 : text) (x1 : N) (x2 : columns), P_columns x2 -> P_select (Select x0 x1 x2).
Hypothesis H_C_star : forall (x0 : text), P_columns (C_star x0).
Hypothesis H_C_list : forall (x0 : list colv), Forall P_colv x0 -> P_columns (C_list x0).
Hypothesis H_CV_as : forall (x0 : ve) (x1 : text), P_ve x0 -> P_colv (CV_as x0 x1).
Hypothesis H_CV_star : forall (x0 : text), P_colv (CV_star x0).
Hypothesis H_CV_ve : forall (x0 : ve), P_ve x0 -> P_colv (CV_ve x0).
Hypothesis H_GT_ve : forall (x0 : ve), P_ve x0 -> P_gterm (GT_ve x0).
Hypothesis H_GT_col : forall (x0 : colref), P_gterm (GT_col x0).
Fixpoint ve_all (v : ve) : P_ve v :=
  match v with
  | VE_nb x0 => H_VE_nb x0 (venb_all x0)
  | VE_sc x0 => H_VE_sc x0 (sc_all x0)
  end
with venb_all (v : venb) : P_venb v :=
  match v with
  | VENB x0 x1 => H_VENB x0 x1 (factor_all x0) ((fix go l : Forall P_vterm l := match l with [] => Forall_nil _ | x :: l' => Forall_cons x (vterm_all x) (go l') end) x1)
  end
with vterm_all (v : vterm) : P_vterm v :=
  match v with
  | VTerm x0 x1 => H_VTerm x0 x1 (factor_all x1)
  end
with factor_all (v : factor) : P_factor v :=
  match v with
  | Factor x0 x1 => H_Factor x0 x1 (nprim_all x1)
  end
with nprim_all (v : nprim) : P_nprim v :=
  match v with
  | NP_vep x0 => H_NP_vep x0 (vep_all x0)
  | NP_nvf x0 => H_NP_nvf x0 (nvf_all x0)
  end
with nvf_all (v : nvf) : P_nvf v :=
  match v with
  | NV_trig1 x0 x1 => H_NV_trig1 x0 x1 (ve_all x1)
  | NV_trig2 x0 x1 x2 => H_NV_trig2 x0 x1 x2 (ve_all x1) (ve_all x2)
  | NV_math0 x0 => H_NV_math0 x0 
  | NV_math1 x0 x1 => H_NV_math1 x0 x1 (ve_all x1)
  | NV_math2 x0 x1 x2 => H_NV_math2 x0 x1 x2 (ve_all x1) (ve_all x2)
  | NV_cast x0 x1 x2 => H_NV_cast x0 x1 x2 (ve_all x0)
  | NV_geo1 x0 x1 => H_NV_geo1 x0 x1 
  | NV_geo2 x0 x1 x2 => H_NV_geo2 x0 x1 x2 
  | NV_udf x0 x1 => H_NV_udf x0 x1 ((fix go l : Forall P_ve l := match l with [] => Forall_nil _ | x :: l' => Forall_cons x (ve_all x) (go l') end) x1)
  | NV_str x0 => H_NV_str x0 
  end
with vep_all (v : vep) : P_vep v :=
  match v with
  | VEP x0 x1 => H_VEP x0 x1 (vepv_all x0) ((fix go l : Forall P_ve l := match l with [] => Forall_nil _ | x :: l' => Forall_cons x (ve_all x) (go l') end) x1)
  end
with vepv_all (v : vepv) : P_vepv v :=
  match v with
  | VP_array x0 => H_VP_array x0 ((fix go l : Forall P_ve l := match l with [] => Forall_nil _ | x :: l' => Forall_cons x (ve_all x) (go l') end) x0)
  | VP_str x0 => H_VP_str x0 
  | VP_col x0 => H_VP_col x0 
  | VP_setstr x0 => H_VP_setstr x0 
  | VP_set x0 x1 x2 => H_VP_set x0 x1 x2 (ve_all x2)
  | VP_nullif x0 x1 => H_VP_nullif x0 x1 (ve_all x0) (ve_all x1)
  | VP_coalesce x0 => H_VP_coalesce x0 ((fix go l : Forall P_ve l := match l with [] => Forall_nil _ | x :: l' => Forall_cons x (ve_all x) (go l') end) x0)
  | VP_case x0 x1 x2 => H_VP_case x0 x1 x2 (ve_all x0) ((fix go l : Forall P_swhen l := match l with [] => Forall_nil _ | x :: l' => Forall_cons x (swhen_all x) (go l') end) x1) (match x2 return optP P_result x2 with Some x => result_all x | None => I end)
  | VP_scase x0 x1 => H_VP_scase x0 x1 ((fix go l : Forall P_qwhen l := match l with [] => Forall_nil _ | x :: l' => Forall_cons x (qwhen_all x) (go l') end) x0) (match x1 return optP P_result x1 with Some x => result_all x | None => I end)
  | VP_any x0 => H_VP_any x0 (ve_all x0)
  | VP_sub x0 => H_VP_sub x0 (ve_all x0)
  end
with swhen_all (v : swhen) : P_swhen v :=
  match v with
  | SWhen x0 x1 => H_SWhen x0 x1 (ve_all x0) (result_all x1)
  end
with qwhen_all (v : qwhen) : P_qwhen v :=
  match v with
  | QWhen x0 x1 => H_QWhen x0 x1 (sc_all x0) (result_all x1)
  end
with result_all (v : result) : P_result v :=
  match v with
  | Res_str x0 => H_Res_str x0 
  | Res_ve x0 => H_Res_ve x0 (ve_all x0)
  end
with sc_all (v : sc) : P_sc v :=
  match v with
  | SC_f x0 => H_SC_f x0 (bfac_all x0)
  | SC_t x0 x1 x2 => H_SC_t x0 x1 x2 (bfac_all x0) (sc_all x2)
  end
with bfac_all (v : bfac) : P_bfac v :=
  match v with
  | BF x0 x1 => H_BF x0 x1 (bprim_all x1)
  end
with bprim_all (v : bprim) : P_bprim v :=
  match v with
  | BP_pred x0 => H_BP_pred x0 (pred_all x0)
  | BP_sc x0 => H_BP_sc x0 (sc_all x0)
  | BP_val x0 => H_BP_val x0 (venb_all x0)
  end
with pred_all (v : pred) : P_pred v :=
  match v with
  | P_cmp x0 x1 x2 => H_P_cmp x0 x1 x2 (venb_all x0) (ve_all x2)
  | P_between x0 x1 x2 x3 => H_P_between x0 x1 x2 x3 (venb_all x0) (ve_all x2) (ve_all x3)
  | P_in x0 x1 x2 => H_P_in x0 x1 x2 (venb_all x0) (intarget_all x2)
  | P_null x0 x1 => H_P_null x0 x1 (venb_all x0)
  | P_like x0 x1 x2 => H_P_like x0 x1 x2 (venb_all x0) (ve_all x2)
  | P_exists x0 => H_P_exists x0 (subq_all x0)
  end
with intarget_all (v : intarget) : P_intarget v :=
  match v with
  | In_sub x0 => H_In_sub x0 (subq_all x0)
  | In_list x0 => H_In_list x0 ((fix go l : Forall P_ve l := match l with [] => Forall_nil _ | x :: l' => Forall_cons x (ve_all x) (go l') end) x0)
  end
with subq_all (v : subq) : P_subq v :=
  match v with
  | SQ_jt x0 => H_SQ_jt x0 (jt_all x0)
  | SQ_q x0 => H_SQ_q x0 (qspec_all x0)
  end
with jt_all (v : jt) : P_jt v :=
  match v with
  | JT_q x0 => H_JT_q x0 (qjoin_all x0)
  | JT_p x0 => H_JT_p x0 (jt_all x0)
  end
with qjoin_all (v : qjoin) : P_qjoin v :=
  match v with
  | QJ x0 x1 => H_QJ x0 x1 (qjhead_all x0) ((fix go l : Forall P_jsuf l := match l with [] => Forall_nil _ | x :: l' => Forall_cons x (jsuf_all x) (go l') end) x1)
  end
with qjhead_all (v : qjhead) : P_qjhead v :=
  match v with
  | QH_tc x0 x1 => H_QH_tc x0 x1 
  | QH_jt x0 => H_QH_jt x0 (jt_all x0)
  end
with jsuf_all (v : jsuf) : P_jsuf v :=
  match v with
  | JS x0 x1 x2 x3 => H_JS x0 x1 x2 x3 (tref_all x2) (match x3 return optP P_jspec x3 with Some x => jspec_all x | None => I end)
  end
with jspec_all (v : jspec) : P_jspec v :=
  match v with
  | JSp_using x0 => H_JSp_using x0 
  | JSp_on x0 => H_JSp_on x0 (sc_all x0)
  end
with tref_all (v : tref) : P_tref v :=
  match v with
  | TR_tc x0 x1 => H_TR_tc x0 x1 
  | TR_jt x0 => H_TR_jt x0 (jt_all x0)
  | TR_dc x0 x1 => H_TR_dc x0 x1 (subq_all x0)
  | TR_tvf x0 x1 => H_TR_tvf x0 x1 
  end
with qspec_all (v : qspec) : P_qspec v :=
  match v with
  | QS x0 x1 x2 x3 x4 x5 => H_QS x0 x1 x2 x3 x4 x5 (match x0 return optP P_withc x0 with Some x => withc_all x | None => I end) (sfw_all x1) ((fix go l : Forall P_addon l := match l with [] => Forall_nil _ | x :: l' => Forall_cons x (addon_all x) (go l') end) x2) ((fix go l : Forall P_gterm l := match l with [] => Forall_nil _ | x :: l' => Forall_cons x (gterm_all x) (go l') end) x3) (match x4 return optP P_sc x4 with Some x => sc_all x | None => I end)
  end
with withc_all (v : withc) : P_withc v :=
  match v with
  | With x0 x1 x2 => H_With x0 x1 x2 (subq_all x2)
  end
with addon_all (v : addon) : P_addon v :=
  match v with
  | Addon x0 x1 => H_Addon x0 x1 (sfw_all x1)
  end
with sfw_all (v : sfw) : P_sfw v :=
  match v with
  | SFW x0 x1 x2 => H_SFW x0 x1 x2 (select_all x0) ((fix go l : Forall P_tref l := match l with [] => Forall_nil _ | x :: l' => Forall_cons x (tref_all x) (go l') end) x1) (wherec_all x2)
  end
with wherec_all (v : wherec) : P_wherec v :=
  match v with
  | Where x0 x1 => H_Where x0 x1 (match x0 return optP P_geom x0 with Some x => geom_all x | None => I end) (match x1 return optP P_sc x1 with Some x => sc_all x | None => I end)
  end
with geom_all (v : geom) : P_geom v :=
  match v with
  | G_left x0 x1 => H_G_left x0 x1 (gpred_all x1)
  | G_right x0 x1 => H_G_right x0 x1 (gpred_all x0)
  end
with gpred_all (v : gpred) : P_gpred v :=
  match v with
  | GP_intersects x0 x1 => H_GP_intersects x0 x1 (ve_all x0)
  | GP_contains x0 x1 => H_GP_contains x0 x1 
  end
with select_all (v : select) : P_select v :=
  match v with
  | Select x0 x1 x2 => H_Select x0 x1 x2 (columns_all x2)
  end
with columns_all (v : columns) : P_columns v :=
  match v with
  | C_star x0 => H_C_star x0 
  | C_list x0 => H_C_list x0 ((fix go l : Forall P_colv l := match l with [] => Forall_nil _ | x :: l' => Forall_cons x (colv_all x) (go l') end) x0)
  end
with colv_all (v : colv) : P_colv v :=
  match v with
  | CV_as x0 x1 => H_CV_as x0 x1 (ve_all x0)
  | CV_star x0 => H_CV_star x0 
  | CV_ve x0 => H_CV_ve x0 (ve_all x0)
  end
with gterm_all (v : gterm) : P_gterm v :=
  match v with
  | GT_ve x0 => H_GT_ve x0 (ve_all x0)
  | GT_col x0 => H_GT_col x0 
  end.


Theorem ast_ind : (forall v, P_ve v) /\ (forall v, P_venb v) /\ (forall v, P_vterm v) /\ (forall v, P_factor v) /\ (forall v, P_nprim v) /\ (forall v, P_nvf v) /\ (forall v, P_vep v) /\ (forall v, P_vepv v) /\ (forall v, P_swhen v) /\ (forall v, P_qwhen v) /\ (forall v, P_result v) /\ (forall v, P_sc v) /\ (forall v, P_bfac v) /\ (forall v, P_bprim v) /\ (forall v, P_pred v) /\ (forall v, P_intarget v) /\ (forall v, P_subq v) /\ (forall v, P_jt v) /\ (forall v, P_qjoin v) /\ (forall v, P_qjhead v) /\ (forall v, P_jsuf v) /\ (forall v, P_jspec v) /\ (forall v, P_tref v) /\ (forall v, P_qspec v) /\ (forall v, P_withc v) /\ (forall v, P_addon v) /\ (forall v, P_sfw v) /\ (forall v, P_wherec v) /\ (forall v, P_geom v) /\ (forall v, P_gpred v) /\ (forall v, P_select v) /\ (forall v, P_columns v) /\ (forall v, P_colv v) /\ (forall v, P_gterm v).
Proof. repeat split; [exact ve_all|exact venb_all|exact vterm_all|exact factor_all|exact nprim_all|exact nvf_all|exact vep_all|exact vepv_all|exact swhen_all|exact qwhen_all|exact result_all|exact sc_all|exact bfac_all|exact bprim_all|exact pred_all|exact intarget_all|exact subq_all|exact jt_all|exact qjoin_all|exact qjhead_all|exact jsuf_all|exact jspec_all|exact tref_all|exact qspec_all|exact withc_all|exact addon_all|exact sfw_all|exact wherec_all|exact geom_all|exact gpred_all|exact select_all|exact columns_all|exact colv_all|exact gterm_all]. Qed.
End Ind.
