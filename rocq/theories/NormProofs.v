(** [normal] does not change the text. *)
From Verif Require Import Chars Ast Print SpecNorm AstInd PrintEq TextLemmas LexProofs.

Section Norm.
Variable fmt : text -> text.
Lemma n_ve_VE_nb (v : venb) : n_ve fmt (VE_nb v) = VE_nb (n_venb fmt v). Proof. reflexivity. Qed.
Lemma n_ve_VE_sc (s : sc) : n_ve fmt (VE_sc s) = VE_sc (n_sc fmt s). Proof. reflexivity. Qed.
Lemma n_venb_VENB (f : factor) (ts : list vterm) : n_venb fmt (VENB f ts) = VENB (n_factor fmt f) (map (n_vterm fmt) ts). Proof. reflexivity. Qed.
Lemma n_vterm_VTerm (op : text) (f : factor) : n_vterm fmt (VTerm op f) = VTerm op (n_factor fmt f). Proof. reflexivity. Qed.
Lemma n_factor_Factor (s : text) (p : nprim) : n_factor fmt (Factor s p) = Factor s (n_nprim fmt p). Proof. reflexivity. Qed.
Lemma n_nprim_NP_vep (v : vep) : n_nprim fmt (NP_vep v) = NP_vep (n_vep fmt v). Proof. reflexivity. Qed.
Lemma n_nprim_NP_nvf (f : nvf) : n_nprim fmt (NP_nvf f) = NP_nvf (n_nvf fmt f). Proof. reflexivity. Qed.
Lemma n_nvf_NV_trig1 (f : text) (a : ve) : n_nvf fmt (NV_trig1 f a) = NV_trig1 f (n_ve fmt a). Proof. reflexivity. Qed.
Lemma n_nvf_NV_trig2 (f : text) (a : ve) (b : ve) : n_nvf fmt (NV_trig2 f a b) = NV_trig2 f (n_ve fmt a) (n_ve fmt b). Proof. reflexivity. Qed.
Lemma n_nvf_NV_math0 (f : text) : n_nvf fmt (NV_math0 f) = NV_math0 f. Proof. reflexivity. Qed.
Lemma n_nvf_NV_math1 (f : text) (a : ve) : n_nvf fmt (NV_math1 f a) = NV_math1 f (n_ve fmt a). Proof. reflexivity. Qed.
Lemma n_nvf_NV_math2 (f : text) (a : ve) (b : ve) : n_nvf fmt (NV_math2 f a b) = NV_math2 f (n_ve fmt a) (n_ve fmt b). Proof. reflexivity. Qed.
Lemma n_nvf_NV_cast (a : ve) (t : text) (n : text) : n_nvf fmt (NV_cast a t n) = NV_cast (n_ve fmt a) t n. Proof. reflexivity. Qed.
Lemma n_nvf_NV_geo1 (f : text) (a : poc) : n_nvf fmt (NV_geo1 f a) = NV_geo1 f (n_poc fmt a). Proof. reflexivity. Qed.
Lemma n_nvf_NV_geo2 (f : text) (a : poc) (b : poc) : n_nvf fmt (NV_geo2 f a b) = NV_geo2 f (n_poc fmt a) (n_poc fmt b). Proof. reflexivity. Qed.
Lemma n_nvf_NV_udf (f : text) (l : list ve) : n_nvf fmt (NV_udf f l) = NV_udf f (map (n_ve fmt) l). Proof. reflexivity. Qed.
Lemma n_nvf_NV_str (s : text) : n_nvf fmt (NV_str s) = NV_str s. Proof. reflexivity. Qed.
Lemma n_vep_VEP (v : vepv) (idx : list ve) : n_vep fmt (VEP v idx) = VEP (n_vepv fmt v) (map (n_ve fmt) idx). Proof. reflexivity. Qed.
Lemma n_vepv_VP_array (l : list ve) : n_vepv fmt (VP_array l) = VP_array (map (n_ve fmt) l). Proof. reflexivity. Qed.
Lemma n_vepv_VP_str (s : text) : n_vepv fmt (VP_str s) = VP_str s. Proof. reflexivity. Qed.
Lemma n_vepv_VP_col (c : colref) : n_vepv fmt (VP_col c) = VP_col c. Proof. reflexivity. Qed.
Lemma n_vepv_VP_setstr (s : text) : n_vepv fmt (VP_setstr s) = VP_setstr s. Proof. reflexivity. Qed.
Lemma n_vepv_VP_set (ty : text) (q : text) (a : ve) : n_vepv fmt (VP_set ty q a) = VP_set ty q (n_ve fmt a). Proof. reflexivity. Qed.
Lemma n_vepv_VP_nullif (a : ve) (b : ve) : n_vepv fmt (VP_nullif a b) = VP_nullif (n_ve fmt a) (n_ve fmt b). Proof. reflexivity. Qed.
Lemma n_vepv_VP_coalesce (l : list ve) : n_vepv fmt (VP_coalesce l) = VP_coalesce (map (n_ve fmt) l). Proof. reflexivity. Qed.
Lemma n_vepv_VP_case (x : ve) (w : list swhen) (e : option result) : n_vepv fmt (VP_case x w e) = VP_case (n_ve fmt x) (map (n_swhen fmt) w) (match e with Some r => Some (n_result fmt r) | None => None end). Proof. reflexivity. Qed.
Lemma n_vepv_VP_scase (w : list qwhen) (e : option result) : n_vepv fmt (VP_scase w e) = VP_scase (map (n_qwhen fmt) w) (match e with Some r => Some (n_result fmt r) | None => None end). Proof. reflexivity. Qed.
Lemma n_vepv_VP_any (a : ve) : n_vepv fmt (VP_any a) = VP_any (n_ve fmt a). Proof. reflexivity. Qed.
Lemma n_vepv_VP_sub (a : ve) : n_vepv fmt (VP_sub a) = VP_sub (n_ve fmt a). Proof. reflexivity. Qed.
Lemma n_swhen_SWhen (a : ve) (r : result) : n_swhen fmt (SWhen a r) = SWhen (n_ve fmt a) (n_result fmt r). Proof. reflexivity. Qed.
Lemma n_qwhen_QWhen (c : sc) (r : result) : n_qwhen fmt (QWhen c r) = QWhen (n_sc fmt c) (n_result fmt r). Proof. reflexivity. Qed.
Lemma n_result_Res_str (s : text) : n_result fmt (Res_str s) = Res_str s. Proof. reflexivity. Qed.
Lemma n_result_Res_ve (a : ve) : n_result fmt (Res_ve a) = Res_ve (n_ve fmt a). Proof. reflexivity. Qed.
Lemma n_sc_SC_f (f : bfac) : n_sc fmt (SC_f f) = SC_f (n_bfac fmt f). Proof. reflexivity. Qed.
Lemma n_sc_SC_t (f : bfac) (op : text) (s : sc) : n_sc fmt (SC_t f op s) = SC_t (n_bfac fmt f) (upper op) (n_sc fmt s). Proof. reflexivity. Qed.
Lemma n_bfac_BF (n : text) (p : bprim) : n_bfac fmt (BF n p) = BF n (n_bprim fmt p). Proof. reflexivity. Qed.
Lemma n_bprim_BP_pred (p : pred) : n_bprim fmt (BP_pred p) = BP_pred (n_pred fmt p). Proof. reflexivity. Qed.
Lemma n_bprim_BP_sc (s : sc) : n_bprim fmt (BP_sc s) = BP_sc (n_sc fmt s). Proof. reflexivity. Qed.
Lemma n_bprim_BP_val (v : venb) : n_bprim fmt (BP_val v) = BP_val (n_venb fmt v). Proof. reflexivity. Qed.
Lemma n_pred_P_cmp (l : venb) (op : text) (r : ve) : n_pred fmt (P_cmp l op r) = P_cmp (n_venb fmt l) op (n_ve fmt r). Proof. reflexivity. Qed.
Lemma n_pred_P_between (v : venb) (n : text) (lo : ve) (hi : ve) : n_pred fmt (P_between v n lo hi) = P_between (n_venb fmt v) n (n_ve fmt lo) (n_ve fmt hi). Proof. reflexivity. Qed.
Lemma n_pred_P_in (v : venb) (n : text) (t : intarget) : n_pred fmt (P_in v n t) = P_in (n_venb fmt v) (n_not "NOT " n) (n_intarget fmt t). Proof. reflexivity. Qed.
Lemma n_pred_P_null (v : venb) (n : text) : n_pred fmt (P_null v n) = P_null (n_venb fmt v) (n_not "NOT" n). Proof. reflexivity. Qed.
Lemma n_pred_P_like (v : venb) (n : text) (p : ve) : n_pred fmt (P_like v n p) = P_like (n_venb fmt v) (n_not "NOT" n) (n_ve fmt p). Proof. reflexivity. Qed.
Lemma n_pred_P_exists (q : subq) : n_pred fmt (P_exists q) = P_exists (n_subq fmt q). Proof. reflexivity. Qed.
Lemma n_intarget_In_sub (q : subq) : n_intarget fmt (In_sub q) = In_sub (n_subq fmt q). Proof. reflexivity. Qed.
Lemma n_intarget_In_list (l : list ve) : n_intarget fmt (In_list l) = In_list (map (n_ve fmt) l). Proof. reflexivity. Qed.
Lemma n_subq_SQ_jt (j : jt) : n_subq fmt (SQ_jt j) = SQ_jt (n_jt fmt j). Proof. reflexivity. Qed.
Lemma n_subq_SQ_q (q : qspec) : n_subq fmt (SQ_q q) = SQ_q (n_qspec fmt q). Proof. reflexivity. Qed.
Lemma n_jt_JT_q (q : qjoin) : n_jt fmt (JT_q q) = JT_q (n_qjoin fmt q). Proof. reflexivity. Qed.
Lemma n_jt_JT_p (j : jt) : n_jt fmt (JT_p j) = JT_p (n_jt fmt j). Proof. reflexivity. Qed.
Lemma n_qjoin_QJ (h : qjhead) (ss : list jsuf) : n_qjoin fmt (QJ h ss) = QJ (n_qjhead fmt h) (map (n_jsuf fmt) ss). Proof. reflexivity. Qed.
Lemma n_qjhead_QH_tc (n : text) (a : text) : n_qjhead fmt (QH_tc n a) = QH_tc n a. Proof. reflexivity. Qed.
Lemma n_qjhead_QH_jt (j : jt) : n_qjhead fmt (QH_jt j) = QH_jt (n_jt fmt j). Proof. reflexivity. Qed.
Lemma n_jsuf_JS (nat : bool) (ty : jtype) (t : tref) (sp : option jspec) : n_jsuf fmt (JS nat ty t sp) = JS nat ty (n_tref fmt t) (match sp with Some s => Some (n_jspec fmt s) | None => None end). Proof. reflexivity. Qed.
Lemma n_jspec_JSp_using (l : list text) : n_jspec fmt (JSp_using l) = JSp_using l. Proof. reflexivity. Qed.
Lemma n_jspec_JSp_on (s : sc) : n_jspec fmt (JSp_on s) = JSp_on (n_sc fmt s). Proof. reflexivity. Qed.
Lemma n_tref_TR_tc (n : text) (a : text) : n_tref fmt (TR_tc n a) = TR_tc n a. Proof. reflexivity. Qed.
Lemma n_tref_TR_jt (j : jt) : n_tref fmt (TR_jt j) = TR_jt (n_jt fmt j). Proof. reflexivity. Qed.
Lemma n_tref_TR_dc (q : subq) (a : text) : n_tref fmt (TR_dc q a) = TR_dc (n_subq fmt q) a. Proof. reflexivity. Qed.
Lemma n_tref_TR_tvf (f : text) (args : list text) : n_tref fmt (TR_tvf f args) = TR_tvf f args. Proof. reflexivity. Qed.
Lemma n_qspec_QS (w : option withc) (i : sfw) (ad : list addon) (g : list gterm) (h : option sc) (o : list sort_spec) : n_qspec fmt (QS w i ad g h o) = QS (match w with Some w => Some (n_with fmt w) | None => None end) (n_sfw fmt i) (map (n_addon fmt) ad) (map (n_gterm fmt) g) (match h with Some s => Some (n_sc fmt s) | None => None end) o. Proof. reflexivity. Qed.
Lemma n_with_With (n : text) (cols : list text) (q : subq) : n_with fmt (With n cols q) = With n cols (n_subq fmt q). Proof. reflexivity. Qed.
Lemma n_addon_Addon (op : text) (s : sfw) : n_addon fmt (Addon op s) = Addon (upper op) (n_sfw fmt s). Proof. reflexivity. Qed.
Lemma n_sfw_SFW (s : select) (ts : list tref) (w : wherec) : n_sfw fmt (SFW s ts w) = SFW (n_select fmt s) (map (n_tref fmt) ts) (n_where fmt w). Proof. reflexivity. Qed.
Lemma n_where_Where (g : option geom) (s : option sc) : n_where fmt (Where g s) = Where (match g with Some g => Some (n_geom fmt g) | None => None end) (match s with Some s => Some (n_sc fmt s) | None => None end). Proof. reflexivity. Qed.
Lemma n_geom_G_left (fl : text) (p : gpred) : n_geom fmt (G_left fl p) = G_right (n_gpred fmt p) fl. Proof. reflexivity. Qed.
Lemma n_geom_G_right (p : gpred) (fl : text) : n_geom fmt (G_right p fl) = G_right (n_gpred fmt p) fl. Proof. reflexivity. Qed.
Lemma n_gpred_GP_intersects (e : ve) (s : soc) : n_gpred fmt (GP_intersects e s) = GP_intersects (n_ve fmt e) (n_soc fmt s). Proof. reflexivity. Qed.
Lemma n_gpred_GP_contains (a : soc) (b : soc) : n_gpred fmt (GP_contains a b) = GP_contains (n_soc fmt a) (n_soc fmt b). Proof. reflexivity. Qed.
Lemma n_select_Select (q : text) (top : N) (c : columns) : n_select fmt (Select q top c) = Select q top (n_columns fmt c). Proof. reflexivity. Qed.
Lemma n_columns_C_star (s : text) : n_columns fmt (C_star s) = C_star s. Proof. reflexivity. Qed.
Lemma n_columns_C_list (l : list colv) : n_columns fmt (C_list l) = C_list (map (n_colv fmt) l). Proof. reflexivity. Qed.
Lemma n_colv_CV_as (e : ve) (a : text) : n_colv fmt (CV_as e a) = CV_as (n_ve fmt e) a. Proof. reflexivity. Qed.
Lemma n_colv_CV_star (s : text) : n_colv fmt (CV_star s) = CV_star s. Proof. reflexivity. Qed.
Lemma n_colv_CV_ve (e : ve) : n_colv fmt (CV_ve e) = CV_ve (n_ve fmt e). Proof. reflexivity. Qed.
Lemma n_gterm_GT_ve (e : ve) : n_gterm fmt (GT_ve e) = GT_ve (n_ve fmt e). Proof. reflexivity. Qed.
Lemma n_gterm_GT_col (c : colref) : n_gterm fmt (GT_col c) = GT_col c. Proof. reflexivity. Qed.
End Norm.
Global Hint Rewrite n_ve_VE_nb n_ve_VE_sc n_venb_VENB n_vterm_VTerm n_factor_Factor n_nprim_NP_vep n_nprim_NP_nvf n_nvf_NV_trig1 n_nvf_NV_trig2 n_nvf_NV_math0 n_nvf_NV_math1 n_nvf_NV_math2 n_nvf_NV_cast n_nvf_NV_geo1 n_nvf_NV_geo2 n_nvf_NV_udf n_nvf_NV_str n_vep_VEP n_vepv_VP_array n_vepv_VP_str n_vepv_VP_col n_vepv_VP_setstr n_vepv_VP_set n_vepv_VP_nullif n_vepv_VP_coalesce n_vepv_VP_case n_vepv_VP_scase n_vepv_VP_any n_vepv_VP_sub n_swhen_SWhen n_qwhen_QWhen n_result_Res_str n_result_Res_ve n_sc_SC_f n_sc_SC_t n_bfac_BF n_bprim_BP_pred n_bprim_BP_sc n_bprim_BP_val n_pred_P_cmp n_pred_P_between n_pred_P_in n_pred_P_null n_pred_P_like n_pred_P_exists n_intarget_In_sub n_intarget_In_list n_subq_SQ_jt n_subq_SQ_q n_jt_JT_q n_jt_JT_p n_qjoin_QJ n_qjhead_QH_tc n_qjhead_QH_jt n_jsuf_JS n_jspec_JSp_using n_jspec_JSp_on n_tref_TR_tc n_tref_TR_jt n_tref_TR_dc n_tref_TR_tvf n_qspec_QS n_with_With n_addon_Addon n_sfw_SFW n_where_Where n_geom_G_left n_geom_G_right n_gpred_GP_intersects n_gpred_GP_contains n_select_Select n_columns_C_star n_columns_C_list n_colv_CV_as n_colv_CV_star n_colv_CV_ve n_gterm_GT_ve n_gterm_GT_col : n_eq.

Section Same.
Variable fmt : text -> text.
Hypothesis idem : forall d, fmt (fmt d) = fmt d.

Lemma pr_n_csae c : pr_csae fmt (n_csae fmt c) = pr_csae fmt c.
Proof. destruct c; cbn; now rewrite ?idem. Qed.
Lemma pr_n_coord c : pr_coord fmt (n_coord fmt c) = pr_coord fmt c.
Proof. destruct c; cbn; now rewrite !pr_n_csae. Qed.
Lemma pr_n_shape s : pr_shape fmt (n_shape fmt s) = pr_shape fmt s.
Proof.
  destruct s; cbn; unfold pr_point; rewrite ?pr_n_coord, ?pr_n_csae; try reflexivity.
  rewrite map_map. erewrite map_ext; [reflexivity|]. intros c. now rewrite pr_n_coord.
Qed.
Lemma pr_n_soc s : pr_soc fmt (n_soc fmt s) = pr_soc fmt s.
Proof. destruct s; cbn; [apply pr_n_shape|reflexivity]. Qed.
Lemma pr_n_poc s : pr_poc fmt (n_poc fmt s) = pr_poc fmt s.
Proof. destruct s; cbn; [unfold pr_point; now rewrite pr_n_coord|reflexivity]. Qed.
Lemma soc_empty_n s : soc_empty (n_soc fmt s) = soc_empty s.
Proof. destruct s as [[| | | |f cs]|]; cbn; try reflexivity; [destruct c; reflexivity..|]. now destruct cs. Qed.
Lemma is_nil_n_not w n : is_nil (L w) = false -> is_nil (n_not w n) = is_nil n.
Proof. unfold n_not. now destruct n. Qed.
Lemma is_nil_map {A B} (f : A -> B) l : is_nil (map f l) = is_nil l.
Proof. now destruct l. Qed.
Lemma is_nil_upper n : is_nil (upper n) = is_nil n.
Proof. now destruct n. Qed.

Definition S {A : Set} (pr : A -> text) (em : A -> bool) (nm : A -> A) (x : A) : Prop := pr (nm x) = pr x /\ em (nm x) = em x.
Notation no := (fun _ => false).
Lemma S_map {A : Set} (pr : A -> text) em nm l : Forall (S pr em nm) l -> map pr (map nm l) = map pr l.
Proof. induction 1 as [|x l [H _] _ IH]; cbn; [reflexivity|]. now rewrite H, IH. Qed.
Lemma S_map2 {A : Set} (pr : A -> text) em nm (g : text -> list ascii) l : Forall (S pr em nm) l -> map (fun x => g (pr x)) (map nm l) = map (fun x => g (pr x)) l.
Proof. induction 1 as [|x l [H _] _ IH]; cbn; [reflexivity|]. now rewrite H, IH. Qed.

Theorem normal_same_all : (forall v, S (pr_ve fmt) ve_empty (n_ve fmt) v) /\ (forall v, S (pr_venb fmt) venb_empty (n_venb fmt) v) /\
  (forall p, S (pr_bprim fmt) bprim_empty (n_bprim fmt) p) /\ (forall j, S (pr_jt fmt) jt_empty (n_jt fmt) j) /\ (forall q, S (pr_qspec fmt) qspec_empty (n_qspec fmt) q).
Proof.
  edestruct (ast_ind (S (pr_ve fmt) ve_empty (n_ve fmt)) (S (pr_venb fmt) venb_empty (n_venb fmt)) (S (pr_vterm fmt) no (n_vterm fmt)) (S (pr_factor fmt) factor_empty (n_factor fmt))
    (S (pr_nprim fmt) nprim_empty (n_nprim fmt)) (S (pr_nvf fmt) nvf_empty (n_nvf fmt)) (S (pr_vep fmt) vep_empty (n_vep fmt)) (S (pr_vepv fmt) vepv_empty (n_vepv fmt))
    (S (pr_swhen fmt) no (n_swhen fmt)) (S (pr_qwhen fmt) no (n_qwhen fmt)) (S (pr_result fmt) result_empty (n_result fmt)) (S (pr_sc fmt) sc_empty (n_sc fmt)) (S (pr_bfac fmt) bfac_empty (n_bfac fmt))
    (S (pr_bprim fmt) bprim_empty (n_bprim fmt)) (S (pr_pred fmt) pred_empty (n_pred fmt)) (S (pr_intarget fmt) no (n_intarget fmt)) (S (pr_subq fmt) subq_empty (n_subq fmt))
    (S (pr_jt fmt) jt_empty (n_jt fmt)) (S (pr_qjoin fmt) qjoin_empty (n_qjoin fmt)) (S (pr_qjhead fmt) qjhead_empty (n_qjhead fmt)) (S (pr_jsuf fmt) no (n_jsuf fmt)) (S (pr_jspec fmt) jspec_empty (n_jspec fmt))
    (S (pr_tref fmt) no (n_tref fmt)) (S (pr_qspec fmt) qspec_empty (n_qspec fmt)) (S (pr_with fmt) with_empty (n_with fmt)) (S (pr_addon fmt) no (n_addon fmt)) (S (pr_sfw fmt) sfw_empty (n_sfw fmt))
    (S (pr_where fmt) where_empty (n_where fmt)) (S (pr_geom fmt) geom_empty (n_geom fmt)) (S (pr_gpred fmt) gpred_empty (n_gpred fmt)) (S (pr_select fmt) no (n_select fmt)) (S (pr_columns fmt) no (n_columns fmt))
    (S (pr_colv fmt) no (n_colv fmt)) (S (pr_gterm fmt) no (n_gterm fmt))).
  all: try (intros; unfold S in *; repeat match goal with H : _ /\ _ |- _ => destruct H end; autorewrite with n_eq pr_eq; (split; [|first [reflexivity|assumption]]);
    rewrite ?pr_n_soc, ?pr_n_poc; congruence).
  - intros f ts [H E] F. split; [|exact E]. rewrite n_venb_VENB, !pr_venb_VENB, H, (S_map _ _ _ _ F). reflexivity.
  - intros f l F. split; [|reflexivity]. rewrite n_nvf_NV_udf, !pr_nvf_NV_udf, (S_map _ _ _ _ F). reflexivity.
  - intros v l [H E] F. split; [|exact E]. rewrite n_vep_VEP, !pr_vep_VEP, H. rewrite (S_map2 _ _ _ (fun x => L "[" ++ x ++ L "]") _ F). reflexivity.
  - intros l F. split; [|apply is_nil_map]. rewrite n_vepv_VP_array, !pr_vepv_VP_array, (S_map _ _ _ _ F). reflexivity.
  - intros l F. split; [|apply is_nil_map]. rewrite n_vepv_VP_coalesce, !pr_vepv_VP_coalesce, (S_map _ _ _ _ F). reflexivity.
  - intros x w e [H E] F O. split; [|exact E]. rewrite n_vepv_VP_case, !pr_vepv_VP_case, H, (S_map2 _ _ _ (fun x => x ++ L " ") _ F). destruct e as [r|]; [|reflexivity]. destruct O as [-> ->]. reflexivity.
  - intros w e F O. split; [|apply is_nil_map]. rewrite n_vepv_VP_scase, !pr_vepv_VP_scase, (S_map2 _ _ _ (fun x => x ++ L " ") _ F). destruct e as [r|]; [|reflexivity]. destruct O as [-> ->]. reflexivity.
  - intros f [H E]. split; [|exact E]. rewrite n_sc_SC_f, !pr_sc_SC_f. change (sc_empty (SC_f (n_bfac fmt f))) with (bfac_empty (n_bfac fmt f)). rewrite E, H. reflexivity.
  - intros f op s [H1 E1] [H2 E2]. split; [|apply is_nil_upper]. rewrite n_sc_SC_t, !pr_sc_SC_t. change (sc_empty (SC_t (n_bfac fmt f) (upper op) (n_sc fmt s))) with (is_nil (upper op)). rewrite is_nil_upper, H1, H2, upper_upper. reflexivity.
  - intros v n t [H1 E1] [H2 E2]. split; [|exact E1]. rewrite n_pred_P_in, !pr_pred_P_in, H1, H2, is_nil_n_not by reflexivity. reflexivity.
  - intros v n [H1 E1]. split; [|exact E1]. rewrite n_pred_P_null, !pr_pred_P_null, H1, is_nil_n_not by reflexivity. reflexivity.
  - intros v n p [H1 E1] [H2 E2]. split; [|exact E1]. rewrite n_pred_P_like, !pr_pred_P_like, H1, H2, is_nil_n_not by reflexivity. reflexivity.
  - intros l F. split; [|reflexivity]. rewrite n_intarget_In_list, !pr_intarget_In_list, (S_map _ _ _ _ F). reflexivity.
  - intros h ss [H E] F. split; [|exact E]. rewrite n_qjoin_QJ, !pr_qjoin_QJ, H, (S_map2 _ _ _ (fun x => x ++ L " ") _ F). reflexivity.
  - intros nat ty t sp [H _] O. split; [|reflexivity]. rewrite n_jsuf_JS, !pr_jsuf_JS, H. destruct sp as [s|]; [|reflexivity]. destruct O as [-> ->]. reflexivity.
  - intros w i ad g h o Ow [H E] Fa Fg Oh. split; [|exact E]. rewrite n_qspec_QS, !pr_qspec_QS, H, (S_map _ _ _ _ Fa), (S_map _ _ _ _ Fg), is_nil_map.
    f_equal; [|do 3 f_equal].
    + destruct w as [w|]; [|reflexivity]. destruct Ow as [-> ->]. reflexivity.
    + destruct h as [s|]; [|reflexivity]. destruct Oh as [-> ->]. reflexivity.
  - intros n cols q [H E]. unfold S. rewrite n_with_With. split; [rewrite !pr_with_With, H; reflexivity|]. cbn. now rewrite E.
  - intros op s [H E]. split; [|reflexivity]. rewrite n_addon_Addon, !pr_addon_Addon, H, upper_upper. reflexivity.
  - intros s ts w [H1 _] F [H2 E2]. unfold S. rewrite n_sfw_SFW. split; [|apply is_nil_map]. rewrite !pr_sfw_SFW, H1, H2, E2, (S_map _ _ _ _ F). reflexivity.
  - intros g s Og Os. unfold S. rewrite n_where_Where. split.
    + rewrite !pr_where_Where. destruct g as [g|]; destruct s as [s|]; cbn in Og, Os; try (destruct Og as [Hg Eg]; rewrite Hg, Eg); try (destruct Os as [Hs Es]; rewrite Hs, Es); reflexivity.
    + cbn. destruct g as [g|]; destruct s as [s|]; cbn in Og, Os |- *; try (destruct Og as [Hg Eg]; rewrite Eg); try (destruct Os as [Hs Es]; rewrite Es); reflexivity.
  - intros fl p [H E]. unfold S. rewrite n_geom_G_left. split; [|exact E]. rewrite pr_geom_G_left, pr_geom_G_right, H, E. reflexivity.
  - intros p fl [H E]. unfold S. rewrite n_geom_G_right. split; [|exact E]. rewrite !pr_geom_G_right, H, E. reflexivity.
  - intros a b. unfold S. rewrite n_gpred_GP_contains. split; [rewrite !pr_gpred_GP_contains, !pr_n_soc; reflexivity|]. cbn. now rewrite !soc_empty_n.
  - intros l F. split; [|reflexivity]. rewrite n_columns_C_list, !pr_columns_C_list, (S_map _ _ _ _ F). reflexivity.
  - intuition.
Qed.
Theorem normal_same : forall q, S (pr_qspec fmt) qspec_empty (n_qspec fmt) q.
Proof. apply normal_same_all. Qed.
End Same.
