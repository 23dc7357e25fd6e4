(** What the printer and the canonical-form check do on each constructor (the defining equations, for
    rewriting). *)
From Verif Require Import Ast Print SpecLexical SpecCanon.

Section Eq.
Variable fmt : text -> text.
Local Notation pr_ve := (Print.pr_ve fmt).
Local Notation pr_venb := (Print.pr_venb fmt).
Local Notation pr_vterm := (Print.pr_vterm fmt).
Local Notation pr_factor := (Print.pr_factor fmt).
Local Notation pr_nprim := (Print.pr_nprim fmt).
Local Notation pr_nvf := (Print.pr_nvf fmt).
Local Notation pr_vep := (Print.pr_vep fmt).
Local Notation pr_vepv := (Print.pr_vepv fmt).
Local Notation pr_swhen := (Print.pr_swhen fmt).
Local Notation pr_qwhen := (Print.pr_qwhen fmt).
Local Notation pr_result := (Print.pr_result fmt).
Local Notation pr_sc := (Print.pr_sc fmt).
Local Notation pr_bfac := (Print.pr_bfac fmt).
Local Notation pr_bprim := (Print.pr_bprim fmt).
Local Notation pr_pred := (Print.pr_pred fmt).
Local Notation pr_intarget := (Print.pr_intarget fmt).
Local Notation pr_subq := (Print.pr_subq fmt).
Local Notation pr_jt := (Print.pr_jt fmt).
Local Notation pr_qjoin := (Print.pr_qjoin fmt).
Local Notation pr_qjhead := (Print.pr_qjhead fmt).
Local Notation pr_jsuf := (Print.pr_jsuf fmt).
Local Notation pr_jspec := (Print.pr_jspec fmt).
Local Notation pr_tref := (Print.pr_tref fmt).
Local Notation pr_qspec := (Print.pr_qspec fmt).
Local Notation pr_with := (Print.pr_with fmt).
Local Notation pr_addon := (Print.pr_addon fmt).
Local Notation pr_sfw := (Print.pr_sfw fmt).
Local Notation pr_where := (Print.pr_where fmt).
Local Notation pr_geom := (Print.pr_geom fmt).
Local Notation pr_gpred := (Print.pr_gpred fmt).
Local Notation pr_select := (Print.pr_select fmt).
Local Notation pr_columns := (Print.pr_columns fmt).
Local Notation pr_colv := (Print.pr_colv fmt).
Local Notation pr_gterm := (Print.pr_gterm fmt).
Local Notation pr_soc := (Print.pr_soc fmt).
Local Notation pr_poc := (Print.pr_poc fmt).
Local Notation c_ve := (SpecCanon.c_ve fmt).
Local Notation c_venb := (SpecCanon.c_venb fmt).
Local Notation c_vterm := (SpecCanon.c_vterm fmt).
Local Notation c_factor := (SpecCanon.c_factor fmt).
Local Notation c_nprim := (SpecCanon.c_nprim fmt).
Local Notation c_nvf := (SpecCanon.c_nvf fmt).
Local Notation c_vep := (SpecCanon.c_vep fmt).
Local Notation c_vepv := (SpecCanon.c_vepv fmt).
Local Notation c_swhen := (SpecCanon.c_swhen fmt).
Local Notation c_qwhen := (SpecCanon.c_qwhen fmt).
Local Notation c_result := (SpecCanon.c_result fmt).
Local Notation c_sc := (SpecCanon.c_sc fmt).
Local Notation c_bfac := (SpecCanon.c_bfac fmt).
Local Notation c_bprim := (SpecCanon.c_bprim fmt).
Local Notation c_pred := (SpecCanon.c_pred fmt).
Local Notation c_intarget := (SpecCanon.c_intarget fmt).
Local Notation c_subq := (SpecCanon.c_subq fmt).
Local Notation c_jt := (SpecCanon.c_jt fmt).
Local Notation c_qjoin := (SpecCanon.c_qjoin fmt).
Local Notation c_qjhead := (SpecCanon.c_qjhead fmt).
Local Notation c_jsuf := (SpecCanon.c_jsuf fmt).
Local Notation c_jspec := (SpecCanon.c_jspec fmt).
Local Notation c_tref := (SpecCanon.c_tref fmt).
Local Notation c_qspec := (SpecCanon.c_qspec fmt).
Local Notation c_with := (SpecCanon.c_with fmt).
Local Notation c_addon := (SpecCanon.c_addon fmt).
Local Notation c_sfw := (SpecCanon.c_sfw fmt).
Local Notation c_where := (SpecCanon.c_where fmt).
Local Notation c_geom := (SpecCanon.c_geom fmt).
Local Notation c_gpred := (SpecCanon.c_gpred fmt).
Local Notation c_select := (SpecCanon.c_select fmt).
Local Notation c_columns := (SpecCanon.c_columns fmt).
Local Notation c_colv := (SpecCanon.c_colv fmt).
Local Notation c_gterm := (SpecCanon.c_gterm fmt).
Local Notation c_shape := (SpecCanon.c_shape fmt).
Local Notation c_soc := (SpecCanon.c_soc fmt).
Local Notation c_poc := (SpecCanon.c_poc fmt).
Local Notation c_coord := (SpecCanon.c_coord fmt).
Local Notation c_csae := (SpecCanon.c_csae fmt).
Lemma pr_ve_VE_nb (v : venb) :
  pr_ve (VE_nb v) =
  (pr_venb v).
Proof. reflexivity. Qed.
Lemma pr_ve_VE_sc (s : sc) :
  pr_ve (VE_sc s) =
  (pr_sc s).
Proof. reflexivity. Qed.
Lemma pr_venb_VENB (f : factor) (ts : list vterm) :
  pr_venb (VENB f ts) =
  (pr_factor f ++ concat (map pr_vterm ts)).
Proof. reflexivity. Qed.
Lemma pr_vterm_VTerm (op : text) (f : factor) :
  pr_vterm (VTerm op f) =
  (op ++ pr_factor f).
Proof. reflexivity. Qed.
Lemma pr_factor_Factor (s : text) (p : nprim) :
  pr_factor (Factor s p) =
  (s ++ pr_nprim p).
Proof. reflexivity. Qed.
Lemma pr_nprim_NP_vep (p : vep) :
  pr_nprim (NP_vep p) =
  (pr_vep p).
Proof. reflexivity. Qed.
Lemma pr_nprim_NP_nvf (f : nvf) :
  pr_nprim (NP_nvf f) =
  (pr_nvf f).
Proof. reflexivity. Qed.
Lemma pr_nvf_NV_trig1 (f : text) (a : ve) :
  pr_nvf (NV_trig1 f a) =
  (f ++ L "(" ++ pr_ve a ++ L ")").
Proof. reflexivity. Qed.
Lemma pr_nvf_NV_trig2 (f : text) (a : ve) (b : ve) :
  pr_nvf (NV_trig2 f a b) =
  (f ++ L "(" ++ pr_ve a ++ L "," ++ pr_ve b ++ L ")").
Proof. reflexivity. Qed.
Lemma pr_nvf_NV_math0 (f : text) :
  pr_nvf (NV_math0 f) =
  (f ++ L "()").
Proof. reflexivity. Qed.
Lemma pr_nvf_NV_math1 (f : text) (a : ve) :
  pr_nvf (NV_math1 f a) =
  (f ++ L "(" ++ pr_ve a ++ L ")").
Proof. reflexivity. Qed.
Lemma pr_nvf_NV_math2 (f : text) (a : ve) (b : ve) :
  pr_nvf (NV_math2 f a b) =
  (f ++ L "(" ++ pr_ve a ++ L "," ++ pr_ve b ++ L ")").
Proof. reflexivity. Qed.
Lemma pr_nvf_NV_cast (a : ve) (as_ : text) (len : text) :
  pr_nvf (NV_cast a as_ len) =
  (L "CAST(" ++ pr_ve a ++ L " AS " ++ as_ ++
      (if is_nil len then [] else L "(" ++ len ++ L ")") ++ L ")").
Proof. reflexivity. Qed.
Lemma pr_nvf_NV_geo1 (f : text) (a : poc) :
  pr_nvf (NV_geo1 f a) =
  (if is_nil f then [] else f ++ L "(" ++ pr_poc a ++ L ")").
Proof. reflexivity. Qed.
Lemma pr_nvf_NV_geo2 (f : text) (a : poc) (b : poc) :
  pr_nvf (NV_geo2 f a b) =
  (if is_nil f then [] else f ++ L "(" ++ pr_poc a ++ L "," ++ pr_poc b ++ L ")").
Proof. reflexivity. Qed.
Lemma pr_nvf_NV_udf (f : text) (args : list ve) :
  pr_nvf (NV_udf f args) =
  (f ++ L "(" ++ join (L ",") (map pr_ve args) ++ L ")").
Proof. reflexivity. Qed.
Lemma pr_nvf_NV_str (s : text) :
  pr_nvf (NV_str s) =
  (s).
Proof. reflexivity. Qed.
Lemma pr_vep_VEP (v : vepv) (idx : list ve) :
  pr_vep (VEP v idx) =
  (pr_vepv v ++ concat (map (fun i => L "[" ++ pr_ve i ++ L "]") idx)).
Proof. reflexivity. Qed.
Lemma pr_vepv_VP_array (l : list ve) :
  pr_vepv (VP_array l) =
  (L "ARRAY[" ++ join (L ",") (map pr_ve l) ++ L "]").
Proof. reflexivity. Qed.
Lemma pr_vepv_VP_str (s : text) :
  pr_vepv (VP_str s) =
  (s).
Proof. reflexivity. Qed.
Lemma pr_vepv_VP_col (c : colref) :
  pr_vepv (VP_col c) =
  (pr_colref c).
Proof. reflexivity. Qed.
Lemma pr_vepv_VP_setstr (s : text) :
  pr_vepv (VP_setstr s) =
  (s).
Proof. reflexivity. Qed.
Lemma pr_vepv_VP_set (ty : text) (q : text) (a : ve) :
  pr_vepv (VP_set ty q a) =
  (ty ++ L "(" ++ nl_sp q ++ pr_ve a ++ L ")").
Proof. reflexivity. Qed.
Lemma pr_vepv_VP_nullif (a : ve) (b : ve) :
  pr_vepv (VP_nullif a b) =
  (L "NULLIF(" ++ pr_ve a ++ L "," ++ pr_ve b ++ L ")").
Proof. reflexivity. Qed.
Lemma pr_vepv_VP_coalesce (l : list ve) :
  pr_vepv (VP_coalesce l) =
  (L "COALESCE(" ++ join (L ",") (map pr_ve l) ++ L ")").
Proof. reflexivity. Qed.
Lemma pr_vepv_VP_case (x : ve) (w : list swhen) (e : option result) :
  pr_vepv (VP_case x w e) =
  (L "CASE " ++ pr_ve x ++ L " " ++ concat (map (fun w => pr_swhen w ++ L " ") w) ++
      (match e with
       | None => []
       | Some r => if result_empty r then [] else L "ELSE " ++ pr_result r ++ L " "
       end) ++ L "END").
Proof. reflexivity. Qed.
Lemma pr_vepv_VP_scase (w : list qwhen) (e : option result) :
  pr_vepv (VP_scase w e) =
  (L "CASE " ++ concat (map (fun w => pr_qwhen w ++ L " ") w) ++
      (match e with
       | None => []
       | Some r => if result_empty r then [] else L "ELSE " ++ pr_result r ++ L " "
       end) ++ L "END").
Proof. reflexivity. Qed.
Lemma pr_vepv_VP_any (a : ve) :
  pr_vepv (VP_any a) =
  (L "ANY(" ++ pr_ve a ++ L ")").
Proof. reflexivity. Qed.
Lemma pr_vepv_VP_sub (a : ve) :
  pr_vepv (VP_sub a) =
  (L "(" ++ pr_ve a ++ L ")").
Proof. reflexivity. Qed.
Lemma pr_swhen_SWhen (a : ve) (r : result) :
  pr_swhen (SWhen a r) =
  (L "WHEN " ++ pr_ve a ++ L " " ++ L "THEN " ++ pr_result r).
Proof. reflexivity. Qed.
Lemma pr_qwhen_QWhen (c : sc) (r : result) :
  pr_qwhen (QWhen c r) =
  (L "WHEN " ++ pr_sc c ++ L " THEN " ++ pr_result r).
Proof. reflexivity. Qed.
Lemma pr_result_Res_str (s : text) :
  pr_result (Res_str s) =
  (s).
Proof. reflexivity. Qed.
Lemma pr_result_Res_ve (a : ve) :
  pr_result (Res_ve a) =
  (pr_ve a).
Proof. reflexivity. Qed.
Lemma pr_sc_SC_f (f : bfac) :
  pr_sc (SC_f f) =
  if sc_empty (SC_f f) then [] else
  (pr_bfac f).
Proof. reflexivity. Qed.
Lemma pr_sc_SC_t (f : bfac) (op : text) (s' : sc) :
  pr_sc (SC_t f op s') =
  if sc_empty (SC_t f op s') then [] else
  (pr_bfac f ++ L " " ++ upper op ++ L " " ++ pr_sc s').
Proof. reflexivity. Qed.
Lemma pr_bfac_BF (n : text) (p : bprim) :
  pr_bfac (BF n p) =
  (nl_sp n ++ pr_bprim p).
Proof. reflexivity. Qed.
Lemma pr_bprim_BP_pred (p : pred) :
  pr_bprim (BP_pred p) =
  (pr_pred p).
Proof. reflexivity. Qed.
Lemma pr_bprim_BP_sc (s : sc) :
  pr_bprim (BP_sc s) =
  (L "(" ++ pr_sc s ++ L ")").
Proof. reflexivity. Qed.
Lemma pr_bprim_BP_val (v : venb) :
  pr_bprim (BP_val v) =
  (pr_venb v).
Proof. reflexivity. Qed.
Lemma pr_pred_P_cmp (l : venb) (op : text) (r : ve) :
  pr_pred (P_cmp l op r) =
  (pr_venb l ++ L " " ++ op ++ L " " ++ pr_ve r).
Proof. reflexivity. Qed.
Lemma pr_pred_P_between (v : venb) (n : text) (lo : ve) (hi : ve) :
  pr_pred (P_between v n lo hi) =
  (pr_venb v ++ L " " ++ nl_sp n ++ L "BETWEEN " ++ pr_ve lo ++ L " AND " ++ pr_ve hi).
Proof. reflexivity. Qed.
Lemma pr_pred_P_in (v : venb) (n : text) (t : intarget) :
  pr_pred (P_in v n t) =
  (pr_venb v ++ L " " ++ (if is_nil n then [] else L "NOT ") ++ L "IN " ++ pr_intarget t).
Proof. reflexivity. Qed.
Lemma pr_pred_P_null (v : venb) (n : text) :
  pr_pred (P_null v n) =
  (pr_venb v ++ L " IS " ++ (if is_nil n then [] else L "NOT ") ++ L "NULL").
Proof. reflexivity. Qed.
Lemma pr_pred_P_like (v : venb) (n : text) (p : ve) :
  pr_pred (P_like v n p) =
  (pr_venb v ++ (if is_nil n then L " " else L " NOT ") ++ L "LIKE " ++ pr_ve p).
Proof. reflexivity. Qed.
Lemma pr_pred_P_exists (q : subq) :
  pr_pred (P_exists q) =
  (L "EXISTS " ++ pr_subq q).
Proof. reflexivity. Qed.
Lemma pr_intarget_In_sub (q : subq) :
  pr_intarget (In_sub q) =
  (pr_subq q).
Proof. reflexivity. Qed.
Lemma pr_intarget_In_list (l : list ve) :
  pr_intarget (In_list l) =
  (pr_vector (map pr_ve l)).
Proof. reflexivity. Qed.
Lemma pr_subq_SQ_jt (j : jt) :
  pr_subq (SQ_jt j) =
  L "(" ++ ((pr_jt j)) ++ L ")".
Proof. reflexivity. Qed.
Lemma pr_subq_SQ_q (q : qspec) :
  pr_subq (SQ_q q) =
  L "(" ++ ((pr_qspec q)) ++ L ")".
Proof. reflexivity. Qed.
Lemma pr_jt_JT_q (q : qjoin) :
  pr_jt (JT_q q) =
  (pr_qjoin q).
Proof. reflexivity. Qed.
Lemma pr_jt_JT_p (j : jt) :
  pr_jt (JT_p j) =
  (L "(" ++ pr_jt j ++ L ")").
Proof. reflexivity. Qed.
Lemma pr_qjoin_QJ (h : qjhead) (ss : list jsuf) :
  pr_qjoin (QJ h ss) =
  (pr_qjhead h ++ L " " ++ concat (map (fun s => pr_jsuf s ++ L " ") ss)).
Proof. reflexivity. Qed.
Lemma pr_qjhead_QH_tc (n : text) (a : text) :
  pr_qjhead (QH_tc n a) =
  (pr_tc n a).
Proof. reflexivity. Qed.
Lemma pr_qjhead_QH_jt (j : jt) :
  pr_qjhead (QH_jt j) =
  (pr_jt j).
Proof. reflexivity. Qed.
Lemma pr_jsuf_JS (nat : bool) (ty : jtype) (t : tref) (sp : option jspec) :
  pr_jsuf (JS nat ty t sp) =
  ((if nat then L "NATURAL " else []) ++ pr_jtype ty ++ L " " ++ L "JOIN " ++ pr_tref t ++
      (match sp with
       | None => []
       | Some sp => if jspec_empty sp then [] else L " " ++ pr_jspec sp
       end)).
Proof. reflexivity. Qed.
Lemma pr_jspec_JSp_using (l : list text) :
  pr_jspec (JSp_using l) =
  (L "USING " ++ pr_vector l).
Proof. reflexivity. Qed.
Lemma pr_jspec_JSp_on (s : sc) :
  pr_jspec (JSp_on s) =
  (L "ON " ++ pr_sc s).
Proof. reflexivity. Qed.
Lemma pr_tref_TR_tc (n : text) (a : text) :
  pr_tref (TR_tc n a) =
  (pr_tc n a).
Proof. reflexivity. Qed.
Lemma pr_tref_TR_jt (j : jt) :
  pr_tref (TR_jt j) =
  (pr_jt j).
Proof. reflexivity. Qed.
Lemma pr_tref_TR_dc (q : subq) (a : text) :
  pr_tref (TR_dc q a) =
  (pr_subq q ++ (if is_nil a then [] else L " " ++ a)).
Proof. reflexivity. Qed.
Lemma pr_tref_TR_tvf (f : text) (args : list text) :
  pr_tref (TR_tvf f args) =
  (pr_tvf f args).
Proof. reflexivity. Qed.
Lemma pr_qspec_QS (w : option withc) (i : sfw) (ad : list addon) (g : list gterm) (h : option sc) (o : list sort_spec) :
  pr_qspec (QS w i ad g h o) =
  ((match w with
       | None => []
       | Some w => if with_empty w then [] else pr_with w ++ L " "
       end) ++
      pr_sfw i ++ concat (map pr_addon ad) ++
      (if is_nil g then [] else L " GROUP BY " ++ join (L ",") (map pr_gterm g)) ++
      (match h with
       | None => []
       | Some s => if sc_empty s then [] else L " HAVING " ++ pr_sc s
       end) ++
      (if is_nil o then [] else L " ORDER BY " ++ join (L ",") (map pr_sort o))).
Proof. reflexivity. Qed.
Lemma pr_with_With (n : text) (cols : list text) (q : subq) :
  pr_with (With n cols q) =
  (L "WITH " ++ n ++ (if is_nil cols then [] else L " (" ++ join (L ",") cols ++ L ")") ++
      L " AS " ++ pr_subq q).
Proof. reflexivity. Qed.
Lemma pr_addon_Addon (op : text) (s : sfw) :
  pr_addon (Addon op s) =
  (L " " ++ upper op ++ L " " ++ pr_sfw s).
Proof. reflexivity. Qed.
Lemma pr_sfw_SFW (s : select) (ts : list tref) (w : wherec) :
  pr_sfw (SFW s ts w) =
  (pr_select s ++ L " FROM " ++ join (L ", ") (map pr_tref ts) ++
      (if where_empty w then [] else L " WHERE " ++ pr_where w)).
Proof. reflexivity. Qed.
Lemma pr_where_Where (g : option geom) (s : option sc) :
  pr_where (Where g s) =
  (match g with
      | Some g' =>
          if geom_empty g' then
            match s with Some s' => if sc_empty s' then [] else pr_sc s' | None => [] end
          else pr_geom g' ++
               match s with Some s' => if sc_empty s' then [] else L " AND " ++ pr_sc s' | None => [] end
      | None => match s with Some s' => if sc_empty s' then [] else pr_sc s' | None => [] end
      end).
Proof. reflexivity. Qed.
Lemma pr_geom_G_left (fl : text) (p : gpred) :
  pr_geom (G_left fl p) =
  (if gpred_empty p then [] else pr_gpred p ++ L "=" ++ fl).
Proof. reflexivity. Qed.
Lemma pr_geom_G_right (p : gpred) (fl : text) :
  pr_geom (G_right p fl) =
  (if gpred_empty p then [] else pr_gpred p ++ L "=" ++ fl).
Proof. reflexivity. Qed.
Lemma pr_gpred_GP_intersects (e : ve) (s : soc) :
  pr_gpred (GP_intersects e s) =
  (L "INTERSECTS(" ++ pr_ve e ++ L "," ++ pr_soc s ++ L ")").
Proof. reflexivity. Qed.
Lemma pr_gpred_GP_contains (a : soc) (b : soc) :
  pr_gpred (GP_contains a b) =
  (L "CONTAINS(" ++ pr_soc a ++ L "," ++ pr_soc b ++ L ")").
Proof. reflexivity. Qed.
Lemma pr_select_Select (q : text) (top : N) (c : columns) :
  pr_select (Select q top c) =
  (L "SELECT " ++ nl_sp q ++
      (if (top =? top_none)%N then [] else L "TOP " ++ pr_N top ++ L " ") ++ pr_columns c).
Proof. reflexivity. Qed.
Lemma pr_columns_C_star (s : text) :
  pr_columns (C_star s) =
  (s).
Proof. reflexivity. Qed.
Lemma pr_columns_C_list (l : list colv) :
  pr_columns (C_list l) =
  (join (L ", ") (map pr_colv l)).
Proof. reflexivity. Qed.
Lemma pr_colv_CV_as (e : ve) (a : text) :
  pr_colv (CV_as e a) =
  (pr_ve e ++ L " AS " ++ a).
Proof. reflexivity. Qed.
Lemma pr_colv_CV_star (s : text) :
  pr_colv (CV_star s) =
  (s).
Proof. reflexivity. Qed.
Lemma pr_colv_CV_ve (e : ve) :
  pr_colv (CV_ve e) =
  (pr_ve e).
Proof. reflexivity. Qed.
Lemma pr_gterm_GT_ve (e : ve) :
  pr_gterm (GT_ve e) =
  (pr_ve e).
Proof. reflexivity. Qed.
Lemma pr_gterm_GT_col (c : colref) :
  pr_gterm (GT_col c) =
  (pr_colref c).
Proof. reflexivity. Qed.
Lemma c_ve_VE_nb (v : venb) :
  c_ve (VE_nb v) =
  (c_venb v).
Proof. reflexivity. Qed.
Lemma c_ve_VE_sc (s : sc) :
  c_ve (VE_sc s) =
  (c_sc s && no_value s).
Proof. reflexivity. Qed.
Lemma c_venb_VENB (f : factor) (ts : list vterm) :
  c_venb (VENB f ts) =
  (c_factor f && forallb c_vterm ts && no_comments f ts).
Proof. reflexivity. Qed.
Lemma c_vterm_VTerm (op : text) (f : factor) :
  c_vterm (VTerm op f) =
  (one_of op ["*"; "/"; "+"; "-"; "||"]%string && c_factor f).
Proof. reflexivity. Qed.
Lemma c_factor_Factor (s : text) (p : nprim) :
  c_factor (Factor s p) =
  (one_of s [""; "+"; "-"]%string && c_nprim p).
Proof. reflexivity. Qed.
Lemma c_nprim_NP_vep (p : vep) :
  c_nprim (NP_vep p) =
  (c_vep p).
Proof. reflexivity. Qed.
Lemma c_nprim_NP_nvf (f : nvf) :
  c_nprim (NP_nvf f) =
  (c_nvf f).
Proof. reflexivity. Qed.
Lemma c_nvf_NV_trig1 (f : text) (a : ve) :
  c_nvf (NV_trig1 f a) =
  (one_of_nc f ["ACOS"; "ASIN"; "ATAN"; "COS"; "COT"; "SIN"; "TAN"]%string && c_ve a).
Proof. reflexivity. Qed.
Lemma c_nvf_NV_trig2 (f : text) (a : ve) (b : ve) :
  c_nvf (NV_trig2 f a b) =
  (one_of_nc f ["ATAN2"]%string && c_ve a && c_ve b).
Proof. reflexivity. Qed.
Lemma c_nvf_NV_math0 (f : text) :
  c_nvf (NV_math0 f) =
  (one_of_nc f ["PI"; "RAND"]%string).
Proof. reflexivity. Qed.
Lemma c_nvf_NV_math1 (f : text) (a : ve) :
  c_nvf (NV_math1 f a) =
  (one_of_nc f ["ABS"; "CEILING"; "DEGREES"; "EXP"; "FLOOR"; "LOG"; "LOG10"; "RADIANS"; "RAND"; "ROUND"; "SQRT"; "TRUNCATE"]%string && c_ve a).
Proof. reflexivity. Qed.
Lemma c_nvf_NV_math2 (f : text) (a : ve) (b : ve) :
  c_nvf (NV_math2 f a b) =
  (one_of_nc f ["MOD"; "POWER"; "ROUND"; "TRUNCATE"]%string && c_ve a && c_ve b).
Proof. reflexivity. Qed.
Lemma c_nvf_NV_cast (a : ve) (t : text) (n : text) :
  c_nvf (NV_cast a t n) =
  (c_ve a && one_of_nc t ["BIGINT"; "CHAR"; "FLOAT4"; "FLOAT8"; "INTEGER"; "NUMERIC"; "TEXT"; "VARCHAR"; "VARCHAR2"]%string &&
      (is_nil n || is_digits n)).
Proof. reflexivity. Qed.
Lemma c_nvf_NV_geo1 (f : text) (a : poc) :
  c_nvf (NV_geo1 f a) =
  (one_of_nc f ["COORD1"; "COORD2"]%string && c_poc a).
Proof. reflexivity. Qed.
Lemma c_nvf_NV_geo2 (f : text) (a : poc) (b : poc) :
  c_nvf (NV_geo2 f a b) =
  (one_of_nc f ["DISTANCE"]%string && c_poc a && c_poc b).
Proof. reflexivity. Qed.
Lemma c_nvf_NV_udf (f : text) (args : list ve) :
  c_nvf (NV_udf f args) =
  ((free_word f && negb (one_of_nc f ["COT"%string]) || one_of_nc f ["DISTINCT"; "LEFT"; "LOWER"; "RIGHT"; "TRIM"; "UPPER"]%string) && forallb c_ve args).
Proof. reflexivity. Qed.
Lemma c_nvf_NV_str (s : text) :
  c_nvf (NV_str s) =
  (one_of_nc s ["CURRENT_TIMESTAMP"%string]).
Proof. reflexivity. Qed.
Lemma c_vep_VEP (v : vepv) (idx : list ve) :
  c_vep (VEP v idx) =
  (c_vepv v && forallb c_ve idx && (is_nil idx || match v with VP_col (CR1 w) => negb (one_of_nc w ["ARRAY"%string]) | _ => true end)).
Proof. reflexivity. Qed.
Lemma c_vepv_VP_array (l : list ve) :
  c_vepv (VP_array l) =
  (negb (is_nil l) && forallb c_ve l).
Proof. reflexivity. Qed.
Lemma c_vepv_VP_str (s : text) :
  c_vepv (VP_str s) =
  (is_number s || is_quoted sq s || one_of_nc s ["TRUE"; "FALSE"; "NULL"; "NULL::CHAR"; "NULL::INT"; "NULL::FLOAT"]%string).
Proof. reflexivity. Qed.
Lemma c_vepv_VP_col (c : colref) :
  c_vepv (VP_col c) =
  (c_colref is_value_name c).
Proof. reflexivity. Qed.
Lemma c_vepv_VP_setstr (s : text) :
  c_vepv (VP_setstr s) =
  (one_of_nc s ["COUNT(*)"%string]).
Proof. reflexivity. Qed.
Lemma c_vepv_VP_set (ty : text) (q : text) (a : ve) :
  c_vepv (VP_set ty q a) =
  (one_of_nc ty ["AVG"; "COUNT"; "MAX"; "MIN"; "SUM"]%string && (is_nil q || one_of_nc q ["ALL"; "DISTINCT"]%string) && c_ve a).
Proof. reflexivity. Qed.
Lemma c_vepv_VP_nullif (a : ve) (b : ve) :
  c_vepv (VP_nullif a b) =
  (c_ve a && c_ve b).
Proof. reflexivity. Qed.
Lemma c_vepv_VP_coalesce (l : list ve) :
  c_vepv (VP_coalesce l) =
  (negb (is_nil l) && forallb c_ve l).
Proof. reflexivity. Qed.
Lemma c_vepv_VP_case (x : ve) (w : list swhen) (e : option result) :
  c_vepv (VP_case x w e) =
  (c_ve x && negb (is_nil w) && forallb c_swhen w && match e with None => true | Some r => c_result r end).
Proof. reflexivity. Qed.
Lemma c_vepv_VP_scase (w : list qwhen) (e : option result) :
  c_vepv (VP_scase w e) =
  (negb (is_nil w) && forallb c_qwhen w && match e with None => true | Some r => c_result r end).
Proof. reflexivity. Qed.
Lemma c_vepv_VP_any (a : ve) :
  c_vepv (VP_any a) =
  (c_ve a).
Proof. reflexivity. Qed.
Lemma c_vepv_VP_sub (a : ve) :
  c_vepv (VP_sub a) =
  (c_ve a).
Proof. reflexivity. Qed.
Lemma c_swhen_SWhen (a : ve) (r : result) :
  c_swhen (SWhen a r) =
  (c_ve a && c_result r).
Proof. reflexivity. Qed.
Lemma c_qwhen_QWhen (c : sc) (r : result) :
  c_qwhen (QWhen c r) =
  (c_sc c && c_result r).
Proof. reflexivity. Qed.
Lemma c_result_Res_str (z0 : text) :
  c_result (Res_str z0) =
  (false).
Proof. reflexivity. Qed.
Lemma c_result_Res_ve (a : ve) :
  c_result (Res_ve a) =
  (c_ve a).
Proof. reflexivity. Qed.
Lemma c_sc_SC_f (f : bfac) :
  c_sc (SC_f f) =
  (c_bfac f).
Proof. reflexivity. Qed.
Lemma c_sc_SC_t (f : bfac) (op : text) (s' : sc) :
  c_sc (SC_t f op s') =
  (c_bfac f && one_of op ["AND"; "OR"]%string && c_sc s' && negb (open_f f)).
Proof. reflexivity. Qed.
Lemma c_bfac_BF (n : text) (p : bprim) :
  c_bfac (BF n p) =
  ((if is_nil n then negb (begins_with_nc "NOT" (pr_bprim p)) else one_of_nc n ["NOT"%string]) && c_bprim p).
Proof. reflexivity. Qed.
Lemma c_bprim_BP_pred (p : pred) :
  c_bprim (BP_pred p) =
  (c_pred p).
Proof. reflexivity. Qed.
Lemma c_bprim_BP_sc (s : sc) :
  c_bprim (BP_sc s) =
  (c_sc s).
Proof. reflexivity. Qed.
Lemma c_bprim_BP_val (v : venb) :
  c_bprim (BP_val v) =
  (c_venb v && negb (head_is "(" (pr_venb v)) && negb (begins_with_nc "EXISTS" (pr_venb v))).
Proof. reflexivity. Qed.
Lemma c_pred_P_cmp (l : venb) (op : text) (r : ve) :
  c_pred (P_cmp l op r) =
  (c_venb l && one_of op ["="; "!="; "<>"; "<="; ">="; "<"; ">"]%string && c_ve r).
Proof. reflexivity. Qed.
Lemma c_pred_P_between (v : venb) (n : text) (lo : ve) (hi : ve) :
  c_pred (P_between v n lo hi) =
  (c_venb v && (is_nil n || one_of_nc n ["NOT"%string]) && c_ve lo && negb (open_ve lo) && c_ve hi).
Proof. reflexivity. Qed.
Lemma c_pred_P_in (v : venb) (n : text) (t : intarget) :
  c_pred (P_in v n t) =
  (c_venb v && one_of n [""; "NOT "]%string && c_intarget t).
Proof. reflexivity. Qed.
Lemma c_pred_P_null (v : venb) (n : text) :
  c_pred (P_null v n) =
  (c_venb v && one_of n [""; "NOT"]%string).
Proof. reflexivity. Qed.
Lemma c_pred_P_like (v : venb) (n : text) (p : ve) :
  c_pred (P_like v n p) =
  (c_venb v && one_of n [""; "NOT"]%string && c_ve p && negb (open_ve p)).
Proof. reflexivity. Qed.
Lemma c_pred_P_exists (q : subq) :
  c_pred (P_exists q) =
  (c_subq q).
Proof. reflexivity. Qed.
Lemma c_intarget_In_sub (q : subq) :
  c_intarget (In_sub q) =
  (c_subq q).
Proof. reflexivity. Qed.
Lemma c_intarget_In_list (l : list ve) :
  c_intarget (In_list l) =
  (negb (is_nil l) && forallb c_ve l &&
      match l with x :: _ => negb (begins_with_nc "SELECT" (pr_ve x)) && negb (begins_with_nc "WITH" (pr_ve x)) | [] => true end).
Proof. reflexivity. Qed.
Lemma c_subq_SQ_jt (j : jt) :
  c_subq (SQ_jt j) =
  (c_jt j && negb (begins_with_nc "SELECT" (pr_jt j)) && negb (begins_with_nc "WITH" (pr_jt j))).
Proof. reflexivity. Qed.
Lemma c_subq_SQ_q (q : qspec) :
  c_subq (SQ_q q) =
  (c_qspec false q).
Proof. reflexivity. Qed.
Lemma c_jt_JT_q (q : qjoin) :
  c_jt (JT_q q) =
  (c_qjoin q).
Proof. reflexivity. Qed.
Lemma c_jt_JT_p (j : jt) :
  c_jt (JT_p j) =
  (c_jt j).
Proof. reflexivity. Qed.
Lemma c_qjoin_QJ (h : qjhead) (ss : list jsuf) :
  c_qjoin (QJ h ss) =
  (c_qjhead h && negb (is_nil ss) && forallb c_jsuf ss && in_turn ss).
Proof. reflexivity. Qed.
Lemma c_qjhead_QH_tc (n : text) (a : text) :
  c_qjhead (QH_tc n a) =
  (is_table_name n && (is_nil a || is_name a)).
Proof. reflexivity. Qed.
Lemma c_qjhead_QH_jt (j : jt) :
  c_qjhead (QH_jt j) =
  (match j with JT_p j' => c_jt j' | JT_q _ => false end).
Proof. reflexivity. Qed.
Lemma c_jsuf_JS (nat : bool) (ty : jtype) (t : tref) (sp : option jspec) :
  c_jsuf (JS nat ty t sp) =
  (match ty with
      | JTy_plain s => is_nil s || one_of_nc s ["INNER"%string]
      | JTy_outer s _ => one_of_nc s ["FULL"; "LEFT"; "RIGHT"]%string
      end && c_tref t &&
      match sp with None => true | Some sp => c_jspec sp && negb (takes_spec t) end).
Proof. reflexivity. Qed.
Lemma c_jspec_JSp_using (l : list text) :
  c_jspec (JSp_using l) =
  (negb (is_nil l) && forallb is_name l).
Proof. reflexivity. Qed.
Lemma c_jspec_JSp_on (s : sc) :
  c_jspec (JSp_on s) =
  (c_sc s).
Proof. reflexivity. Qed.
Lemma c_tref_TR_tc (n : text) (a : text) :
  c_tref (TR_tc n a) =
  (is_table_name n && (is_nil a || is_name a)).
Proof. reflexivity. Qed.
Lemma c_tref_TR_jt (j : jt) :
  c_tref (TR_jt j) =
  (c_jt j).
Proof. reflexivity. Qed.
Lemma c_tref_TR_dc (q : subq) (a : text) :
  c_tref (TR_dc q a) =
  (match q with SQ_q q => c_qspec false q | SQ_jt _ => false end && is_name a).
Proof. reflexivity. Qed.
Lemma c_tref_TR_tvf (f : text) (args : list text) :
  c_tref (TR_tvf f args) =
  (is_dotted f && negb (is_nil args) && forallb is_dotted args).
Proof. reflexivity. Qed.
Lemma c_qspec_QS (geo : bool) (w : option withc) (i : sfw) (ad : list addon) (g : list gterm) (h : option sc) (o : list sort_spec) :
  c_qspec geo (QS w i ad g h o) =
  (match w with None => true | Some w => c_with w end && c_sfw geo i && forallb (c_addon geo) ad && forallb c_gterm g &&
      match h with None => true | Some s => c_sc s end &&
      forallb (fun s => match s with
                        | Sort k o => match k with SK_col c => c_colref is_name c | SK_int d => is_digits d end && (is_nil o || one_of_nc o ["ASC"; "DESC"]%string)
                        end) o).
Proof. reflexivity. Qed.
Lemma c_with_With (n : text) (cols : list text) (q : subq) :
  c_with (With n cols q) =
  (is_name n && forallb is_name cols && c_subq q).
Proof. reflexivity. Qed.
Lemma c_addon_Addon (geo : bool) (op : text) (s : sfw) :
  c_addon geo (Addon op s) =
  (one_of op ["UNION"; "UNION ALL"; "UNION DISTINCT"]%string && c_sfw geo s).
Proof. reflexivity. Qed.
Lemma c_sfw_SFW (geo : bool) (s : select) (ts : list tref) (w : wherec) :
  c_sfw geo (SFW s ts w) =
  (c_select s && negb (is_nil ts) && forallb c_tref ts && c_where geo w).
Proof. reflexivity. Qed.
Lemma c_where_Where (geo : bool) (g : option geom) (s : option sc) :
  c_where geo (Where g s) =
  (match g with None => true | Some g => geo && c_geom g end && match s with None => true | Some s => c_sc s end).
Proof. reflexivity. Qed.
Lemma c_geom_G_left (z0 : text) (z1 : gpred) :
  c_geom (G_left z0 z1) =
  (false).
Proof. reflexivity. Qed.
Lemma c_geom_G_right (p : gpred) (fl : text) :
  c_geom (G_right p fl) =
  (c_gpred p && one_of fl ["0"; "1"]%string).
Proof. reflexivity. Qed.
Lemma c_gpred_GP_intersects (e : ve) (s : soc) :
  c_gpred (GP_intersects e s) =
  (c_ve e && c_soc s).
Proof. reflexivity. Qed.
Lemma c_gpred_GP_contains (a : soc) (b : soc) :
  c_gpred (GP_contains a b) =
  (c_soc a && c_soc b).
Proof. reflexivity. Qed.
Lemma c_select_Select (q : text) (top : N) (c : columns) :
  c_select (Select q top c) =
  ((is_nil q || one_of_nc q ["ALL"; "DISTINCT"]%string) && (top <=? top_none)%N && c_columns c).
Proof. reflexivity. Qed.
Lemma c_columns_C_star (s : text) :
  c_columns (C_star s) =
  (text_eqb s (L "*")).
Proof. reflexivity. Qed.
Lemma c_columns_C_list (l : list colv) :
  c_columns (C_list l) =
  (negb (is_nil l) && forallb c_colv l).
Proof. reflexivity. Qed.
Lemma c_colv_CV_as (e : ve) (a : text) :
  c_colv (CV_as e a) =
  (c_ve e && is_name a).
Proof. reflexivity. Qed.
Lemma c_colv_CV_star (s : text) :
  c_colv (CV_star s) =
  (existsb (fun '(n, r) => text_eqb r (L "*") && table_name_from is_value_name n) (cuts "." s)).
Proof. reflexivity. Qed.
Lemma c_colv_CV_ve (e : ve) :
  c_colv (CV_ve e) =
  (c_ve e).
Proof. reflexivity. Qed.
Lemma c_gterm_GT_ve (e : ve) :
  c_gterm (GT_ve e) =
  (c_ve e).
Proof. reflexivity. Qed.
Lemma c_gterm_GT_col (z0 : colref) :
  c_gterm (GT_col z0) =
  (false).
Proof. reflexivity. Qed.
End Eq.
Global Hint Rewrite pr_ve_VE_nb pr_ve_VE_sc pr_venb_VENB pr_vterm_VTerm pr_factor_Factor pr_nprim_NP_vep pr_nprim_NP_nvf pr_nvf_NV_trig1 pr_nvf_NV_trig2 pr_nvf_NV_math0 pr_nvf_NV_math1 pr_nvf_NV_math2 pr_nvf_NV_cast pr_nvf_NV_geo1 pr_nvf_NV_geo2 pr_nvf_NV_udf pr_nvf_NV_str pr_vep_VEP pr_vepv_VP_array pr_vepv_VP_str pr_vepv_VP_col pr_vepv_VP_setstr pr_vepv_VP_set pr_vepv_VP_nullif pr_vepv_VP_coalesce pr_vepv_VP_case pr_vepv_VP_scase pr_vepv_VP_any pr_vepv_VP_sub pr_swhen_SWhen pr_qwhen_QWhen pr_result_Res_str pr_result_Res_ve pr_sc_SC_f pr_sc_SC_t pr_bfac_BF pr_bprim_BP_pred pr_bprim_BP_sc pr_bprim_BP_val pr_pred_P_cmp pr_pred_P_between pr_pred_P_in pr_pred_P_null pr_pred_P_like pr_pred_P_exists pr_intarget_In_sub pr_intarget_In_list pr_subq_SQ_jt pr_subq_SQ_q pr_jt_JT_q pr_jt_JT_p pr_qjoin_QJ pr_qjhead_QH_tc pr_qjhead_QH_jt pr_jsuf_JS pr_jspec_JSp_using pr_jspec_JSp_on pr_tref_TR_tc pr_tref_TR_jt pr_tref_TR_dc pr_tref_TR_tvf pr_qspec_QS pr_with_With pr_addon_Addon pr_sfw_SFW pr_where_Where pr_geom_G_left pr_geom_G_right pr_gpred_GP_intersects pr_gpred_GP_contains pr_select_Select pr_columns_C_star pr_columns_C_list pr_colv_CV_as pr_colv_CV_star pr_colv_CV_ve pr_gterm_GT_ve pr_gterm_GT_col : pr_eq.
Global Hint Rewrite c_ve_VE_nb c_ve_VE_sc c_venb_VENB c_vterm_VTerm c_factor_Factor c_nprim_NP_vep c_nprim_NP_nvf c_nvf_NV_trig1 c_nvf_NV_trig2 c_nvf_NV_math0 c_nvf_NV_math1 c_nvf_NV_math2 c_nvf_NV_cast c_nvf_NV_geo1 c_nvf_NV_geo2 c_nvf_NV_udf c_nvf_NV_str c_vep_VEP c_vepv_VP_array c_vepv_VP_str c_vepv_VP_col c_vepv_VP_setstr c_vepv_VP_set c_vepv_VP_nullif c_vepv_VP_coalesce c_vepv_VP_case c_vepv_VP_scase c_vepv_VP_any c_vepv_VP_sub c_swhen_SWhen c_qwhen_QWhen c_result_Res_str c_result_Res_ve c_sc_SC_f c_sc_SC_t c_bfac_BF c_bprim_BP_pred c_bprim_BP_sc c_bprim_BP_val c_pred_P_cmp c_pred_P_between c_pred_P_in c_pred_P_null c_pred_P_like c_pred_P_exists c_intarget_In_sub c_intarget_In_list c_subq_SQ_jt c_subq_SQ_q c_jt_JT_q c_jt_JT_p c_qjoin_QJ c_qjhead_QH_tc c_qjhead_QH_jt c_jsuf_JS c_jspec_JSp_using c_jspec_JSp_on c_tref_TR_tc c_tref_TR_jt c_tref_TR_dc c_tref_TR_tvf c_qspec_QS c_with_With c_addon_Addon c_sfw_SFW c_where_Where c_geom_G_left c_geom_G_right c_gpred_GP_intersects c_gpred_GP_contains c_select_Select c_columns_C_star c_columns_C_list c_colv_CV_as c_colv_CV_star c_colv_CV_ve c_gterm_GT_ve c_gterm_GT_col : c_eq.
