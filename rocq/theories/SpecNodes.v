(** All the parts of a query, at any depth. *)
From Verif Require Import Chars Ast.

Inductive node : Set :=
| N_ve (v : ve) | N_venb (v : venb) | N_vterm (v : vterm) | N_factor (v : factor) | N_nprim (v : nprim)
| N_nvf (v : nvf) | N_vep (v : vep) | N_vepv (v : vepv) | N_swhen (v : swhen) | N_qwhen (v : qwhen)
| N_result (v : result) | N_sc (v : sc) | N_bfac (v : bfac) | N_bprim (v : bprim) | N_pred (v : pred)
| N_intarget (v : intarget) | N_subq (v : subq) | N_jt (v : jt) | N_qjhead (v : qjhead)
| N_jsuf (v : jsuf) | N_jspec (v : jspec) | N_tref (v : tref) | N_qspec (v : qspec) | N_with (v : withc)
| N_addon (v : addon) | N_sfw (v : sfw) | N_where (v : wherec) | N_geom (v : geom) | N_gpred (v : gpred)
| N_select (v : select) | N_columns (v : columns) | N_colv (v : colv) | N_gterm (v : gterm)
| N_sort (v : sort_spec) | N_soc (v : soc) | N_poc (v : poc).

Definition onodes {A} (f : A -> list node) (o : option A) : list node :=
  match o with Some x => f x | None => [] end.

Fixpoint nodes_ve (v : ve) : list node :=
  N_ve v :: match v with VE_nb v => nodes_venb v | VE_sc s => nodes_sc s end
with nodes_venb (v : venb) : list node :=
  N_venb v :: match v with VENB f ts => nodes_factor f ++ flat_map nodes_vterm ts end
with nodes_vterm (t : vterm) : list node :=
  N_vterm t :: match t with VTerm _ f => nodes_factor f end
with nodes_factor (f : factor) : list node :=
  N_factor f :: match f with Factor _ p => nodes_nprim p end
with nodes_nprim (p : nprim) : list node :=
  N_nprim p :: match p with NP_vep p => nodes_vep p | NP_nvf f => nodes_nvf f end
with nodes_nvf (f : nvf) : list node :=
  N_nvf f ::
  match f with
  | NV_trig1 _ a => nodes_ve a
  | NV_trig2 _ a b => nodes_ve a ++ nodes_ve b
  | NV_math0 _ => []
  | NV_math1 _ a => nodes_ve a
  | NV_math2 _ a b => nodes_ve a ++ nodes_ve b
  | NV_cast a _ _ => nodes_ve a
  | NV_geo1 _ a => [N_poc a]
  | NV_geo2 _ a b => [N_poc a; N_poc b]
  | NV_udf _ args => flat_map nodes_ve args
  | NV_str _ => []
  end
with nodes_vep (v : vep) : list node :=
  N_vep v :: match v with VEP v idx => nodes_vepv v ++ flat_map nodes_ve idx end
with nodes_vepv (v : vepv) : list node :=
  N_vepv v ::
  match v with
  | VP_array l => flat_map nodes_ve l
  | VP_str _ | VP_col _ | VP_setstr _ => []
  | VP_set _ _ a => nodes_ve a
  | VP_nullif a b => nodes_ve a ++ nodes_ve b
  | VP_coalesce l => flat_map nodes_ve l
  | VP_case x w e => nodes_ve x ++ flat_map nodes_swhen w ++ onodes nodes_result e
  | VP_scase w e => flat_map nodes_qwhen w ++ onodes nodes_result e
  | VP_any a => nodes_ve a
  | VP_sub a => nodes_ve a
  end
with nodes_swhen (w : swhen) : list node :=
  N_swhen w :: match w with SWhen a r => nodes_ve a ++ nodes_result r end
with nodes_qwhen (w : qwhen) : list node :=
  N_qwhen w :: match w with QWhen c r => nodes_sc c ++ nodes_result r end
with nodes_result (r : result) : list node :=
  N_result r :: match r with Res_str _ => [] | Res_ve a => nodes_ve a end
with nodes_sc (s : sc) : list node :=
  N_sc s :: match s with SC_f f => nodes_bfac f | SC_t f _ s' => nodes_bfac f ++ nodes_sc s' end
with nodes_bfac (f : bfac) : list node :=
  N_bfac f :: match f with BF _ p => nodes_bprim p end
with nodes_bprim (p : bprim) : list node :=
  N_bprim p :: match p with BP_pred p => nodes_pred p | BP_sc s => nodes_sc s | BP_val v => nodes_venb v end
with nodes_pred (p : pred) : list node :=
  N_pred p ::
  match p with
  | P_cmp l _ r => nodes_venb l ++ nodes_ve r
  | P_between v _ lo hi => nodes_venb v ++ nodes_ve lo ++ nodes_ve hi
  | P_in v _ t => nodes_venb v ++ nodes_intarget t
  | P_null v _ => nodes_venb v
  | P_like v _ p => nodes_venb v ++ nodes_ve p
  | P_exists q => nodes_subq q
  end
with nodes_intarget (t : intarget) : list node :=
  N_intarget t :: match t with In_sub q => nodes_subq q | In_list l => flat_map nodes_ve l end
with nodes_subq (q : subq) : list node :=
  N_subq q :: match q with SQ_jt j => nodes_jt j | SQ_q q => nodes_qspec q end
with nodes_jt (j : jt) : list node :=
  N_jt j :: match j with JT_q q => nodes_qjoin q | JT_p j => nodes_jt j end
with nodes_qjoin (q : qjoin) : list node :=
  match q with QJ h ss => nodes_qjhead h ++ flat_map nodes_jsuf ss end
with nodes_qjhead (h : qjhead) : list node :=
  N_qjhead h :: match h with QH_tc _ _ => [] | QH_jt j => nodes_jt j end
with nodes_jsuf (s : jsuf) : list node :=
  N_jsuf s :: match s with JS _ _ t sp => nodes_tref t ++ onodes nodes_jspec sp end
with nodes_jspec (s : jspec) : list node :=
  N_jspec s :: match s with JSp_using _ => [] | JSp_on s => nodes_sc s end
with nodes_tref (t : tref) : list node :=
  N_tref t ::
  match t with
  | TR_tc _ _ => []
  | TR_jt j => nodes_jt j
  | TR_dc q _ => nodes_subq q
  | TR_tvf _ _ => []
  end
with nodes_qspec (q : qspec) : list node :=
  N_qspec q ::
  match q with
  | QS w i ad g h o =>
      onodes nodes_with w ++ nodes_sfw i ++ flat_map nodes_addon ad ++ flat_map nodes_gterm g ++
      onodes nodes_sc h ++ map N_sort o
  end
with nodes_with (w : withc) : list node :=
  N_with w :: match w with With _ _ q => nodes_subq q end
with nodes_addon (a : addon) : list node :=
  N_addon a :: match a with Addon _ s => nodes_sfw s end
with nodes_sfw (s : sfw) : list node :=
  N_sfw s :: match s with SFW s ts w => nodes_select s ++ flat_map nodes_tref ts ++ nodes_where w end
with nodes_where (w : wherec) : list node :=
  N_where w :: match w with Where g s => onodes nodes_geom g ++ onodes nodes_sc s end
with nodes_geom (g : geom) : list node :=
  N_geom g :: match g with G_left _ p => nodes_gpred p | G_right p _ => nodes_gpred p end
with nodes_gpred (p : gpred) : list node :=
  N_gpred p ::
  match p with GP_intersects e s => nodes_ve e ++ [N_soc s] | GP_contains a b => [N_soc a; N_soc b] end
with nodes_select (s : select) : list node :=
  N_select s :: match s with Select _ _ c => nodes_columns c end
with nodes_columns (c : columns) : list node :=
  N_columns c :: match c with C_star _ => [] | C_list l => flat_map nodes_colv l end
with nodes_colv (c : colv) : list node :=
  N_colv c :: match c with CV_as e _ => nodes_ve e | CV_star _ => [] | CV_ve e => nodes_ve e end
with nodes_gterm (g : gterm) : list node :=
  N_gterm g :: match g with GT_ve e => nodes_ve e | GT_col _ => [] end.
