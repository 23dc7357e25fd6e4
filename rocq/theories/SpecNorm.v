(** The query that the text of a query stands for: connectives, NOT and UNION in upper case, the flag
    of a geometry on the right, numbers as they are written.  [normal fmt q] is written like [q]
    (NormProofs.v), and it is what reading the text of [q] gives (C13). *)
From Verif Require Import Chars Ast Print.

Section Norm.
Variable fmt : text -> text.
Definition n_csae (c : csae) : csae :=
  match c with CS_bae a op b => CS_bae (fmt a) op (fmt b) | CS_col c => CS_col c | CS_dbl d => CS_dbl (fmt d) end.
Definition n_coord (c : coordinate) : coordinate := match c with Coord a b => Coord (n_csae a) (n_csae b) end.
Definition n_shape (s : shape) : shape :=
  match s with
  | Sh_point f c => Sh_point f (n_coord c)
  | Sh_circle f c r => Sh_circle f (n_coord c) (n_csae r)
  | Sh_box f c w h => Sh_box f (n_coord c) (n_csae w) (n_csae h)
  | Sh_ellipse f c a b r => Sh_ellipse f (n_coord c) (n_csae a) (n_csae b) (n_csae r)
  | Sh_polygon f cs => Sh_polygon f (map n_coord cs)
  end.
Definition n_soc (s : soc) : soc := match s with Soc_shape s => Soc_shape (n_shape s) | Soc_col c => Soc_col c end.
Definition n_poc (s : poc) : poc := match s with Poc_point f c => Poc_point f (n_coord c) | Poc_col c => Poc_col c end.
(** some spelling of NOT *)
Definition n_not (w : string) (n : text) : text := if is_nil n then [] else L w.

Fixpoint n_ve (v : ve) : ve := match v with VE_nb v => VE_nb (n_venb v) | VE_sc s => VE_sc (n_sc s) end
with n_venb (v : venb) : venb := match v with VENB f ts => VENB (n_factor f) (map n_vterm ts) end
with n_vterm (t : vterm) : vterm := match t with VTerm op f => VTerm op (n_factor f) end
with n_factor (f : factor) : factor := match f with Factor s p => Factor s (n_nprim p) end
with n_nprim (p : nprim) : nprim := match p with NP_vep v => NP_vep (n_vep v) | NP_nvf f => NP_nvf (n_nvf f) end
with n_nvf (f : nvf) : nvf :=
  match f with
  | NV_trig1 f a => NV_trig1 f (n_ve a)
  | NV_trig2 f a b => NV_trig2 f (n_ve a) (n_ve b)
  | NV_math0 f => NV_math0 f
  | NV_math1 f a => NV_math1 f (n_ve a)
  | NV_math2 f a b => NV_math2 f (n_ve a) (n_ve b)
  | NV_cast a t n => NV_cast (n_ve a) t n
  | NV_geo1 f a => NV_geo1 f (n_poc a)
  | NV_geo2 f a b => NV_geo2 f (n_poc a) (n_poc b)
  | NV_udf f l => NV_udf f (map n_ve l)
  | NV_str s => NV_str s
  end
with n_vep (v : vep) : vep := match v with VEP v idx => VEP (n_vepv v) (map n_ve idx) end
with n_vepv (v : vepv) : vepv :=
  match v with
  | VP_array l => VP_array (map n_ve l)
  | VP_str s => VP_str s
  | VP_col c => VP_col c
  | VP_setstr s => VP_setstr s
  | VP_set ty q a => VP_set ty q (n_ve a)
  | VP_nullif a b => VP_nullif (n_ve a) (n_ve b)
  | VP_coalesce l => VP_coalesce (map n_ve l)
  | VP_case x w e => VP_case (n_ve x) (map n_swhen w) (match e with Some r => Some (n_result r) | None => None end)
  | VP_scase w e => VP_scase (map n_qwhen w) (match e with Some r => Some (n_result r) | None => None end)
  | VP_any a => VP_any (n_ve a)
  | VP_sub a => VP_sub (n_ve a)
  end
with n_swhen (w : swhen) : swhen := match w with SWhen a r => SWhen (n_ve a) (n_result r) end
with n_qwhen (w : qwhen) : qwhen := match w with QWhen c r => QWhen (n_sc c) (n_result r) end
with n_result (r : result) : result := match r with Res_str s => Res_str s | Res_ve a => Res_ve (n_ve a) end
with n_sc (s : sc) : sc := match s with SC_f f => SC_f (n_bfac f) | SC_t f op s => SC_t (n_bfac f) (upper op) (n_sc s) end
with n_bfac (f : bfac) : bfac := match f with BF n p => BF n (n_bprim p) end
with n_bprim (p : bprim) : bprim := match p with BP_pred p => BP_pred (n_pred p) | BP_sc s => BP_sc (n_sc s) | BP_val v => BP_val (n_venb v) end
with n_pred (p : pred) : pred :=
  match p with
  | P_cmp l op r => P_cmp (n_venb l) op (n_ve r)
  | P_between v n lo hi => P_between (n_venb v) n (n_ve lo) (n_ve hi)
  | P_in v n t => P_in (n_venb v) (n_not "NOT " n) (n_intarget t)
  | P_null v n => P_null (n_venb v) (n_not "NOT" n)
  | P_like v n p => P_like (n_venb v) (n_not "NOT" n) (n_ve p)
  | P_exists q => P_exists (n_subq q)
  end
with n_intarget (t : intarget) : intarget := match t with In_sub q => In_sub (n_subq q) | In_list l => In_list (map n_ve l) end
with n_subq (q : subq) : subq := match q with SQ_jt j => SQ_jt (n_jt j) | SQ_q q => SQ_q (n_qspec q) end
with n_jt (j : jt) : jt := match j with JT_q q => JT_q (n_qjoin q) | JT_p j => JT_p (n_jt j) end
with n_qjoin (q : qjoin) : qjoin := match q with QJ h ss => QJ (n_qjhead h) (map n_jsuf ss) end
with n_qjhead (h : qjhead) : qjhead := match h with QH_tc n a => QH_tc n a | QH_jt j => QH_jt (n_jt j) end
with n_jsuf (s : jsuf) : jsuf := match s with JS nat ty t sp => JS nat ty (n_tref t) (match sp with Some s => Some (n_jspec s) | None => None end) end
with n_jspec (s : jspec) : jspec := match s with JSp_using l => JSp_using l | JSp_on s => JSp_on (n_sc s) end
with n_tref (t : tref) : tref :=
  match t with TR_tc n a => TR_tc n a | TR_jt j => TR_jt (n_jt j) | TR_dc q a => TR_dc (n_subq q) a | TR_tvf f args => TR_tvf f args end
with n_qspec (q : qspec) : qspec :=
  match q with
  | QS w i ad g h o => QS (match w with Some w => Some (n_with w) | None => None end) (n_sfw i) (map n_addon ad) (map n_gterm g) (match h with Some s => Some (n_sc s) | None => None end) o
  end
with n_with (w : withc) : withc := match w with With n cols q => With n cols (n_subq q) end
with n_addon (a : addon) : addon := match a with Addon op s => Addon (upper op) (n_sfw s) end
with n_sfw (s : sfw) : sfw := match s with SFW s ts w => SFW (n_select s) (map n_tref ts) (n_where w) end
with n_where (w : wherec) : wherec :=
  match w with Where g s => Where (match g with Some g => Some (n_geom g) | None => None end) (match s with Some s => Some (n_sc s) | None => None end) end
with n_geom (g : geom) : geom := match g with G_left fl p => G_right (n_gpred p) fl | G_right p fl => G_right (n_gpred p) fl end
with n_gpred (p : gpred) : gpred := match p with GP_intersects e s => GP_intersects (n_ve e) (n_soc s) | GP_contains a b => GP_contains (n_soc a) (n_soc b) end
with n_select (s : select) : select := match s with Select q top c => Select q top (n_columns c) end
with n_columns (c : columns) : columns := match c with C_star s => C_star s | C_list l => C_list (map n_colv l) end
with n_colv (c : colv) : colv := match c with CV_as e a => CV_as (n_ve e) a | CV_star s => CV_star s | CV_ve e => CV_ve (n_ve e) end
with n_gterm (g : gterm) : gterm := match g with GT_ve e => GT_ve (n_ve e) | GT_col c => GT_col c end.
Definition normal (q : qspec) : qspec := n_qspec q.
End Norm.
