(** Specification of "the same text up to letter case" (property C12). *)
From Verif Require Import Ast SpecLexical.

(** Two bytes that differ at most in letter case (ASCII letters only). *)
Definition same_letter (c d : ascii) : Prop :=
  c = d \/
  (exists n, (65 <= n <= 90)%N /\
     ((code c = n /\ code d = (n + 32)%N) \/ (code d = n /\ code c = (n + 32)%N))).
Definition respelled (t t' : text) : Prop := Forall2 same_letter t t'.

(** The one place where the parser compares letters exactly: the schema name TAP_UPLOAD and
    the table name behind it, which is looked up in the mapping.  [uploads_kept t t']: wherever
    [t] has "TAP_UPLOAD." so has [t'], with the same table name behind it. *)
Definition uploads_kept (t t' : text) : Prop :=
  forall a b, t = a ++ L "TAP_UPLOAD." ++ b ->
  exists a' b', t' = a' ++ L "TAP_UPLOAD." ++ b' /\ length a' = length a /\
    (forall n k, b = n ++ k -> identifier_before k n -> exists k', b' = n ++ k').

(** Apply [f] to every text of a query. *)
Section Texts.
Variable f : text -> text.
Definition tx_colref (c : colref) : colref :=
  match c with
  | CR4 a b c d => CR4 (f a) (f b) (f c) (f d) | CR3 b c d => CR3 (f b) (f c) (f d)
  | CR2 c d => CR2 (f c) (f d) | CR1 d => CR1 (f d)
  end.
Definition tx_csae (c : csae) : csae :=
  match c with
  | CS_bae a o b => CS_bae (f a) (f o) (f b) | CS_col c => CS_col (tx_colref c) | CS_dbl d => CS_dbl (f d)
  end.
Definition tx_coord (c : coordinate) : coordinate :=
  match c with Coord a b => Coord (tx_csae a) (tx_csae b) end.
Definition tx_shape (s : shape) : shape :=
  match s with
  | Sh_point fr c => Sh_point fr (tx_coord c)
  | Sh_circle fr c r => Sh_circle fr (tx_coord c) (tx_csae r)
  | Sh_box fr c w h => Sh_box fr (tx_coord c) (tx_csae w) (tx_csae h)
  | Sh_ellipse fr c a b r => Sh_ellipse fr (tx_coord c) (tx_csae a) (tx_csae b) (tx_csae r)
  | Sh_polygon fr cs => Sh_polygon fr (map tx_coord cs)
  end.
Definition tx_soc (s : soc) : soc :=
  match s with Soc_shape s => Soc_shape (tx_shape s) | Soc_col c => Soc_col (tx_colref c) end.
Definition tx_poc (s : poc) : poc :=
  match s with Poc_point fr c => Poc_point fr (tx_coord c) | Poc_col c => Poc_col (tx_colref c) end.
Definition tx_sort_key (k : sort_key) : sort_key :=
  match k with SK_col c => SK_col (tx_colref c) | SK_int s => SK_int (f s) end.
Definition tx_sort (s : sort_spec) : sort_spec :=
  match s with Sort k o => Sort (tx_sort_key k) (f o) end.
Definition tx_jtype (j : jtype) : jtype :=
  match j with JTy_plain s => JTy_plain (f s) | JTy_outer s o => JTy_outer (f s) o end.

Fixpoint tx_ve (v : ve) : ve :=
  match v with VE_nb v => VE_nb (tx_venb v) | VE_sc s => VE_sc (tx_sc s) end
with tx_venb (v : venb) : venb :=
  match v with VENB a ts => VENB (tx_factor a) (map tx_vterm ts) end
with tx_vterm (t : vterm) : vterm := match t with VTerm o a => VTerm (f o) (tx_factor a) end
with tx_factor (a : factor) : factor := match a with Factor s p => Factor (f s) (tx_nprim p) end
with tx_nprim (p : nprim) : nprim :=
  match p with NP_vep p => NP_vep (tx_vep p) | NP_nvf p => NP_nvf (tx_nvf p) end
with tx_nvf (p : nvf) : nvf :=
  match p with
  | NV_trig1 g a => NV_trig1 (f g) (tx_ve a)
  | NV_trig2 g a b => NV_trig2 (f g) (tx_ve a) (tx_ve b)
  | NV_math0 g => NV_math0 (f g)
  | NV_math1 g a => NV_math1 (f g) (tx_ve a)
  | NV_math2 g a b => NV_math2 (f g) (tx_ve a) (tx_ve b)
  | NV_cast a t n => NV_cast (tx_ve a) (f t) (f n)
  | NV_geo1 g a => NV_geo1 (f g) (tx_poc a)
  | NV_geo2 g a b => NV_geo2 (f g) (tx_poc a) (tx_poc b)
  | NV_udf g l => NV_udf (f g) (map tx_ve l)
  | NV_str s => NV_str (f s)
  end
with tx_vep (v : vep) : vep := match v with VEP v i => VEP (tx_vepv v) (map tx_ve i) end
with tx_vepv (v : vepv) : vepv :=
  match v with
  | VP_array l => VP_array (map tx_ve l)
  | VP_str s => VP_str (f s)
  | VP_col c => VP_col (tx_colref c)
  | VP_setstr s => VP_setstr (f s)
  | VP_set t q a => VP_set (f t) (f q) (tx_ve a)
  | VP_nullif a b => VP_nullif (tx_ve a) (tx_ve b)
  | VP_coalesce l => VP_coalesce (map tx_ve l)
  | VP_case x w e => VP_case (tx_ve x) (map tx_swhen w) (option_map tx_result e)
  | VP_scase w e => VP_scase (map tx_qwhen w) (option_map tx_result e)
  | VP_any a => VP_any (tx_ve a)
  | VP_sub a => VP_sub (tx_ve a)
  end
with tx_swhen (w : swhen) : swhen := match w with SWhen a r => SWhen (tx_ve a) (tx_result r) end
with tx_qwhen (w : qwhen) : qwhen := match w with QWhen c r => QWhen (tx_sc c) (tx_result r) end
with tx_result (r : result) : result :=
  match r with Res_str s => Res_str (f s) | Res_ve a => Res_ve (tx_ve a) end
with tx_sc (s : sc) : sc :=
  match s with SC_f a => SC_f (tx_bfac a) | SC_t a o s => SC_t (tx_bfac a) (f o) (tx_sc s) end
with tx_bfac (a : bfac) : bfac := match a with BF n p => BF (f n) (tx_bprim p) end
with tx_bprim (p : bprim) : bprim :=
  match p with BP_pred p => BP_pred (tx_pred p) | BP_sc s => BP_sc (tx_sc s) | BP_val v => BP_val (tx_venb v) end
with tx_pred (p : pred) : pred :=
  match p with
  | P_cmp l o r => P_cmp (tx_venb l) (f o) (tx_ve r)
  | P_between v n a b => P_between (tx_venb v) (f n) (tx_ve a) (tx_ve b)
  | P_in v n t => P_in (tx_venb v) (f n) (tx_intarget t)
  | P_null v n => P_null (tx_venb v) (f n)
  | P_like v n p => P_like (tx_venb v) (f n) (tx_ve p)
  | P_exists q => P_exists (tx_subq q)
  end
with tx_intarget (t : intarget) : intarget :=
  match t with In_sub q => In_sub (tx_subq q) | In_list l => In_list (map tx_ve l) end
with tx_subq (q : subq) : subq :=
  match q with SQ_jt j => SQ_jt (tx_jt j) | SQ_q q => SQ_q (tx_qspec q) end
with tx_jt (j : jt) : jt := match j with JT_q q => JT_q (tx_qjoin q) | JT_p j => JT_p (tx_jt j) end
with tx_qjoin (q : qjoin) : qjoin := match q with QJ h s => QJ (tx_qjhead h) (map tx_jsuf s) end
with tx_qjhead (h : qjhead) : qjhead :=
  match h with QH_tc n a => QH_tc (f n) (f a) | QH_jt j => QH_jt (tx_jt j) end
with tx_jsuf (s : jsuf) : jsuf :=
  match s with JS n t r sp => JS n (tx_jtype t) (tx_tref r) (option_map tx_jspec sp) end
with tx_jspec (s : jspec) : jspec :=
  match s with JSp_using l => JSp_using (map f l) | JSp_on s => JSp_on (tx_sc s) end
with tx_tref (t : tref) : tref :=
  match t with
  | TR_tc n a => TR_tc (f n) (f a)
  | TR_jt j => TR_jt (tx_jt j)
  | TR_dc q a => TR_dc (tx_subq q) (f a)
  | TR_tvf g l => TR_tvf (f g) (map f l)
  end
with tx_qspec (q : qspec) : qspec :=
  match q with
  | QS w i ad g h o =>
      QS (option_map tx_with w) (tx_sfw i) (map tx_addon ad) (map tx_gterm g) (option_map tx_sc h) (map tx_sort o)
  end
with tx_with (w : withc) : withc := match w with With n c q => With (f n) (map f c) (tx_subq q) end
with tx_addon (a : addon) : addon := match a with Addon o s => Addon (f o) (tx_sfw s) end
with tx_sfw (s : sfw) : sfw := match s with SFW s ts w => SFW (tx_select s) (map tx_tref ts) (tx_where w) end
with tx_where (w : wherec) : wherec :=
  match w with Where g s => Where (option_map tx_geom g) (option_map tx_sc s) end
with tx_geom (g : geom) : geom :=
  match g with G_left fl p => G_left (f fl) (tx_gpred p) | G_right p fl => G_right (tx_gpred p) (f fl) end
with tx_gpred (p : gpred) : gpred :=
  match p with
  | GP_intersects e s => GP_intersects (tx_ve e) (tx_soc s)
  | GP_contains a b => GP_contains (tx_soc a) (tx_soc b)
  end
with tx_select (s : select) : select := match s with Select q t c => Select (f q) t (tx_columns c) end
with tx_columns (c : columns) : columns :=
  match c with C_star s => C_star (f s) | C_list l => C_list (map tx_colv l) end
with tx_colv (c : colv) : colv :=
  match c with CV_as e a => CV_as (tx_ve e) (f a) | CV_star s => CV_star (f s) | CV_ve e => CV_ve (tx_ve e) end
with tx_gterm (g : gterm) : gterm :=
  match g with GT_ve e => GT_ve (tx_ve e) | GT_col c => GT_col (tx_colref c) end.
End Texts.

(** The same structure, and the same texts up to letter case. *)
Definition same_structure (q q' : qspec) : Prop := tx_qspec upper q = tx_qspec upper q'.
