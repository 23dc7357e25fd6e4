(** The abstract syntax (ADQL::Query_Specification and everything below it) and
    the [empty()] member functions.

    Simplifications, all of representation only:
    - recursive_wrapper / one-field wrapper classes are collapsed (Value_Expression_Wrap,
      Value_Expression_Non_Bool_Wrap, Value_Expression_Primary_Wrap, Search_Condition_Wrap,
      Subquery_Wrap, Joined_Table_Wrap, Join_Suffix_Wrap, Table_Reference_Wrap,
      Query_Specification_Wrap, User_Defined_Function_Wrap; Trig_Function.hxx:10,
      Math_Function.hxx:11, Non_Predicate_Geometry_Function.hxx:10,
      Set_Function_Specification.hxx:9, Case_Expression.hxx:8, Case_Abbreviation.hxx:10,
      Case_Specification.hxx:10, Simple_Whens.hxx, Searched_Whens.hxx);
    - Table_Reference/Correlation_Join.hxx:12 is left out: no rule of the grammar builds one;
    - a default-constructed member that means "absent" (With, Having, Geometry,
      Search_Condition of a Where, Else_Clause, Join_Specification) is [None];
    - a [double] is represented by the lexeme it was read from. *)
From Verif Require Export Chars.

(** Column_Reference.hxx:8, Catalog_Schema_Qualifier_Column.hxx:11,
    Schema_Qualifier_Column.hxx:11, Qualifier_Column.hxx:11 *)
Inductive colref : Set :=
| CR4 (catalog schema qualifier column : text)
| CR3 (schema qualifier column : text)
| CR2 (qualifier column : text)
| CR1 (column : text).

(** Geometry/Column_or_Simple_Arithmetic_Expression.hxx:38,
    Binary_Arithmetic_Expression.hxx:11 *)
Inductive csae : Set :=
| CS_bae (arg0 : text) (op : text) (arg1 : text)
| CS_col (c : colref)
| CS_dbl (d : text).

(** Geometry/Coord_Sys.hxx:8 (the only Reference_Position is GEOCENTER) *)
Inductive frame : Set := ICRS | J2000 | GALACTIC.

(** Geometry/Coordinate.hxx:8 *)
Inductive coordinate : Set := Coord (ra dec : csae).

(** Geometry/Point.hxx, Circle.hxx, Box.hxx, Ellipse.hxx, Polygon.hxx, Shape.hxx:10 *)
Inductive shape : Set :=
| Sh_point (f : frame) (c : coordinate)
| Sh_circle (f : frame) (c : coordinate) (r : csae)
| Sh_box (f : frame) (c : coordinate) (w h : csae)
| Sh_ellipse (f : frame) (c : coordinate) (a ratio rot : csae)
| Sh_polygon (f : frame) (cs : list coordinate).

(** Geometry/XXX_or_Column.hxx:10-11 *)
Inductive soc : Set := Soc_shape (s : shape) | Soc_col (c : colref).
Inductive poc : Set := Poc_point (f : frame) (c : coordinate) | Poc_col (c : colref).

(** Order_By/Sort_Specification.hxx:12, Sort_Key.hxx:6 *)
Inductive sort_key : Set := SK_col (c : colref) | SK_int (s : text).
Inductive sort_spec : Set := Sort (k : sort_key) (ordering : text).

(** Join_Suffix.hxx:11, Join_Suffix/Outer_Join.hxx:4; JT_plain [] is the default
    (no join type written). *)
Inductive jtype : Set := JTy_plain (s : text) | JTy_outer (s : text) (outer : bool).

Inductive ve : Set :=                                (* Value_Expression.hxx:7 *)
| VE_nb (v : venb)
| VE_sc (s : sc)
with venb : Set :=                                   (* Value_Expression_Non_Bool.hxx:6 *)
| VENB (f : factor) (ts : list vterm)
with vterm : Set :=                                  (* Value_Expression_Non_Bool_Term.hxx:6 *)
| VTerm (op : text) (f : factor)
with factor : Set :=                                 (* Factor.hxx:6 *)
| Factor (sign : text) (p : nprim)
with nprim : Set :=                                  (* Factor/Numeric_Primary.hxx:9 *)
| NP_vep (p : vep)
| NP_nvf (f : nvf)
with nvf : Set :=                                    (* .../Numeric_Value_Function.hxx:12 and the
                                                        classes of its variant *)
| NV_trig1 (f : text) (a : ve)                       (* Trig_One_Arg.hxx:12 *)
| NV_trig2 (f : text) (a b : ve)                     (* Trig_Two_Arg.hxx:12 *)
| NV_math0 (f : text)                                (* Math_Zero_Arg.hxx:10 *)
| NV_math1 (f : text) (a : ve)                       (* Math_One_Arg.hxx:12 *)
| NV_math2 (f : text) (a b : ve)                     (* Math_Two_Arg.hxx:12 *)
| NV_cast (a : ve) (as_ len : text)                  (* Cast_Function.hxx:12 *)
| NV_geo1 (f : text) (a : poc)                       (* Non_Predicate_Geometry_Function_One_Arg.hxx:5 *)
| NV_geo2 (f : text) (a b : poc)                     (* Non_Predicate_Geometry_Function_Two_Arg.hxx:5 *)
| NV_udf (f : text) (args : list ve)                 (* User_Defined_Function.hxx:12 *)
| NV_str (s : text)
with vep : Set :=                                    (* Value_Expression_Primary.hxx:15 *)
| VEP (v : vepv) (idx : list ve)
with vepv : Set :=                                   (* Value_Expression_Primary.hxx:17 *)
| VP_array (l : list ve)                             (* Array_Constructor.hxx:11; idx: Array_Index.hxx:12 *)
| VP_str (s : text)
| VP_col (c : colref)
| VP_setstr (s : text)                               (* COUNT( * ) *)
| VP_set (ty quant : text) (a : ve)                  (* General_Set_Function.hxx:6, General_Set_Args.hxx:11 *)
| VP_nullif (a b : ve)                               (* Nullif.hxx:12 *)
| VP_coalesce (l : list ve)                          (* Coalesce.hxx:12 *)
| VP_case (x : ve) (w : list swhen) (e : option result)     (* Simple_Case.hxx:8 *)
| VP_scase (w : list qwhen) (e : option result)             (* Searched_Case.hxx:8 *)
| VP_any (a : ve)                                    (* Any_Expression.hxx:12 *)
| VP_sub (a : ve)                                    (* Value_Subexpression.hxx:12 *)
with swhen : Set := SWhen (a : ve) (r : result)             (* Simple_When.hxx:6 *)
with qwhen : Set := QWhen (c : sc) (r : result)             (* Searched_When.hxx:7 *)
with result : Set := Res_str (s : text) | Res_ve (a : ve)   (* Result.hxx:14 *)
with sc : Set :=                                     (* Search_Condition.hxx:7 *)
| SC_f (f : bfac)
| SC_t (f : bfac) (op : text) (s : sc)               (* Boolean_Term.hxx:9 *)
with bfac : Set := BF (Not : text) (p : bprim)       (* Boolean_Factor.hxx:6 *)
with bprim : Set :=                                  (* Boolean_Primary.hxx:8 *)
| BP_pred (p : pred)
| BP_sc (s : sc)
| BP_val (v : venb)
with pred : Set :=                                   (* Predicate.hxx:12 *)
| P_cmp (l : venb) (op : text) (r : ve)              (* Comparison_Predicate.hxx:13 *)
| P_between (v : venb) (Not : text) (lo hi : ve)     (* Between_Predicate.hxx:13 *)
| P_in (v : venb) (Not : text) (t : intarget)        (* In_Predicate.hxx:15 *)
| P_null (v : venb) (Not : text)                     (* Null_Predicate.hxx:12 *)
| P_like (v : venb) (Not : text) (p : ve)            (* Like_Predicate.hxx:13 *)
| P_exists (q : subq)                                (* Exists_Predicate.hxx:12 *)
with intarget : Set := In_sub (q : subq) | In_list (l : list ve)
with subq : Set := SQ_jt (j : jt) | SQ_q (q : qspec)         (* Subquery.hxx:11 *)
with jt : Set := JT_q (q : qjoin) | JT_p (j : jt)            (* Joined_Table.hxx:8 *)
with qjoin : Set := QJ (h : qjhead) (s : list jsuf)          (* Qualified_Join.hxx:9 *)
with qjhead : Set := QH_tc (name as_ : text) | QH_jt (j : jt)
with jsuf : Set :=                                           (* Join_Suffix.hxx:8 *)
| JS (natural : bool) (ty : jtype) (t : tref) (sp : option jspec)
with jspec : Set := JSp_using (l : list text) | JSp_on (s : sc)   (* Join_Specification.hxx:8 *)
with tref : Set :=                                           (* Table_Reference.hxx:14 *)
| TR_tc (name as_ : text)
| TR_jt (j : jt)
| TR_dc (q : subq) (as_ : text)
| TR_tvf (f : text) (args : list text)
with qspec : Set :=                                          (* Query_Specification.hxx:12,
                                                                Select_From_Where_List.hxx:29 *)
| QS (w : option withc) (init : sfw) (addons : list addon)   (* Group_By.hxx:8, Having.hxx:6, Order_By.hxx:8 *)
     (group_by : list gterm) (having : option sc) (order_by : list sort_spec)
with withc : Set := With (name : text) (cols : list text) (q : subq)   (* With.hxx:6 *)
with addon : Set := Addon (op : text) (s : sfw)                        (* SFW_Addon *)
with sfw : Set := SFW (s : select) (ts : list tref) (w : wherec)       (* Select_From_Where.hxx:10 *)
with wherec : Set := Where (g : option geom) (s : option sc)           (* Where.hxx:8 *)
with geom : Set :=                                                     (* Geometry.hxx:9 *)
| G_left (flag : text) (p : gpred)
| G_right (p : gpred) (flag : text)
with gpred : Set :=
| GP_intersects (e : ve) (s : soc)                                     (* Intersects.hxx:9 *)
| GP_contains (a b : soc)                                              (* Contains.hxx:9 *)
with select : Set := Select (q : text) (top : N) (c : columns)         (* Select.hxx:10 *)
with columns : Set := C_star (s : text) | C_list (l : list colv)
with colv : Set :=                                                     (* As.hxx:6, Non_As.hxx:6 *)
| CV_as (e : ve) (a : text)
| CV_star (s : text)
| CV_ve (e : ve)
with gterm : Set := GT_ve (e : ve) | GT_col (c : colref).              (* Group_By_Term.hxx:7 *)

(** std::numeric_limits<size_t>::max(), Select.hxx:17 *)
Definition top_none : N := (2 ^ 64 - 1)%N.

(** * The empty() members. *)

(** Column references under Empty_Visitor (empty_variant.hxx:6-17) *)
Definition colref_empty (c : colref) : bool :=
  match c with CR4 _ _ _ c => is_nil c | CR3 _ _ c => is_nil c | CR2 _ c => is_nil c
             | CR1 c => is_nil c end.

(** Column_or_Simple_Arithmetic_Expression.hxx:15-21: boost::variant::empty() is
    constantly false, hence so is this. *)
Definition csae_empty (c : csae) : bool := false.
Definition coordinate_empty (c : coordinate) : bool :=
  match c with Coord ra _ => csae_empty ra end.
(** Point.hxx:12, Circle.hxx:14, Box.hxx:14, Ellipse.hxx:14, Polygon.hxx:13 *)
Definition shape_empty (s : shape) : bool :=
  match s with
  | Sh_point _ c => coordinate_empty c
  | Sh_circle _ c _ => coordinate_empty c
  | Sh_box _ c _ _ => coordinate_empty c
  | Sh_ellipse _ c _ _ _ => coordinate_empty c
  | Sh_polygon _ cs => is_nil cs
  end.
Definition soc_empty (s : soc) : bool :=
  match s with Soc_shape s => shape_empty s | Soc_col c => colref_empty c end.

Definition nvf_empty (f : nvf) : bool :=              (* Numeric_Value_Function/empty.cxx:5 *)
  match f with
  | NV_trig1 f _ => is_nil f | NV_trig2 f _ _ => is_nil f
  | NV_math0 f => is_nil f | NV_math1 f _ => is_nil f | NV_math2 f _ _ => is_nil f
  | NV_cast _ a _ => is_nil a
  | NV_geo1 f _ => is_nil f | NV_geo2 f _ _ => is_nil f
  | NV_udf f _ => is_nil f
  | NV_str s => is_nil s
  end.

Definition sfw_empty (s : sfw) : bool :=              (* Select_From_Where.hxx:16; Select::empty() calls
                                                   boost::variant::empty(), i.e. false *)
  match s with SFW _ ts _ => is_nil ts end.
Definition qspec_empty (q : qspec) : bool :=          (* Query_Specification.hxx:20,
                                                   Select_From_Where_List.hxx:35 *)
  match q with QS _ i _ _ _ _ => sfw_empty i end.

Fixpoint jt_empty (j : jt) : bool :=                (* Joined_Table.hxx:12 *)
  match j with JT_q q => qjoin_empty q | JT_p j => jt_empty j end
with qjoin_empty (q : qjoin) : bool :=          (* Qualified_Join.hxx:14 *)
  match q with QJ h _ => qjhead_empty h end
with qjhead_empty (h : qjhead) : bool :=        (* Table_Correlation.hxx:12 *)
  match h with QH_tc n _ => is_nil n | QH_jt j => jt_empty j end.

Definition subq_empty (q : subq) : bool :=            (* Subquery/empty.cxx:5 *)
  match q with SQ_jt j => jt_empty j | SQ_q q => qspec_empty q end.

Fixpoint ve_empty (v : ve) : bool :=            (* Value_Expression/empty.cxx:5 *)
  match v with VE_nb v => venb_empty v | VE_sc s => sc_empty s end
with venb_empty (v : venb) : bool :=            (* Value_Expression_Non_Bool.hxx:10 *)
  match v with VENB f _ => factor_empty f end
with factor_empty (f : factor) : bool :=        (* Factor.hxx:10 *)
  match f with Factor _ p => nprim_empty p end
with nprim_empty (p : nprim) : bool :=          (* Numeric_Primary/empty.cxx:5 *)
  match p with NP_vep p => vep_empty p | NP_nvf f => nvf_empty f end
with vep_empty (v : vep) : bool :=              (* Value_Expression_Primary.hxx:23 *)
  match v with VEP v _ => vepv_empty v end
with vepv_empty (v : vepv) : bool :=
  match v with
  | VP_array l => is_nil l
  | VP_str s => is_nil s
  | VP_col c => colref_empty c
  | VP_setstr s => is_nil s
  | VP_set ty _ _ => is_nil ty
  | VP_nullif a _ => ve_empty a
  | VP_coalesce l => is_nil l
  | VP_case x _ _ => ve_empty x
  | VP_scase w _ => is_nil w
  | VP_any a => ve_empty a
  | VP_sub a => ve_empty a
  end
with sc_empty (s : sc) : bool :=                (* Search_Condition.hxx:12, Boolean_Term.hxx:14 *)
  match s with SC_f f => bfac_empty f | SC_t _ op _ => is_nil op end
with bfac_empty (f : bfac) : bool :=            (* Boolean_Factor.hxx:10 *)
  match f with BF _ p => bprim_empty p end
with bprim_empty (p : bprim) : bool :=          (* Boolean_Primary/empty.cxx:6 *)
  match p with BP_pred p => pred_empty p | BP_sc s => sc_empty s | BP_val v => venb_empty v end
with pred_empty (p : pred) : bool :=            (* Predicate.hxx:18 and the six classes *)
  match p with
  | P_cmp _ op _ => is_nil op
  | P_between v _ _ _ => venb_empty v
  | P_in v _ _ => venb_empty v
  | P_null v _ => venb_empty v
  | P_like v _ _ => venb_empty v
  | P_exists q => subq_empty q
  end.

Definition result_empty (r : result) : bool :=  (* Result/empty.cxx:4, Else_Clause.hxx:9 *)
  match r with Res_str s => is_nil s | Res_ve a => ve_empty a end.

Definition gpred_empty (p : gpred) : bool :=    (* Intersects.hxx:14, Contains.hxx:14 *)
  match p with
  | GP_intersects e _ => ve_empty e
  | GP_contains a b => soc_empty a || soc_empty b
  end.
Definition geom_empty (g : geom) : bool :=      (* Geometry.hxx:16,22,28 *)
  match g with G_left _ p => gpred_empty p | G_right p _ => gpred_empty p end.

(** A member that may be absent (default constructed) is empty when absent. *)
Definition opt_empty {A} (f : A -> bool) (o : option A) : bool :=
  match o with None => true | Some x => f x end.

Definition where_empty (w : wherec) : bool :=   (* Where.hxx:12 *)
  match w with Where g s => opt_empty geom_empty g && opt_empty sc_empty s end.
Definition with_empty (w : withc) : bool :=     (* With.hxx:12 *)
  match w with With n _ q => is_nil n && subq_empty q end.
Definition jspec_empty (j : jspec) : bool :=    (* Join_Specification.hxx:12, Named_Columns_Join.hxx:8,
                                                   Join_Condition.hxx:11 *)
  match j with JSp_using l => is_nil l | JSp_on s => sc_empty s end.
