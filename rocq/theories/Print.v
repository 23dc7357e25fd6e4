(** The [operator<<] of every AST class.

    [fmt] stands for reading a numeric lexeme with qi::double_ and writing the
    double with [os << d]; its result depends on the precision of the stream. *)
From Verif Require Export Ast.

Section Print.
Variable fmt : text -> text.

Definition nl_sp (t : text) : text := if is_nil t then [] else t ++ L " ".

(** Column_Reference alternatives: Catalog_Schema_Qualifier_Column.hxx:17-20,
    Schema_Qualifier_Column.hxx:17-20, Qualifier_Column.hxx:17-20 *)
Definition pr_colref (c : colref) : text :=
  match c with
  | CR4 a b c d => a ++ L "." ++ b ++ L "." ++ c ++ L "." ++ d
  | CR3 b c d => b ++ L "." ++ c ++ L "." ++ d
  | CR2 c d => c ++ L "." ++ d
  | CR1 d => d
  end.

(** Binary_Arithmetic_Expression.hxx:38-40, Column_or_Simple_Arithmetic_Expression.hxx:58-60 *)
Definition pr_csae (c : csae) : text :=
  match c with
  | CS_bae a op b => fmt a ++ op ++ fmt b
  | CS_col c => pr_colref c
  | CS_dbl d => fmt d
  end.

(** Coord_Sys.hxx:18-47 *)
Definition pr_frame (f : frame) : text :=
  match f with J2000 => L "J2000" | ICRS => L "ICRS" | GALACTIC => L "GALACTIC" end.
Definition pr_coordsys (f : frame) : text := pr_frame f ++ L " " ++ L "GEOCENTER".

(** Coordinate.hxx:13-15 *)
Definition pr_coord (c : coordinate) : text :=
  match c with Coord a b => pr_csae a ++ L "," ++ pr_csae b end.

(** Point.hxx:15, Circle.hxx:17, Box.hxx:17, Ellipse.hxx:17, Polygon.hxx:16 *)
Definition pr_point (f : frame) (c : coordinate) : text :=
  L "POINT('" ++ pr_coordsys f ++ L "'," ++ pr_coord c ++ L ")".
Definition pr_shape (s : shape) : text :=
  match s with
  | Sh_point f c => pr_point f c
  | Sh_circle f c r =>
      L "CIRCLE('" ++ pr_coordsys f ++ L "'," ++ pr_coord c ++ L "," ++ pr_csae r ++ L ")"
  | Sh_box f c w h =>
      L "BOX('" ++ pr_coordsys f ++ L "'," ++ pr_coord c ++ L "," ++ pr_csae w ++ L "," ++
      pr_csae h ++ L ")"
  | Sh_ellipse f c a ra ro =>
      L "ELLIPSE('" ++ pr_coordsys f ++ L "'," ++ pr_coord c ++ L "," ++ pr_csae a ++ L "," ++
      pr_csae ra ++ L "," ++ pr_csae ro ++ L ")"
  | Sh_polygon f cs =>
      L "POLYGON('" ++ pr_coordsys f ++ L "'" ++
      concat (map (fun c => L "," ++ pr_coord c) cs) ++ L ")"
  end.
Definition pr_soc (s : soc) : text :=
  match s with Soc_shape s => pr_shape s | Soc_col c => pr_colref c end.
Definition pr_poc (s : poc) : text :=
  match s with Poc_point f c => pr_point f c | Poc_col c => pr_colref c end.

(** Sort_Specification.hxx:18-24 *)
Definition pr_sort (s : sort_spec) : text :=
  match s with
  | Sort k o => (match k with SK_col c => pr_colref c | SK_int s => s end) ++
                (if is_nil o then [] else L " " ++ o)
  end.

(** Outer_Join.hxx:10-13 *)
Definition pr_jtype (j : jtype) : text :=
  match j with
  | JTy_plain s => s
  | JTy_outer s o => s ++ (if o then L " OUTER" else [])
  end.

(** Table_Correlation.hxx:15-19 *)
Definition pr_tc (n a : text) : text := n ++ (if is_nil a then [] else L " " ++ a).

(** Table_Valued_Function.hxx:17-29 *)
Definition pr_tvf (f : text) (args : list text) : text :=
  L "table(" ++ f ++ L "(" ++ join (L ",") (map (fun a => L "'" ++ a ++ L "'") args) ++ L "))".

(** ostream_vector.hxx:7-16 *)
Definition pr_vector (l : list text) : text := L "(" ++ join (L ", ") l ++ L ")".

(** std::to_string(size_t) *)
Fixpoint pr_N_aux (fuel : nat) (n : N) (acc : text) : text :=
  match fuel with
  | O => acc
  | S fuel' =>
      let acc' := ascii_of_N (48 + n mod 10) :: acc in
      if (n / 10 =? 0)%N then acc' else pr_N_aux fuel' (n / 10)%N acc'
  end.
Definition pr_N (n : N) : text := pr_N_aux (S (N.to_nat (N.log2 n))) n [].

Fixpoint pr_ve (v : ve) : text :=                     (* Value_Expression/ostream.cxx:5 *)
  match v with VE_nb v => pr_venb v | VE_sc s => pr_sc s end
with pr_venb (v : venb) : text :=                     (* Value_Expression_Non_Bool.hxx:13 *)
  match v with VENB f ts => pr_factor f ++ concat (map pr_vterm ts) end
with pr_vterm (t : vterm) : text :=                   (* Value_Expression_Non_Bool_Term.hxx:13 *)
  match t with VTerm op f => op ++ pr_factor f end
with pr_factor (f : factor) : text :=                 (* Factor.hxx:13 *)
  match f with Factor s p => s ++ pr_nprim p end
with pr_nprim (p : nprim) : text :=                   (* Numeric_Primary/ostream.cxx:5 *)
  match p with NP_vep p => pr_vep p | NP_nvf f => pr_nvf f end
with pr_nvf (f : nvf) : text :=
  match f with
  | NV_trig1 f a => f ++ L "(" ++ pr_ve a ++ L ")"                  (* Trig_One_Arg.hxx:19 *)
  | NV_trig2 f a b => f ++ L "(" ++ pr_ve a ++ L "," ++ pr_ve b ++ L ")"   (* Trig_Two_Arg.hxx:19 *)
  | NV_math0 f => f ++ L "()"                                       (* Math_Zero_Arg.hxx:16 *)
  | NV_math1 f a => f ++ L "(" ++ pr_ve a ++ L ")"                  (* Math_One_Arg.hxx:19 *)
  | NV_math2 f a b => f ++ L "(" ++ pr_ve a ++ L "," ++ pr_ve b ++ L ")"   (* Math_Two_Arg.hxx:19 *)
  | NV_cast a as_ len =>                                            (* Cast_Function.hxx:20-27 *)
      L "CAST(" ++ pr_ve a ++ L " AS " ++ as_ ++
      (if is_nil len then [] else L "(" ++ len ++ L ")") ++ L ")"
  | NV_geo1 f a =>                             (* Non_Predicate_Geometry_Function_One_Arg.hxx:12 *)
      if is_nil f then [] else f ++ L "(" ++ pr_poc a ++ L ")"
  | NV_geo2 f a b =>                           (* Non_Predicate_Geometry_Function_Two_Arg.hxx:13 *)
      if is_nil f then [] else f ++ L "(" ++ pr_poc a ++ L "," ++ pr_poc b ++ L ")"
  | NV_udf f args => f ++ L "(" ++ join (L ",") (map pr_ve args) ++ L ")" (* User_Defined_Function.hxx:19 *)
  | NV_str s => s
  end
with pr_vep (v : vep) : text :=                       (* Value_Expression_Primary/ostream.cxx:4-11,
                                                         Array_Index.hxx:17 *)
  match v with
  | VEP v idx => pr_vepv v ++ concat (map (fun i => L "[" ++ pr_ve i ++ L "]") idx)
  end
with pr_vepv (v : vepv) : text :=
  match v with
  | VP_array l => L "ARRAY[" ++ join (L ",") (map pr_ve l) ++ L "]" (* Array_Constructor/ostream.cxx *)
  | VP_str s => s
  | VP_col c => pr_colref c
  | VP_setstr s => s
  | VP_set ty q a => ty ++ L "(" ++ nl_sp q ++ pr_ve a ++ L ")"     (* General_Set_Function.hxx:13,
                                                                       General_Set_Args.hxx:17 *)
  | VP_nullif a b => L "NULLIF(" ++ pr_ve a ++ L "," ++ pr_ve b ++ L ")"   (* Nullif/ostream.cxx:5 *)
  | VP_coalesce l => L "COALESCE(" ++ join (L ",") (map pr_ve l) ++ L ")"  (* Coalesce/ostream.cxx:5 *)
  | VP_case x w e =>                                                (* Simple_Case/ostream.cxx:5-11 *)
      L "CASE " ++ pr_ve x ++ L " " ++ concat (map (fun w => pr_swhen w ++ L " ") w) ++
      (match e with
       | None => []
       | Some r => if result_empty r then [] else L "ELSE " ++ pr_result r ++ L " "
       end) ++ L "END"
  | VP_scase w e =>                                                 (* Searched_Case.hxx:15-22 *)
      L "CASE " ++ concat (map (fun w => pr_qwhen w ++ L " ") w) ++
      (match e with
       | None => []
       | Some r => if result_empty r then [] else L "ELSE " ++ pr_result r ++ L " "
       end) ++ L "END"
  | VP_any a => L "ANY(" ++ pr_ve a ++ L ")"                        (* Any_Expression.hxx:18 *)
  | VP_sub a => L "(" ++ pr_ve a ++ L ")"                           (* Value_Subexpression.hxx:18 *)
  end
with pr_swhen (w : swhen) : text :=                                 (* Simple_When/ostream.cxx:5 *)
  match w with SWhen a r => L "WHEN " ++ pr_ve a ++ L " " ++ L "THEN " ++ pr_result r end
with pr_qwhen (w : qwhen) : text :=                                 (* Searched_When/ostream.cxx:5 *)
  match w with QWhen c r => L "WHEN " ++ pr_sc c ++ L " THEN " ++ pr_result r end
with pr_result (r : result) : text :=                               (* Result/ostream.cxx:5 *)
  match r with Res_str s => s | Res_ve a => pr_ve a end
with pr_sc (s : sc) : text :=                                       (* Search_Condition.hxx:15-19 *)
  if sc_empty s then [] else
  match s with
  | SC_f f => pr_bfac f
  | SC_t f op s' => pr_bfac f ++ L " " ++ upper op ++ L " " ++ pr_sc s'  (* Boolean_Term.hxx:17 *)
  end
with pr_bfac (f : bfac) : text :=                                   (* Boolean_Factor.hxx:13 *)
  match f with BF n p => nl_sp n ++ pr_bprim p end
with pr_bprim (p : bprim) : text :=                                 (* Boolean_Primary/ostream.cxx:14-21 *)
  match p with
  | BP_pred p => pr_pred p
  | BP_sc s => L "(" ++ pr_sc s ++ L ")"
  | BP_val v => pr_venb v
  end
with pr_pred (p : pred) : text :=
  match p with
  | P_cmp l op r => pr_venb l ++ L " " ++ op ++ L " " ++ pr_ve r    (* Comparison_Predicate/ostream.cxx:6 *)
  | P_between v n lo hi =>                                          (* Between_Predicate/ostream.cxx:6 *)
      pr_venb v ++ L " " ++ nl_sp n ++ L "BETWEEN " ++ pr_ve lo ++ L " AND " ++ pr_ve hi
  | P_in v n t =>                                                   (* In_Predicate/ostream.cxx:8 *)
      pr_venb v ++ L " " ++ (if is_nil n then [] else L "NOT ") ++ L "IN " ++ pr_intarget t
  | P_null v n =>                                                   (* Null_Predicate.hxx:19 *)
      pr_venb v ++ L " IS " ++ (if is_nil n then [] else L "NOT ") ++ L "NULL"
  | P_like v n p =>                                                 (* Like_Predicate/ostream.cxx:6 *)
      pr_venb v ++ (if is_nil n then L " " else L " NOT ") ++ L "LIKE " ++ pr_ve p
  | P_exists q => L "EXISTS " ++ pr_subq q                          (* Exists_Predicate/ostream.cxx:5 *)
  end
with pr_intarget (t : intarget) : text :=
  match t with In_sub q => pr_subq q | In_list l => pr_vector (map pr_ve l) end
with pr_subq (q : subq) : text :=                                   (* Subquery/ostream.cxx:6 *)
  L "(" ++ (match q with SQ_jt j => pr_jt j | SQ_q q => pr_qspec q end) ++ L ")"
with pr_jt (j : jt) : text :=                                       (* Joined_Table/ostream.cxx:12-24 *)
  match j with JT_q q => pr_qjoin q | JT_p j => L "(" ++ pr_jt j ++ L ")" end
with pr_qjoin (q : qjoin) : text :=                                 (* Qualified_Join/ostream.cxx:13-29 *)
  match q with
  | QJ h ss => pr_qjhead h ++ L " " ++ concat (map (fun s => pr_jsuf s ++ L " ") ss)
  end
with pr_qjhead (h : qjhead) : text :=
  match h with QH_tc n a => pr_tc n a | QH_jt j => pr_jt j end
with pr_jsuf (s : jsuf) : text :=                                   (* Join_Suffix.hxx:18-23 *)
  match s with
  | JS nat ty t sp =>
      (if nat then L "NATURAL " else []) ++ pr_jtype ty ++ L " " ++ L "JOIN " ++ pr_tref t ++
      (match sp with
       | None => []
       | Some sp => if jspec_empty sp then [] else L " " ++ pr_jspec sp
       end)
  end
with pr_jspec (s : jspec) : text :=                                 (* Join_Condition.hxx:14,
                                                                       Named_Columns_Join.hxx:11 *)
  match s with JSp_using l => L "USING " ++ pr_vector l | JSp_on s => L "ON " ++ pr_sc s end
with pr_tref (t : tref) : text :=                                   (* Table_Reference/ostream.cxx:7,
                                                                       Derived_Correlation.hxx:13 *)
  match t with
  | TR_tc n a => pr_tc n a
  | TR_jt j => pr_jt j
  | TR_dc q a => pr_subq q ++ (if is_nil a then [] else L " " ++ a)
  | TR_tvf f args => pr_tvf f args
  end
with pr_qspec (q : qspec) : text :=                                 (* Query_Specification.hxx:75-86,
                                                                       Select_From_Where_List.hxx:131-139 *)
  match q with
  | QS w i ad g h o =>
      (match w with
       | None => []
       | Some w => if with_empty w then [] else pr_with w ++ L " "
       end) ++
      pr_sfw i ++ concat (map pr_addon ad) ++
      (if is_nil g then [] else L " GROUP BY " ++ join (L ",") (map pr_gterm g)) ++
      (match h with
       | None => []
       | Some s => if sc_empty s then [] else L " HAVING " ++ pr_sc s
       end) ++
      (if is_nil o then [] else L " ORDER BY " ++ join (L ",") (map pr_sort o))
  end
with pr_with (w : withc) : text :=                                  (* With.hxx:15-30 *)
  match w with
  | With n cols q =>
      L "WITH " ++ n ++ (if is_nil cols then [] else L " (" ++ join (L ",") cols ++ L ")") ++
      L " AS " ++ pr_subq q
  end
with pr_addon (a : addon) : text :=                                 (* Select_From_Where_List.hxx:16-19 *)
  match a with Addon op s => L " " ++ upper op ++ L " " ++ pr_sfw s end
with pr_sfw (s : sfw) : text :=                                     (* Select_From_Where.hxx:21-41 *)
  match s with
  | SFW s ts w =>
      pr_select s ++ L " FROM " ++ join (L ", ") (map pr_tref ts) ++
      (if where_empty w then [] else L " WHERE " ++ pr_where w)
  end
with pr_where (w : wherec) : text :=                                (* Where.hxx:15-22 *)
  match w with
  | Where g s =>
      match g with
      | Some g' =>
          if geom_empty g' then
            match s with Some s' => if sc_empty s' then [] else pr_sc s' | None => [] end
          else pr_geom g' ++
               match s with Some s' => if sc_empty s' then [] else L " AND " ++ pr_sc s' | None => [] end
      | None => match s with Some s' => if sc_empty s' then [] else pr_sc s' | None => [] end
      end
  end
with pr_geom (g : geom) : text :=                                   (* Geometry.hxx:50-70 *)
  match g with
  | G_left fl p => if gpred_empty p then [] else pr_gpred p ++ L "=" ++ fl
  | G_right p fl => if gpred_empty p then [] else pr_gpred p ++ L "=" ++ fl
  end
with pr_gpred (p : gpred) : text :=                                 (* Intersects.hxx:17, Contains.hxx:20 *)
  match p with
  | GP_intersects e s => L "INTERSECTS(" ++ pr_ve e ++ L "," ++ pr_soc s ++ L ")"
  | GP_contains a b => L "CONTAINS(" ++ pr_soc a ++ L "," ++ pr_soc b ++ L ")"
  end
with pr_select (s : select) : text :=                               (* Select.hxx:55-62 *)
  match s with
  | Select q top c =>
      L "SELECT " ++ nl_sp q ++
      (if (top =? top_none)%N then [] else L "TOP " ++ pr_N top ++ L " ") ++ pr_columns c
  end
with pr_columns (c : columns) : text :=                             (* Select.hxx:24-43 *)
  match c with C_star s => s | C_list l => join (L ", ") (map pr_colv l) end
with pr_colv (c : colv) : text :=                                   (* As.hxx:12, Non_As.hxx:12 *)
  match c with
  | CV_as e a => pr_ve e ++ L " AS " ++ a
  | CV_star s => s
  | CV_ve e => pr_ve e
  end
with pr_gterm (g : gterm) : text :=                                 (* Group_By_Term/ostream.cxx:5 *)
  match g with GT_ve e => pr_ve e | GT_col c => pr_colref c end.

End Print.
