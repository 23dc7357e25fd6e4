(** The token-level rules of the grammar (rules with skipper).

    Only the six rules through which the grammar is recursive are [PRule]s; all other
    rules are definitions that are used where the C++ refers to the rule. *)
From Verif Require Export Lexical Ast.

Inductive rule : Set := R_ve | R_venb | R_sc | R_subq | R_jt | R_tref.

Definition attr (r : rule) : Set :=
  match r with
  | R_ve => ve | R_venb => venb | R_sc => sc | R_subq => subq | R_jt => jt | R_tref => tref
  end.

Notation PE := (pe rule attr).

(** C++ [>>], [>] and [|] (with their relative precedence), attribute functions. *)
Declare Scope pe_scope.
Delimit Scope pe_scope with pe.
Infix ">>" := PSeq (at level 61, left associativity) : pe_scope.
Infix ">!" := PExp (at level 62, left associativity) : pe_scope.
Infix "<|>" := PAlt (at level 64, right associativity) : pe_scope.
Notation "e ==> f" := (PMap f e) (at level 63, left associativity) : pe_scope.
Open Scope pe_scope.

Definition lit (s : string) : PE unit := PLit false (L s).
Definition kw (s : string) : PE unit := PLit true (L s).
Definition ident : PE text := PLex s_identifier.

Definition dflt (o : option text) : text := match o with Some t => t | None => [] end.
Definition odef {A} (d : A) (o : option A) : A := match o with Some x => x | None => d end.

Definition p_ve : PE ve := PRule R_ve.
Definition p_venb : PE venb := PRule R_venb.
Definition p_sc : PE sc := PRule R_sc.
Definition p_subq : PE subq := PRule R_subq.
Definition p_jt : PE jt := PRule R_jt.
Definition p_tref : PE tref := PRule R_tref.

Section Grammar.
Variable m : text -> option text.

(** ** Column references, init_column_reference.cxx:76-84 *)
Definition g_catalog_schema_qualifier_column : PE colref :=
  ident >> lit "." >> ident >> lit "." >> ident >> lit "." >> ident
  ==> (fun '(a, _, b, _, c, _, d) => CR4 a b c d).
Definition g_schema_qualifier_column : PE colref :=
  ident >> lit "." >> ident >> lit "." >> ident ==> (fun '(b, _, c, _, d) => CR3 b c d).
Definition g_qualifier_column : PE colref :=
  (PLex (s_tap_upload m) <|> ident) >> lit "." >> ident ==> (fun '(c, _, d) => CR2 c d).
Definition g_column_reference : PE colref :=
  g_catalog_schema_qualifier_column <|> g_schema_qualifier_column <|> g_qualifier_column <|>
  (ident ==> CR1).

(** ** Coordinates and shapes, init_geometry.cxx:30-71, init_point_or_column.cxx:13-31 *)
Definition g_binary_arithmetic_expression : PE csae :=
  PDbl >> PLex s_arithmetic_operator >> PDbl ==> (fun '(a, o, b) => CS_bae a o b).
Definition g_csae : PE csae :=
  g_binary_arithmetic_expression <|> (g_column_reference ==> CS_col) <|> (PDbl ==> CS_dbl).
Definition g_coord : PE coordinate := g_csae >> lit "," >> g_csae ==> (fun '(a, _, b) => Coord a b).

(** The symbol tables: no entry is a prefix of another one, so ordered choice agrees with
    Spirit's longest match. *)
Definition g_reference_frame : PE frame :=
  (kw "icrs" ==> (fun _ => ICRS)) <|> (kw "j2000" ==> (fun _ => J2000)) <|>
  (kw "galactic" ==> (fun _ => GALACTIC)).
Definition g_reference_position : PE unit := kw "geocenter".
Definition g_coord_sys : PE frame :=
  lit "'" >> POpt g_reference_frame >> POpt g_reference_position >> lit "'"
  ==> (fun '(_, f, _, _) => odef ICRS f).
(** KEYWORD >> '(' >> -(coord_sys > ',') *)
Definition g_shape_head (w : string) : PE frame :=
  kw w >> lit "(" >> POpt (g_coord_sys >! lit "," ==> fst) ==> (fun '(_, _, f) => odef ICRS f).
Definition g_point : PE (frame * coordinate) :=
  g_shape_head "POINT" >! g_coord >! lit ")" ==> (fun '(f, c, _) => (f, c)).
Definition g_point_or_column : PE poc :=
  (g_point ==> (fun '(f, c) => Poc_point f c)) <|> (g_column_reference ==> Poc_col).
Definition g_circle : PE shape :=
  g_shape_head "CIRCLE" >! g_coord >! lit "," >! g_csae >! lit ")"
  ==> (fun '(f, c, _, r, _) => Sh_circle f c r).
Definition g_ellipse : PE shape :=
  g_shape_head "ELLIPSE" >! g_coord >! lit "," >! g_csae >! lit "," >! g_csae >! lit "," >! g_csae
  >! lit ")"
  ==> (fun '(f, c, _, a, _, b, _, r, _) => Sh_ellipse f c a b r).
Definition g_box : PE shape :=
  g_shape_head "BOX" >! g_coord >! lit "," >! g_csae >! lit "," >! g_csae >! lit ")"
  ==> (fun '(f, c, _, a, _, b, _) => Sh_box f c a b).
Definition g_polygon : PE shape :=
  g_shape_head "POLYGON" >! PList g_coord (lit ",") >! lit ")" ==> (fun '(f, cs, _) => Sh_polygon f cs).
Definition g_shape : PE shape :=
  (g_point ==> (fun '(f, c) => Sh_point f c)) <|> g_circle <|> g_box <|> g_ellipse <|> g_polygon.
Definition g_shape_or_column : PE soc :=
  (g_shape ==> Soc_shape) <|> (g_column_reference ==> Soc_col).

(** ** Geometry predicates, init_geometry.cxx:74-87 *)
Definition g_contains : PE gpred :=
  kw "CONTAINS" >> lit "(" >! g_shape_or_column >! lit "," >! g_shape_or_column >! lit ")"
  ==> (fun '(_, _, a, _, b, _) => GP_contains a b).
Definition g_intersects : PE gpred :=
  kw "INTERSECTS" >> lit "(" >! p_ve >! lit "," >! g_shape_or_column >! lit ")"
  ==> (fun '(_, _, a, _, b, _) => GP_intersects a b).
Definition g_geometry_left : PE geom :=
  PLex s_char_flag >> lit "=" >> (g_contains <|> g_intersects) ==> (fun '(f, _, p) => G_left f p).
Definition g_geometry_right : PE geom :=
  (g_contains <|> g_intersects) >>
  ((lit "=" >! PLex s_char_flag ==> snd) <|> PRet (L "1")) ==> (fun '(p, f) => G_right p f).
Definition g_geometry : PE geom := g_geometry_left <|> g_geometry_right.

(** ** Functions *)
(** init_trig.cxx:32-39 *)
Definition g_trig_one_arg : PE nvf :=
  PLex s_trig1 >! lit "(" >! p_ve >! lit ")" ==> (fun '(f, _, a, _) => NV_trig1 f a).
Definition g_trig_two_arg : PE nvf :=
  PLex s_trig2 >! lit "(" >! p_ve >! lit "," >! p_ve >! lit ")"
  ==> (fun '(f, _, a, _, b, _) => NV_trig2 f a b).
Definition g_trig_function : PE nvf := g_trig_one_arg <|> g_trig_two_arg.
(** init_math.cxx:29-56 *)
Definition g_math_zero_arg : PE nvf :=
  PLex s_math0 >> lit "(" >> lit ")" ==> (fun '(f, _, _) => NV_math0 f).
Definition g_math_one_arg : PE nvf :=
  PLex s_math1 >> lit "(" >> p_ve >> lit ")" ==> (fun '(f, _, a, _) => NV_math1 f a).
Definition g_math_two_arg : PE nvf :=
  PLex s_math2 >> lit "(" >> p_ve >> lit "," >> p_ve >> lit ")"
  ==> (fun '(f, _, a, _, b, _) => NV_math2 f a b).
Definition g_math_function : PE nvf := g_math_zero_arg <|> g_math_one_arg <|> g_math_two_arg.
(** init_factor.cxx:170-173 *)
Definition g_cast_function : PE nvf :=
  kw "CAST" >> lit "(" >> p_ve >> PSpace >> kw "AS" >> PSpace >> PLex s_cast_as >>
  POpt (lit "(" >! PLex s_unsigned_integer >! lit ")" ==> (fun '(_, n, _) => n)) >> lit ")"
  ==> (fun '(_, _, a, _, _, _, t, n, _) => NV_cast a t (dflt n)).
(** init_non_predicate_geometry_function.cxx:13-22 *)
Definition g_geo_one_arg : PE nvf :=
  PLex s_geo1 >! lit "(" >! g_point_or_column >! lit ")" ==> (fun '(f, _, a, _) => NV_geo1 f a).
Definition g_geo_two_arg : PE nvf :=
  PLex s_geo2 >! lit "(" >! g_point_or_column >! lit "," >! g_point_or_column >! lit ")"
  ==> (fun '(f, _, a, _, b, _) => NV_geo2 f a b).
Definition g_geo_function : PE nvf := g_geo_one_arg <|> g_geo_two_arg.
(** init_factor.cxx:147-151 *)
Definition g_user_defined_function : PE nvf :=
  (PLex s_udf_name >> lit "(") >> POpt (PList p_ve (lit ",")) >> lit ")"
  ==> (fun '(f, _, a, _) => NV_udf f (odef [] a)).
(** init_factor.cxx:178-180 *)
Definition g_numeric_value_function : PE nvf :=
  g_trig_function <|> g_math_function <|> g_cast_function <|> g_geo_function <|>
  g_user_defined_function <|> (PLex s_no_arg_function ==> NV_str).

(** ** Primary expressions, init_factor.cxx:34-130 *)
Definition g_general_set_args : PE (text * ve) := POptLex s_set_quantifier >> p_ve.
Definition g_general_set_function : PE vepv :=
  PLex s_set_function_type >> lit "(" >! g_general_set_args >! lit ")"
  ==> (fun '(t, _, (q, a), _) => VP_set t q a).
Definition g_count_star : PE text :=
  PLex (strs_nc ["COUNT"]%string) >> PLex (chr "(") >> PLex (chr "*") >! PLex (chr ")")
  ==> (fun '(a, b, c, d) => a ++ b ++ c ++ d).
Definition g_set_function_specification : PE vepv :=
  (g_count_star ==> VP_setstr) <|> g_general_set_function.
Definition g_result : PE result := (p_ve ==> Res_ve) <|> (PLex s_null_literal ==> Res_str).
Definition g_simple_when : PE swhen :=
  kw "WHEN" >> PSpace >! p_ve >> kw "THEN" >! PSpace >! g_result
  ==> (fun '(_, (a, _), _, r) => SWhen a r).
Definition g_else_clause : PE result := kw "ELSE" >> PSpace >> g_result ==> (fun '(_, _, r) => r).
Definition g_simple_case : PE vepv :=
  p_ve >> PPlus g_simple_when >> POpt g_else_clause >! kw "END"
  ==> (fun '(x, w, e, _) => VP_case x w e).
Definition g_searched_when : PE qwhen :=
  kw "WHEN" >> PSpace >> p_sc >> kw "THEN" >> PSpace >> g_result
  ==> (fun '(_, _, c, _, _, r) => QWhen c r).
Definition g_searched_case : PE vepv :=
  PPlus g_searched_when >> POpt g_else_clause >> PSpace >> kw "END"
  ==> (fun '(w, e, _, _) => VP_scase w e).
Definition g_case_specification : PE vepv :=
  kw "CASE" >> PSpace >! (g_simple_case <|> g_searched_case) ==> (fun '(_, _, c) => c).
Definition g_nullif : PE vepv :=
  kw "NULLIF" >> lit "(" >> p_ve >> lit "," >> p_ve >> lit ")"
  ==> (fun '(_, _, a, _, b, _) => VP_nullif a b).
Definition g_coalesce : PE vepv :=
  kw "COALESCE" >> lit "(" >> PList p_ve (lit ",") >> lit ")" ==> (fun '(_, _, l, _) => VP_coalesce l).
Definition g_case_expression : PE vepv := (g_nullif <|> g_coalesce) <|> g_case_specification.
Definition g_any_expression : PE vepv :=
  kw "ANY" >> lit "(" >! p_ve >! lit ")" ==> (fun '(_, _, a, _) => VP_any a).
Definition g_value_subexpression : PE vepv :=
  lit "(" >> p_ve >> lit ")" ==> (fun '(_, a, _) => VP_sub a).
Definition g_array_index : PE ve := lit "[" >> p_ve >> lit "]" ==> (fun '(_, a, _) => a).
Definition g_array_constructor : PE vepv :=
  kw "ARRAY" >> lit "[" >> PList p_ve (lit ",") >! lit "]" ==> (fun '(_, _, l, _) => VP_array l).
Definition g_value_expression_primary : PE vep :=
  (g_array_constructor <|> (PLex s_unsigned_literal ==> VP_str) <|> (g_column_reference ==> VP_col) <|>
   g_set_function_specification <|> g_case_expression <|> g_any_expression <|>
   (PLex s_null_cast ==> VP_str) <|> (PLex s_null_literal ==> VP_str) <|> g_value_subexpression) >>
  PStar g_array_index ==> (fun '(v, i) => VEP v i).
(** init_factor.cxx:184-187 *)
Definition g_numeric_primary : PE nprim :=
  (g_numeric_value_function ==> NP_nvf) <|> (g_value_expression_primary ==> NP_vep).
Definition g_factor : PE factor := POptLex s_sign >> g_numeric_primary ==> (fun '(s, p) => Factor s p).

(** ** Value expressions, init_value_expression.cxx:14-19 *)
Definition g_term : PE vterm := PLex s_binary_operators >> g_factor ==> (fun '(o, f) => VTerm o f).
Definition g_value_expression_non_bool : PE venb :=
  g_factor >> PStar g_term ==> (fun '(f, ts) => VENB f ts).
(** boolean_value_expression has the same definition as search_condition,
    init_search_condition.cxx:38-39 *)
Definition g_value_expression : PE ve := (p_venb ==> VE_nb) <|> (p_sc ==> VE_sc).

(** ** Predicates, init_predicate.cxx:49-88 *)
Definition g_comparison_predicate : PE pred :=
  p_venb >> PLex s_comparison >> p_ve ==> (fun '(l, o, r) => P_cmp l o r).
Definition g_between_predicate : PE pred :=
  p_venb >> POptLex (kws_hard "NOT") >> PLex (kw_hard "BETWEEN") >> p_ve >> PLex (kw_hard "AND") >> p_ve
  ==> (fun '(v, n, _, lo, _, hi) => P_between v n lo hi).
Definition g_in_target : PE intarget :=
  (p_subq ==> In_sub) <|> (lit "(" >> PList p_ve (lit ",") >> lit ")" ==> (fun '(_, l, _) => In_list l)).
Definition g_in_predicate : PE pred :=
  p_venb >> POptLex (SExp (SStr true (L "NOT")) (SChr is_space)) >> PLex (kw_hard "IN") >> g_in_target
  ==> (fun '(v, n, _, t) => P_in v n t).
Definition g_null_predicate : PE pred :=
  p_venb >> PLex (kw_hard "IS") >> POptLex (kws_hard "NOT") >> kw "NULL"
  ==> (fun '(v, _, n, _) => P_null v n).
Definition g_like_predicate : PE pred :=
  p_venb >> POptLex (kws_soft ["NOT"]%string) >> PLex (kw_soft "LIKE") >> (p_venb ==> VE_nb)
  ==> (fun '(v, n, _, p) => P_like v n p).
Definition g_exists_predicate : PE pred :=
  PLex (kw_hard "EXISTS") >> p_subq ==> (fun '(_, q) => P_exists q).
Definition g_predicate : PE pred :=
  g_comparison_predicate <|> g_between_predicate <|> g_in_predicate <|> g_null_predicate <|>
  g_like_predicate <|> g_exists_predicate.

(** ** Search conditions, init_search_condition.cxx:25-39 *)
Definition g_boolean_primary : PE bprim :=
  (g_predicate ==> BP_pred) <|> (lit "(" >> p_sc >> lit ")" ==> (fun '(_, s, _) => BP_sc s)) <|>
  (p_venb ==> BP_val).
Definition g_boolean_factor : PE bfac :=
  POptLex (kws_soft ["NOT"]%string) >> g_boolean_primary ==> (fun '(n, p) => BF n p).
Definition g_boolean_term : PE sc :=
  g_boolean_factor >> PLex (kws_soft ["AND"; "OR"]%string) >> p_sc ==> (fun '(f, o, s) => SC_t f o s).
Definition g_search_condition : PE sc := g_boolean_term <|> (g_boolean_factor ==> SC_f).

(** ** Tables and joins, init_correlation_specification.cxx:9-13, init_join.cxx:25-70,
    init_predicate.cxx:25-44.
    Simplified: the text an unterminated delimited alias leaves in the attribute of the
    optional correlation_specification is dropped; such a query is always rejected. *)
Definition g_correlation_specification : PE text :=
  POpt (PLex (kw_soft "AS")) >> ident ==> snd.
Definition g_table_correlation : PE (text * text) :=
  PLex (s_table_name m) >> POpt g_correlation_specification ==> (fun '(n, a) => (n, dflt a)).
Definition g_outer_join : PE jtype :=
  PLex (kws_soft ["LEFT"; "RIGHT"; "FULL"]%string) >> POpt (PLex (kws_soft ["OUTER"]%string))
  ==> (fun '(t, o) => JTy_outer t (match o with Some _ => true | None => false end)).
Definition g_join_type : PE jtype :=
  (PLex (kws_soft ["INNER"]%string) ==> JTy_plain) <|> g_outer_join.
Definition g_join_condition : PE jspec := PLex (kw_soft "ON") >> p_sc ==> (fun '(_, s) => JSp_on s).
Definition g_named_columns_join : PE jspec :=
  PLex (kw_soft "USING") >> lit "(" >! PList ident (lit ",") >! lit ")"
  ==> (fun '(_, _, l, _) => JSp_using l).
Definition g_join_specification : PE jspec := g_join_condition <|> g_named_columns_join.
Definition g_join_suffix : PE jsuf :=
  POpt (PLex (kw_soft "NATURAL")) >> POpt g_join_type >> PLex (kw_soft "JOIN")
  >! p_tref >> POpt g_join_specification
  ==> (fun '(n, t, _, (r, s)) =>
         JS (match n with Some _ => true | None => false end) (odef (JTy_plain []) t) r s).
(** The alternative '(' >> joined_table >> ')' inside qualified_join has attribute
    Joined_Table_Wrap; the parenthesised table ends up in a Joined_Table whose variant is
    itself a Joined_Table_Wrap, hence the JT_p. *)
Definition g_qualified_join : PE jt :=
  ((lit "(" >> p_jt >> lit ")" ==> (fun '(_, j, _) => QH_jt (JT_p j))) <|>
   (g_table_correlation ==> (fun '(n, a) => QH_tc n a))) >>
  PPlus g_join_suffix ==> (fun '(h, s) => JT_q (QJ h s)).
Definition g_joined_table : PE jt :=
  g_qualified_join <|> (lit "(" >> p_jt >> lit ")" ==> (fun '(_, j, _) => JT_p j)).
Definition g_derived_correlation : PE tref :=
  p_subq >> g_correlation_specification ==> (fun '(q, a) => TR_dc q a).
Definition s_tvf_head : se := SHold (SSeq (SLit true (L "table(")) (SSeq s_pqi (SLit false (L "('")))).
Definition g_table_valued_function : PE tref :=
  PLex s_tvf_head >> POpt (PList (PLex s_pqi) (lit "','")) >> lit "')" >> lit ")"
  ==> (fun '(f, a, _, _) => TR_tvf f (odef [] a)).
Definition g_table_reference : PE tref :=
  (p_jt ==> TR_jt) <|> (g_table_correlation ==> (fun '(n, a) => TR_tc n a)) <|>
  g_derived_correlation <|> g_table_valued_function.
Definition g_from_clause : PE (list tref) :=
  PLex (kw_hard "FROM") >! PList p_tref (lit ",") ==> snd.

(** ** Queries, init_columns.cxx:25-39, init_query.cxx:25-134 *)
Definition g_as : PE colv := p_ve >> PLex (kw_soft "AS") >! ident ==> (fun '(e, _, a) => CV_as e a).
Definition g_non_as : PE colv := (PLex (s_qualifier_star m) ==> CV_star) <|> (p_ve ==> CV_ve).
Definition g_select_item : PE colv := g_as <|> g_non_as.
Definition g_columns : PE columns :=
  (PLex (strs_cs ["*"]%string) ==> C_star) <|> (PList g_select_item (lit ",") ==> C_list).

Definition g_with : PE withc :=
  PLex (kw_hard "WITH") >! ident >!
  POpt (lit "(" >> PList ident (lit ",") >! lit ")" ==> (fun '(_, l, _) => l)) >>
  POpt (PLex (kw_hard "AS")) >! p_subq
  ==> (fun '(_, n, (c, _), q) => With n (odef [] c) q).

Definition g_where : PE wherec :=
  PLex (kw_hard "WHERE") >!
  ((g_geometry >> POpt (kw "AND" >! p_sc ==> snd) ==> (fun '(g, s) => Where (Some g) s)) <|>
   (lit "(" >> g_geometry >! lit ")" ==> (fun '(_, g, _) => Where (Some g) None)) <|>
   (p_sc ==> (fun s => Where None (Some s))))
  ==> snd.
Definition g_where_no_geometry : PE wherec :=
  PLex (kw_soft "WHERE") >> p_sc ==> (fun '(_, s) => Where None (Some s)).
Definition g_group_by_term : PE gterm := (p_ve ==> GT_ve) <|> (g_column_reference ==> GT_col).
Definition g_group_by : PE (list gterm) :=
  PLex (kw_hard "GROUP") >! PLex (kw_hard "BY") >! PList g_group_by_term (lit ",") ==> snd.
Definition g_having : PE sc := PLex (kw_hard "HAVING") >! p_sc ==> snd.
Definition g_sort_key : PE sort_key :=
  (g_column_reference ==> SK_col) <|> (PLex s_unsigned_integer ==> SK_int).
Definition g_sort_specification : PE sort_spec :=
  g_sort_key >> POptLex s_ordering ==> (fun '(k, o) => Sort k o).
Definition g_order_by : PE (list sort_spec) :=
  PLex (kw_hard "ORDER") >> PLex (kw_hard "BY") >> PList g_sort_specification (lit ",") ==> snd.
Definition g_top : PE N := PLex (kw_soft "TOP") >! PTop ==> snd.
Definition g_select : PE select :=
  PLex (kw_hard "SELECT") >> POptLex s_set_quantifier >> POpt g_top >! g_columns
  ==> (fun '(_, q, t, c) => Select q (odef top_none t) c).
Definition g_sfw_gen (w : PE wherec) : PE sfw :=
  g_select >! g_from_clause >> POpt w
  ==> (fun '(s, (ts, w)) => SFW s ts (odef (Where None None) w)).
Definition g_addon_gen (w : PE wherec) : PE addon :=
  PLex s_union >> g_sfw_gen w ==> (fun '(o, s) => Addon o s).
Definition g_query_gen (w : PE wherec) : PE qspec :=
  POpt g_with >> (g_sfw_gen w >> PStar (g_addon_gen w)) >> POpt g_group_by >> POpt g_having >>
  POpt g_order_by
  ==> (fun '(wi, (i, ad), g, h, o) => QS wi i ad (odef [] g) h (odef [] o)).
Definition g_query : PE qspec := g_query_gen g_where.
Definition g_query_no_geometry : PE qspec := g_query_gen g_where_no_geometry.
Definition g_subquery : PE subq :=
  lit "(" >> ((g_query_no_geometry ==> SQ_q) <|> (p_jt ==> SQ_jt)) >> lit ")" ==> (fun '(_, q, _) => q).

Definition g_body (r : rule) : PE (attr r) :=
  match r with
  | R_ve => g_value_expression
  | R_venb => g_value_expression_non_bool
  | R_sc => g_search_condition
  | R_subq => g_subquery
  | R_jt => g_joined_table
  | R_tref => g_table_reference
  end.

Definition grun (n : nat) {A : Set} (e : PE A) (i : text) : out A := run g_body n A e i.
End Grammar.
