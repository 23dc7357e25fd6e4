(** Specification for C23, C24, C32, C35 (and C10): how the parts of a query are written.

    [production p its] is a grammar of ADQL in the usual sense: the part [p] is written as the
    sequence [its] of terminals and parts, with optional white space in between.  It has no
    priorities, and does not refer to the parser or the printers. *)
From Verif Require Import Chars Ast Spec SpecNodes SpecLexical SpecContent.

(** The parts: those of SpecNodes.v and some smaller ones. *)
Inductive part : Set :=
| X (n : node)
| X_qjoin (q : qjoin)
| X_colref (c : colref)
| X_csae (c : csae)
| X_coord (c : coordinate)
| X_system (f : frame)             (* coordinate-system argument of a shape, with its comma *)
| X_shape (s : shape)
| X_jtype (j : jtype)
| X_alias (a : text).              (* optional alias of a table *)

(** A terminal says which texts [x] it is written as when [k] follows. *)
Definition terminal := text -> text -> Prop.
Inductive item : Type :=
| T (P : terminal)
| Pt (p : part).

Definition blank_ahead (k : text) : Prop := exists c k', k = c :: k' /\ is_space c = true.
(** A keyword in any mixture of upper and lower case; one that white space must follow; one that
    is kept as written. *)
Definition key (w : string) : item := T (fun _ x => upper x = L w).
Definition keyb (w : string) : item := T (fun k x => upper x = L w /\ blank_ahead k).
Definition one_of (ws : list string) (v : text) : item := T (fun _ x => x = v /\ In (upper v) (map L ws)).
Definition one_ofb (ws : list string) (v : text) : item :=
  T (fun k x => x = v /\ In (upper v) (map L ws) /\ blank_ahead k).
Definition mark (s : string) : item := T (fun _ x => x = L s).
Definition one_mark (ms : list string) (v : text) : item := T (fun _ x => x = v /\ In v (map L ms)).
(** White space or, rather, a place where there must be some. *)
Definition gap : item := T (fun k x => x = [] /\ blank_ahead k).
(** Names.  In an expression TAP_UPLOAD.n stands for the table mapped to n; names of tables have
    up to three components. *)
Definition name (v : text) : item := T (fun k x => x = v /\ identifier_before k v).
Definition upload (mapping : text -> option text) (v : text) : terminal :=
  fun k x => exists n, x = L "TAP_UPLOAD." ++ n /\ identifier_before k n /\ mapping n = Some v.
Inductive dotted : nat -> text -> text -> Prop :=
| dotted_one k v : identifier_before k v -> dotted 1 k v
| dotted_more n k v w : identifier_before ("."%char :: w ++ k) v -> dotted n k w -> dotted (S n) k (v ++ "."%char :: w).
Definition table_name (mapping : text -> option text) (v : text) : terminal :=
  fun k x => upload mapping v k x \/ x = v /\ exists n, 1 <= n <= 3 /\ dotted n k v.
(** Values.  (An integer in front of a point that is not followed by a digit is kept with the point;
    but no production has a value in front of a point.) *)
Definition value (v : text) : item :=
  T (fun k x => begins (L ".") k /\ digits x /\ v = x ++ L "." \/ x = v /\ (number v \/ literal_parts v \/ In (upper v) (map L ["TRUE"; "FALSE"]%string))).
Definition real (v : text) : item := T (fun _ x => x = v /\ real_number v).
Definition whole (v : text) : item := T (fun _ x => x = v /\ digits v).
Definition count (n : N) : item := T (fun _ x => digits x /\ decimal x = n).
(** An optional NOT.  (The second case is the defect of C16: the NOT of a longer word.) *)
Definition is_not (n : text) : Prop := upper n = L "NOT".
Definition optional_not (n : text) : item :=
  T (fun k x => (n = [] /\ x = []) \/ (is_not n /\ x = n /\ blank_ahead k) \/
                (is_not n /\ x = [] /\ exists r, k = n ++ r /\ ~ blank_ahead r)).
Definition spaced_not (n : text) : item :=
  T (fun k x => (n = [] /\ x = []) \/ (x = n /\ is_not n /\ blank_ahead k)).
Definition in_not (n : text) : item :=
  T (fun _ x => (n = [] /\ x = []) \/ (x = n /\ exists w c, n = w ++ [c] /\ is_not w /\ is_space c = true)).

(** p1 , p2 , ... *)
Definition commas (l : list part) : list item :=
  match l with [] => [] | a :: l' => Pt a :: flat_map (fun b => [mark ","; Pt b]) l' end.
Definition names (l : list text) : list item :=
  match l with [] => [] | a :: l' => name a :: flat_map (fun b => [mark ","; name b]) l' end.
Definition each {A} (f : A -> node) (l : list A) : list item := map (fun a => Pt (X (f a))) l.
Definition optional {A} (f : A -> list item) (o : option A) : list item :=
  match o with Some a => f a | None => [] end.

Definition frame_name (f : frame) : string :=
  match f with ICRS => "ICRS" | J2000 => "J2000" | GALACTIC => "GALACTIC" end.
Definition trig1 : list string := ["ACOS"; "ASIN"; "ATAN"; "COS"; "COT"; "SIN"; "TAN"]%string.
Definition math1 : list string :=
  ["ABS"; "CEILING"; "DEGREES"; "EXP"; "FLOOR"; "LOG10"; "LOG"; "RADIANS"; "SQRT"; "RAND"; "ROUND"; "TRUNCATE"]%string.
Definition math2 : list string := ["MOD"; "POWER"; "ROUND"; "TRUNCATE"]%string.
Definition cast_types : list string :=
  ["NUMERIC"; "FLOAT4"; "INTEGER"; "BIGINT"; "FLOAT8"; "VARCHAR2"; "VARCHAR"; "CHAR"; "TEXT"]%string.
Definition function_name (v : text) : item :=
  T (fun k x => x = v /\ word v /\
       (stops word_char k \/ In (upper v) (map L ["RIGHT"; "LEFT"; "UPPER"; "LOWER"; "DISTINCT"; "TRIM"]%string))).

Section Grammar.
Variable mapping : text -> option text.

Inductive production : part -> list item -> Prop :=
(** ** Columns, coordinates, shapes *)
| p_col1 a : production (X_colref (CR1 a)) [name a]
| p_col2 a b : production (X_colref (CR2 a b)) [name a; mark "."; name b]
| p_col2u a b : production (X_colref (CR2 a b)) [T (upload mapping a); mark "."; name b]
| p_col3 a b c : production (X_colref (CR3 a b c)) [name a; mark "."; name b; mark "."; name c]
| p_col4 a b c d : production (X_colref (CR4 a b c d)) [name a; mark "."; name b; mark "."; name c; mark "."; name d]
| p_bae a o b : production (X_csae (CS_bae a o b)) [real a; one_mark ["+"; "-"; "*"; "/"]%string o; real b]
| p_cs_col c : production (X_csae (CS_col c)) [Pt (X_colref c)]
| p_cs_dbl d : production (X_csae (CS_dbl d)) [real d]
| p_coord a b : production (X_coord (Coord a b)) [Pt (X_csae a); mark ","; Pt (X_csae b)]
| p_no_system : production (X_system ICRS) []
| p_system f fr ps : fr = [key (frame_name f)] \/ fr = [] /\ f = ICRS -> ps = [key "GEOCENTER"] \/ ps = [] ->
    production (X_system f) (mark "'" :: fr ++ ps ++ [mark "'"; mark ","])
| p_point f c : production (X_shape (Sh_point f c)) [key "POINT"; mark "("; Pt (X_system f); Pt (X_coord c); mark ")"]
| p_circle f c r : production (X_shape (Sh_circle f c r))
    [key "CIRCLE"; mark "("; Pt (X_system f); Pt (X_coord c); mark ","; Pt (X_csae r); mark ")"]
| p_box f c w h : production (X_shape (Sh_box f c w h))
    [key "BOX"; mark "("; Pt (X_system f); Pt (X_coord c); mark ","; Pt (X_csae w); mark ","; Pt (X_csae h); mark ")"]
| p_ellipse f c a b r : production (X_shape (Sh_ellipse f c a b r))
    [key "ELLIPSE"; mark "("; Pt (X_system f); Pt (X_coord c); mark ","; Pt (X_csae a); mark ","; Pt (X_csae b);
     mark ","; Pt (X_csae r); mark ")"]
| p_polygon f cs : cs <> [] -> production (X_shape (Sh_polygon f cs))
    ([key "POLYGON"; mark "("; Pt (X_system f)] ++ commas (map X_coord cs) ++ [mark ")"])
| p_soc_shape s : production (X (N_soc (Soc_shape s))) [Pt (X_shape s)]
| p_soc_col c : production (X (N_soc (Soc_col c))) [Pt (X_colref c)]
| p_poc_point f c : production (X (N_poc (Poc_point f c))) [Pt (X_shape (Sh_point f c))]
| p_poc_col c : production (X (N_poc (Poc_col c))) [Pt (X_colref c)]
(** ** Geometry conditions *)
| p_contains a b : production (X (N_gpred (GP_contains a b)))
    [key "CONTAINS"; mark "("; Pt (X (N_soc a)); mark ","; Pt (X (N_soc b)); mark ")"]
| p_intersects a b : production (X (N_gpred (GP_intersects a b)))
    [key "INTERSECTS"; mark "("; Pt (X (N_ve a)); mark ","; Pt (X (N_soc b)); mark ")"]
| p_flag_left f p : production (X (N_geom (G_left f p))) [one_mark ["0"; "1"]%string f; mark "="; Pt (X (N_gpred p))]
| p_flag_right f p : production (X (N_geom (G_right p f))) [Pt (X (N_gpred p)); mark "="; one_mark ["0"; "1"]%string f]
| p_no_flag p : production (X (N_geom (G_right p (L "1")))) [Pt (X (N_gpred p))]
(** ** Functions *)
| p_trig1 f a : production (X (N_nvf (NV_trig1 f a))) [one_of trig1 f; mark "("; Pt (X (N_ve a)); mark ")"]
| p_trig2 f a b : production (X (N_nvf (NV_trig2 f a b)))
    [one_of ["ATAN2"]%string f; mark "("; Pt (X (N_ve a)); mark ","; Pt (X (N_ve b)); mark ")"]
| p_math0 f : production (X (N_nvf (NV_math0 f))) [one_of ["PI"; "RAND"]%string f; mark "("; mark ")"]
| p_math1 f a : production (X (N_nvf (NV_math1 f a))) [one_of math1 f; mark "("; Pt (X (N_ve a)); mark ")"]
| p_math2 f a b : production (X (N_nvf (NV_math2 f a b)))
    [one_of math2 f; mark "("; Pt (X (N_ve a)); mark ","; Pt (X (N_ve b)); mark ")"]
| p_cast a t : production (X (N_nvf (NV_cast a t [])))
    [key "CAST"; mark "("; Pt (X (N_ve a)); gap; key "AS"; gap; one_of cast_types t; mark ")"]
| p_cast_n a t n : production (X (N_nvf (NV_cast a t n)))
    [key "CAST"; mark "("; Pt (X (N_ve a)); gap; key "AS"; gap; one_of cast_types t; mark "("; whole n; mark ")"; mark ")"]
| p_geo1 f a : production (X (N_nvf (NV_geo1 f a))) [one_of ["COORD1"; "COORD2"]%string f; mark "("; Pt (X (N_poc a)); mark ")"]
| p_geo2 f a b : production (X (N_nvf (NV_geo2 f a b)))
    [one_of ["DISTANCE"]%string f; mark "("; Pt (X (N_poc a)); mark ","; Pt (X (N_poc b)); mark ")"]
| p_udf f l : production (X (N_nvf (NV_udf f l)))
    ([function_name f; mark "("] ++ commas (map (fun a => X (N_ve a)) l) ++ [mark ")"])
| p_no_arg s : production (X (N_nvf (NV_str s))) [one_of ["CURRENT_TIMESTAMP"]%string s]
(** ** Expressions *)
| p_array l : l <> [] -> production (X (N_vepv (VP_array l)))
    ([key "ARRAY"; mark "["] ++ commas (map (fun a => X (N_ve a)) l) ++ [mark "]"])
| p_value s : production (X (N_vepv (VP_str s))) [value s]
| p_null s : production (X (N_vepv (VP_str s))) [one_of ["NULL"; "NULL::CHAR"; "NULL::INT"; "NULL::FLOAT"]%string s]
| p_column c : production (X (N_vepv (VP_col c))) [Pt (X_colref c)]
| p_count_star c : production (X (N_vepv (VP_setstr (c ++ L "(" ++ L "*" ++ L ")"))))
    [one_of ["COUNT"]%string c; mark "("; mark "*"; mark ")"]
| p_set f a : production (X (N_vepv (VP_set f [] a)))
    [one_of ["AVG"; "MAX"; "MIN"; "SUM"; "COUNT"]%string f; mark "("; Pt (X (N_ve a)); mark ")"]
| p_set_q f q a : production (X (N_vepv (VP_set f q a)))
    [one_of ["AVG"; "MAX"; "MIN"; "SUM"; "COUNT"]%string f; mark "("; one_ofb ["DISTINCT"; "ALL"]%string q;
     Pt (X (N_ve a)); mark ")"]
| p_nullif a b : production (X (N_vepv (VP_nullif a b)))
    [key "NULLIF"; mark "("; Pt (X (N_ve a)); mark ","; Pt (X (N_ve b)); mark ")"]
| p_coalesce l : l <> [] -> production (X (N_vepv (VP_coalesce l)))
    ([key "COALESCE"; mark "("] ++ commas (map (fun a => X (N_ve a)) l) ++ [mark ")"])
| p_case x w e : w <> [] -> production (X (N_vepv (VP_case x w e)))
    ([key "CASE"; gap; Pt (X (N_ve x))] ++ each N_swhen w ++
     optional (fun r => [key "ELSE"; gap; Pt (X (N_result r))]) e ++ [key "END"])
| p_scase w e : w <> [] -> production (X (N_vepv (VP_scase w e)))
    ([key "CASE"; gap] ++ each N_qwhen w ++
     optional (fun r => [key "ELSE"; gap; Pt (X (N_result r))]) e ++ [gap; key "END"])
| p_any a : production (X (N_vepv (VP_any a))) [key "ANY"; mark "("; Pt (X (N_ve a)); mark ")"]
| p_sub a : production (X (N_vepv (VP_sub a))) [mark "("; Pt (X (N_ve a)); mark ")"]
| p_swhen a r : production (X (N_swhen (SWhen a r)))
    [key "WHEN"; gap; Pt (X (N_ve a)); key "THEN"; gap; Pt (X (N_result r))]
| p_qwhen c r : production (X (N_qwhen (QWhen c r)))
    [key "WHEN"; gap; Pt (X (N_sc c)); key "THEN"; gap; Pt (X (N_result r))]
| p_res_ve a : production (X (N_result (Res_ve a))) [Pt (X (N_ve a))]
| p_res_null s : production (X (N_result (Res_str s))) [one_of ["NULL"]%string s]
| p_vep v l : production (X (N_vep (VEP v l)))
    (Pt (X (N_vepv v)) :: flat_map (fun a => [mark "["; Pt (X (N_ve a)); mark "]"]) l)
| p_np_nvf f : production (X (N_nprim (NP_nvf f))) [Pt (X (N_nvf f))]
| p_np_vep v : production (X (N_nprim (NP_vep v))) [Pt (X (N_vep v))]
| p_factor p : production (X (N_factor (Factor [] p))) [Pt (X (N_nprim p))]
| p_signed s p : production (X (N_factor (Factor s p))) [one_mark ["+"; "-"]%string s; Pt (X (N_nprim p))]
| p_vterm o f : production (X (N_vterm (VTerm o f))) [one_mark ["*"; "/"; "+"; "-"; "||"]%string o; Pt (X (N_factor f))]
| p_venb f ts : production (X (N_venb (VENB f ts))) (Pt (X (N_factor f)) :: each N_vterm ts)
| p_ve_nb v : production (X (N_ve (VE_nb v))) [Pt (X (N_venb v))]
| p_ve_sc s : production (X (N_ve (VE_sc s))) [Pt (X (N_sc s))]
(** ** Conditions *)
| p_cmp l o r : production (X (N_pred (P_cmp l o r)))
    [Pt (X (N_venb l)); one_mark ["="; "!="; "<>"; "<="; ">="; "<"; ">"]%string o; Pt (X (N_ve r))]
| p_between v n lo hi : production (X (N_pred (P_between v n lo hi)))
    [Pt (X (N_venb v)); spaced_not n; keyb "BETWEEN"; Pt (X (N_ve lo)); keyb "AND"; Pt (X (N_ve hi))]
| p_in v n t : production (X (N_pred (P_in v n t))) [Pt (X (N_venb v)); in_not n; keyb "IN"; Pt (X (N_intarget t))]
| p_is_null v n : production (X (N_pred (P_null v n))) [Pt (X (N_venb v)); keyb "IS"; spaced_not n; key "NULL"]
| p_like v n p : production (X (N_pred (P_like v n (VE_nb p))))
    [Pt (X (N_venb v)); optional_not n; keyb "LIKE"; Pt (X (N_ve (VE_nb p)))]
| p_exists q : production (X (N_pred (P_exists q))) [keyb "EXISTS"; Pt (X (N_subq q))]
| p_in_sub q : production (X (N_intarget (In_sub q))) [Pt (X (N_subq q))]
| p_in_list l : l <> [] -> production (X (N_intarget (In_list l)))
    (mark "(" :: commas (map (fun a => X (N_ve a)) l) ++ [mark ")"])
| p_bp_pred p : production (X (N_bprim (BP_pred p))) [Pt (X (N_pred p))]
| p_bp_sc s : production (X (N_bprim (BP_sc s))) [mark "("; Pt (X (N_sc s)); mark ")"]
| p_bp_val v : production (X (N_bprim (BP_val v))) [Pt (X (N_venb v))]
| p_bfac n p : production (X (N_bfac (BF n p))) [optional_not n; Pt (X (N_bprim p))]
| p_sc_one f : production (X (N_sc (SC_f f))) [Pt (X (N_bfac f))]
| p_sc_more f o s : production (X (N_sc (SC_t f o s))) [Pt (X (N_bfac f)); one_ofb ["AND"; "OR"]%string o; Pt (X (N_sc s))]
(** ** Tables and joins *)
| p_no_alias : production (X_alias []) []
| p_alias a : production (X_alias a) [name a]
| p_alias_as a : production (X_alias a) [keyb "AS"; name a]
| p_tr_tc n a : production (X (N_tref (TR_tc n a))) [T (table_name mapping n); Pt (X_alias a)]
| p_tr_jt j : production (X (N_tref (TR_jt j))) [Pt (X (N_jt j))]
| p_tr_dc q a : a <> [] -> production (X (N_tref (TR_dc q a))) [Pt (X (N_subq q)); Pt (X_alias a)]
| p_tr_tvf f l : production (X (N_tref (TR_tvf f l)))
    (T (fun _ x => exists tb, x = tb ++ L "(" ++ f ++ L "('" /\ upper tb = L "TABLE" /\ dotted_name f) ::
     match l with [] => [] | a :: l' =>
       T (fun _ x => x = a /\ dotted_name a) :: flat_map (fun b => [mark "','"; T (fun _ x => x = b /\ dotted_name b)]) l'
     end ++ [mark "')"; mark ")"])
| p_jt_q q : production (X (N_jt (JT_q q))) [Pt (X_qjoin q)]
| p_jt_p j : production (X (N_jt (JT_p j))) [mark "("; Pt (X (N_jt j)); mark ")"]
| p_qjoin h ss : ss <> [] -> production (X_qjoin (QJ h ss)) (Pt (X (N_qjhead h)) :: each N_jsuf ss)
| p_qh_tc n a : production (X (N_qjhead (QH_tc n a))) [T (table_name mapping n); Pt (X_alias a)]
| p_qh_jt j : production (X (N_qjhead (QH_jt (JT_p j)))) [Pt (X (N_jt (JT_p j)))]
| p_no_jtype : production (X_jtype (JTy_plain [])) []
| p_inner s : production (X_jtype (JTy_plain s)) [one_ofb ["INNER"]%string s]
| p_outer s (o : bool) : production (X_jtype (JTy_outer s o))
    (one_ofb ["LEFT"; "RIGHT"; "FULL"]%string s :: if o then [keyb "OUTER"] else [])
| p_jsuf (nat : bool) ty t sp : production (X (N_jsuf (JS nat ty t sp)))
    ((if nat then [keyb "NATURAL"] else []) ++ [Pt (X_jtype ty); keyb "JOIN"; Pt (X (N_tref t))] ++
     optional (fun s => [Pt (X (N_jspec s))]) sp)
| p_on s : production (X (N_jspec (JSp_on s))) [keyb "ON"; Pt (X (N_sc s))]
| p_using l : l <> [] -> production (X (N_jspec (JSp_using l))) ([keyb "USING"; mark "("] ++ names l ++ [mark ")"])
(** ** Queries *)
| p_colv_as e a : production (X (N_colv (CV_as e a))) [Pt (X (N_ve e)); keyb "AS"; name a]
| p_colv_star n : production (X (N_colv (CV_star (n ++ L ".*"))))
    [T (fun k x => exists y, x = y ++ L ".*" /\ table_name mapping n (L ".*" ++ k) y)]
| p_colv_ve e : production (X (N_colv (CV_ve e))) [Pt (X (N_ve e))]
| p_star : production (X (N_columns (C_star (L "*")))) [mark "*"]
| p_columns l : l <> [] -> production (X (N_columns (C_list l))) (commas (map (fun c => X (N_colv c)) l))
| p_select q t c qi ti :
    qi = [one_ofb ["DISTINCT"; "ALL"]%string q] \/ qi = [] /\ q = [] ->
    ti = [keyb "TOP"; count t] \/ ti = [] /\ t = largest_top ->
    production (X (N_select (Select q t c))) ([keyb "SELECT"] ++ qi ++ ti ++ [Pt (X (N_columns c))])
| p_where_geom g s : production (X (N_where (Where (Some g) s)))
    ([keyb "WHERE"; Pt (X (N_geom g))] ++ optional (fun s => [key "AND"; Pt (X (N_sc s))]) s)
| p_where_parens g : production (X (N_where (Where (Some g) None))) [keyb "WHERE"; mark "("; Pt (X (N_geom g)); mark ")"]
| p_where_sc s : production (X (N_where (Where None (Some s)))) [keyb "WHERE"; Pt (X (N_sc s))]
| p_no_where : production (X (N_where (Where None None))) []
| p_sfw s ts w : ts <> [] -> production (X (N_sfw (SFW s ts w)))
    ([Pt (X (N_select s)); keyb "FROM"] ++ commas (map (fun t => X (N_tref t)) ts) ++ [Pt (X (N_where w))])
| p_addon o s : production (X (N_addon (Addon o s)))
    [one_ofb ["UNION DISTINCT"; "UNION ALL"; "UNION"]%string o; Pt (X (N_sfw s))]
| p_gterm_ve e : production (X (N_gterm (GT_ve e))) [Pt (X (N_ve e))]
| p_gterm_col c : production (X (N_gterm (GT_col c))) [Pt (X_colref c)]
| p_sort k o ki oi :
    (exists c, k = SK_col c /\ ki = [Pt (X_colref c)]) \/ (exists n, k = SK_int n /\ ki = [whole n]) ->
    oi = [one_of ["ASC"; "DESC"]%string o] \/ oi = [] /\ o = [] ->
    production (X (N_sort (Sort k o))) (ki ++ oi)
| p_with n cols q (as_ : bool) : production (X (N_with (With n cols q)))
    ([keyb "WITH"; name n] ++ (if is_nil cols then [] else [mark "("] ++ names cols ++ [mark ")"]) ++
     (if as_ then [keyb "AS"] else []) ++ [Pt (X (N_subq q))])
| p_query w i ad g h o : production (X (N_qspec (QS w i ad g h o)))
    (optional (fun w => [Pt (X (N_with w))]) w ++ [Pt (X (N_sfw i))] ++ each N_addon ad ++
     (if is_nil g then [] else [keyb "GROUP"; keyb "BY"] ++ commas (map (fun x => X (N_gterm x)) g)) ++
     optional (fun s => [keyb "HAVING"; Pt (X (N_sc s))]) h ++
     (if is_nil o then [] else [keyb "ORDER"; keyb "BY"] ++ commas (map (fun x => X (N_sort x)) o)))
| p_subq_q q : production (X (N_subq (SQ_q q))) [mark "("; Pt (X (N_qspec q)); mark ")"]
| p_subq_jt j : production (X (N_subq (SQ_jt j))) [mark "("; Pt (X (N_jt j)); mark ")"].

(** [spells k t p]: the text [t], followed by [k], writes the part [p]. *)
Inductive spells : text -> text -> part -> Prop :=
| spells_part k t p its : production p its -> writes k t its -> spells k t p
with writes : text -> text -> list item -> Prop :=
| writes_end k w : white w -> writes k w []
| writes_terminal k w x t (P : terminal) its : white w -> P (t ++ k) x -> writes k t its -> writes k (w ++ x ++ t) (T P :: its)
| writes_part k w x t p its : white w -> spells (t ++ k) x p -> writes k t its -> writes k (w ++ x ++ t) (Pt p :: its).
End Grammar.

(** A text that writes a query, up to white space behind it. *)
Definition written (mapping : text -> option text) (t : text) (q : qspec) : Prop :=
  exists u w, t = u ++ w /\ white w /\ spells mapping w u (X (N_qspec q)).

(** ** Chains (C35) *)
Definition signed (f : factor) : list item :=
  match f with Factor s p => (if is_nil s then [] else [one_mark ["+"; "-"]%string s]) ++ [Pt (X (N_nprim p))] end.
(** operand, operator, operand, ..., in the order of the text *)
Definition operands (v : venb) : list item :=
  match v with
  | VENB f ts => signed f ++ flat_map (fun t => match t with VTerm o f => one_mark ["*"; "/"; "+"; "-"; "||"]%string o :: signed f end) ts
  end.
Fixpoint conditions (s : sc) : list item :=
  match s with
  | SC_f (BF n p) => [optional_not n; Pt (X (N_bprim p))]
  | SC_t (BF n p) o s' => [optional_not n; Pt (X (N_bprim p)); one_ofb ["AND"; "OR"]%string o] ++ conditions s'
  end.
(** ** Joins (C32) *)
Definition suffix_items (s : jsuf) : list item :=
  match s with
  | JS nat ty t sp =>
      (if nat then [keyb "NATURAL"] else []) ++
      match ty with
      | JTy_plain s => if is_nil s then [] else [one_ofb ["INNER"]%string s]
      | JTy_outer s o => one_ofb ["LEFT"; "RIGHT"; "FULL"]%string s :: if o then [keyb "OUTER"] else []
      end ++
      [keyb "JOIN"; Pt (X (N_tref t))] ++
      match sp with
      | None => []
      | Some (JSp_on s) => [keyb "ON"; Pt (X (N_sc s))]
      | Some (JSp_using l) => [keyb "USING"; mark "("] ++ names l ++ [mark ")"]
      end
  end.
Definition join_items (mapping : text -> option text) (j : jt) : list item :=
  match j with
  | JT_p j => [mark "("; Pt (X (N_jt j)); mark ")"]
  | JT_q (QJ h ss) =>
      match h with
      | QH_tc n a => [T (table_name mapping n); Pt (X_alias a)]
      | QH_jt j => [Pt (X (N_jt j))]
      end ++ flat_map suffix_items ss
  end.

(** ** Geometry conditions (C23) *)
(** The next thing behind white space is [s]. *)
Definition next (s : string) (k : text) : Prop := exists w r, k = w ++ L s ++ r /\ white w.
Definition flag_written (mapping : text -> option text) (k u : text) (g : geom) : Prop :=
  match g with
  | G_left f p => writes mapping k u [one_mark ["0"; "1"]%string f; mark "="; Pt (X (N_gpred p))]
  | G_right p f =>
      writes mapping k u [Pt (X (N_gpred p)); mark "="; one_mark ["0"; "1"]%string f] \/
      f = L "1" /\ writes mapping k u [Pt (X (N_gpred p))] /\ ~ next "=" k
  end.
(** ** Coordinate systems (C24) *)
Definition shape_frame (s : shape) : frame :=
  match s with Sh_point f _ | Sh_circle f _ _ | Sh_box f _ _ _ | Sh_ellipse f _ _ _ _ | Sh_polygon f _ => f end.
Definition shape_word (s : shape) : string :=
  match s with
  | Sh_point _ _ => "POINT" | Sh_circle _ _ _ => "CIRCLE" | Sh_box _ _ _ _ => "BOX" | Sh_ellipse _ _ _ _ _ => "ELLIPSE"
  | Sh_polygon _ _ => "POLYGON"
  end.
(** The shape an argument of a geometry condition or function is. *)
Definition node_shape (n : node) : option shape :=
  match n with N_soc (Soc_shape s) => Some s | N_poc (Poc_point f c) => Some (Sh_point f c) | _ => None end.
(** [t] is an optional frame name and an optional GEOCENTER between quotes, and [f] the frame named, or ICRS. *)
Definition system_text (t : text) (f : frame) : Prop :=
  exists w1 fr w2 ps w3, t = L "'" ++ w1 ++ fr ++ w2 ++ ps ++ w3 ++ L "'" /\ white w1 /\ white w2 /\ white w3 /\
    (upper fr = L (frame_name f) \/ fr = [] /\ f = ICRS) /\ (upper ps = L "GEOCENTER" \/ ps = []).
(** [rest] starts with such an argument and a comma, or there is none and the frame is ICRS. *)
Definition frame_written (rest : text) (f : frame) : Prop :=
  (exists w st w' r, rest = w ++ st ++ w' ++ L "," ++ r /\ white w /\ white w' /\ system_text st f) \/
  (f = ICRS /\ ~ next "'" rest).
(** ** Names of tables (C10) *)
Definition table_of (c : colref) : list text := match c with CR2 a _ => [a] | _ => [] end.
Definition parts_of (c : colref) : list text :=
  match c with CR1 a => [a] | CR2 _ b => [b] | CR3 a b c => [a; b; c] | CR4 a b c d => [a; b; c; d] end.
Definition csae_cols (c : csae) : list colref := match c with CS_col c => [c] | _ => [] end.
Definition coord_cols (c : coordinate) : list colref := match c with Coord a b => csae_cols a ++ csae_cols b end.
Definition shape_cols (s : shape) : list colref :=
  match s with
  | Sh_point _ c => coord_cols c
  | Sh_circle _ c r => coord_cols c ++ csae_cols r
  | Sh_box _ c w h => coord_cols c ++ csae_cols w ++ csae_cols h
  | Sh_ellipse _ c a b r => coord_cols c ++ csae_cols a ++ csae_cols b ++ csae_cols r
  | Sh_polygon _ cs => flat_map coord_cols cs
  end.
Definition node_cols (n : node) : list colref :=
  match n with
  | N_vepv (VP_col c) | N_gterm (GT_col c) | N_sort (Sort (SK_col c) _) | N_soc (Soc_col c) | N_poc (Poc_col c) => [c]
  | N_soc (Soc_shape s) => shape_cols s
  | N_poc (Poc_point _ c) => coord_cols c
  | _ => []
  end.
(** Names of tables that stand in one piece in the result: tables, [t.*], qualifiers of columns. *)
Definition node_tables (n : node) : list text :=
  match n with
  | N_tref (TR_tc v _) | N_qjhead (QH_tc v _) => [v]
  | _ => flat_map table_of (node_cols n)
  end.
(** The other names in columns. *)
Definition node_parts (n : node) : list text := flat_map parts_of (node_cols n).
Definition node_stars (n : node) : list text := match n with N_colv (CV_star s) => [s] | _ => [] end.
(** [v] is what TAP_UPLOAD.n, which occurs in [t], is mapped to. *)
Definition uploaded (mapping : text -> option text) (t v : text) : Prop :=
  exists n a b, t = a ++ L "TAP_UPLOAD." ++ n ++ b /\ identifier_before b n /\ mapping n = Some v.
(** Ordinary names: identifiers with points between them, none of which is TAP_UPLOAD. *)
Inductive ordinary : text -> Prop :=
| ordinary_one v k : identifier_before k v -> upper v <> L "TAP_UPLOAD" -> ordinary v
| ordinary_more v k w : identifier_before k v -> upper v <> L "TAP_UPLOAD" -> ordinary w -> ordinary (v ++ "."%char :: w).
