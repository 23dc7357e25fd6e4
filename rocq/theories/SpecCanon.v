(** Queries in the form in which the parser builds them ("canonical" queries): the queries for which
    writing and reading again is expected to give the same query back (C13).

    The definitions speak about the abstract syntax only; the parser is not mentioned.  They are
    decision procedures, so that membership of a concrete query can be computed. *)
From Verif Require Import Chars Ast Print SpecLexical.

(** ** Texts *)
Definition one_of (t : text) (ws : list string) : bool := existsb (fun w => text_eqb t (L w)) ws.
(** one of the words [ws] in some mixture of upper and lower case *)
Definition one_of_nc (t : text) (ws : list string) : bool := one_of (upper t) ws.
Definition begins_with_nc (w : string) (t : text) : bool := match strip true (L w) t with Some _ => true | None => false end.
Definition head_is (c : ascii) (t : text) : bool := match t with x :: _ => Ascii.eqb x c | [] => false end.

Definition is_word (t : text) : bool := match t with c :: t' => is_letter c && forallb is_idchar t' | [] => false end.
(** [t] with every [q] doubled *)
Fixpoint is_doubled (q : ascii) (t : text) : bool :=
  match t with
  | [] => true
  | c :: t' => if Ascii.eqb c q then match t' with d :: t2 => Ascii.eqb d q && is_doubled q t2 | [] => false end
               else is_doubled q t'
  end.
(** [t] is [q], a text, [q]; the text in the middle *)
Definition between (q : ascii) (t : text) : option text :=
  match t with
  | c :: t' => match rev t' with d :: b => if Ascii.eqb c q && Ascii.eqb d q then Some (rev b) else None | [] => None end
  | [] => None
  end.
Definition is_quoted (q : ascii) (t : text) : bool :=
  match between q t with Some b => is_doubled q b | None => false end.
Definition is_delimited (t : text) : bool :=
  match between dq t with Some b => is_doubled dq b && negb (is_nil b) | None => false end.
(** A name: a word that is not reserved, or a delimited identifier. *)
Definition free_word (t : text) : bool := is_word t && negb (one_of_nc t (sql_words ++ adql_words)).
Definition is_name (t : text) : bool := free_word t || is_delimited t.
(** A name that is not taken for a literal or a function in front of a value (the finding of C06). *)
Definition is_value_name (t : text) : bool :=
  is_name t && negb (begins_with_nc "TRUE" t || begins_with_nc "FALSE" t || begins_with_nc "CURRENT_TIMESTAMP" t || one_of_nc t ["COT"%string]).
(** All ways to cut [t] at a [c]. *)
Fixpoint cuts (c : ascii) (t : text) : list (text * text) :=
  match t with
  | [] => []
  | x :: t' => (if Ascii.eqb x c then [([], t')] else []) ++ map (fun '(a, b) => (x :: a, b)) (cuts c t')
  end.
(** One, two or three names with points between. *)
Definition table_name_from (f : text -> bool) (t : text) : bool :=
  f t || existsb (fun '(a, b) => f a && (is_name b || existsb (fun '(b1, b2) => is_name b1 && is_name b2) (cuts "." b))) (cuts "." t).
Definition is_table_name : text -> bool := table_name_from is_name.
Definition is_digits (t : text) : bool := negb (is_nil t) && forallb is_digit t.
Definition is_mantissa (t : text) : bool :=
  is_digits t || existsb (fun '(a, b) => (is_nil a || is_digits a) && is_digits b) (cuts "." t).
Definition is_exponent (t : text) : bool :=
  is_digits t || match t with c :: t' => (Ascii.eqb c "+" || Ascii.eqb c "-") && is_digits t' | [] => false end.
Definition is_number (t : text) : bool :=
  is_mantissa t || existsb (fun '(a, b) => is_mantissa a && is_exponent b) (cuts "e" t ++ cuts "E" t).
(** Letters, digits, underscores and points behind a letter. *)
Definition is_dotted (t : text) : bool :=
  match t with c :: t' => is_letter c && forallb (fun x => is_idchar x || Ascii.eqb x ".") t' | [] => false end.

Section Canon.
Variable fmt : text -> text.

(** ** Names of columns, numbers in shapes, shapes *)
Definition c_colref (f : text -> bool) (c : colref) : bool :=
  match c with
  | CR4 a b c d => f a && is_name b && is_name c && is_name d
  | CR3 b c d => f b && is_name c && is_name d
  | CR2 c d => f c && is_name d
  | CR1 d => f d
  end.
(** A number with or without sign that is written as it is. *)
Definition c_double (d : text) : bool :=
  (is_number d || match d with c :: d' => (Ascii.eqb c "+" || Ascii.eqb c "-") && is_number d' | [] => false end) && text_eqb (fmt d) d.
Definition c_csae (c : csae) : bool :=
  match c with
  | CS_bae a op b => c_double a && one_of op ["+"; "-"; "*"; "/"]%string && c_double b
  | CS_col c => c_colref is_name c
  | CS_dbl d => c_double d
  end.
Definition c_coord (c : coordinate) : bool := match c with Coord a b => c_csae a && c_csae b end.
Definition c_shape (s : shape) : bool :=
  match s with
  | Sh_point _ c => c_coord c
  | Sh_circle _ c r => c_coord c && c_csae r
  | Sh_box _ c w h => c_coord c && c_csae w && c_csae h
  | Sh_ellipse _ c a b r => c_coord c && c_csae a && c_csae b && c_csae r
  | Sh_polygon _ cs => negb (is_nil cs) && forallb c_coord cs
  end.
Definition c_soc (s : soc) : bool := match s with Soc_shape s => c_shape s | Soc_col c => c_colref is_name c end.
Definition c_poc (s : poc) : bool := match s with Poc_point _ c => c_coord c | Poc_col c => c_colref is_name c end.

(** ** Which kind of value a condition in parentheses is read as

    "(c)" is read as a value when [c] starts with NOT or EXISTS, is a single value, or is a single
    condition in parentheses; [no_value c]: the text of [c] does not start with a value. *)
Fixpoint is_value (s : sc) : bool :=
  match s with
  | SC_f (BF n p) => negb (is_nil n) || match p with BP_pred (P_exists _) => true | BP_pred _ => false | BP_sc _ => true | BP_val _ => true end
  | SC_t (BF n p) _ _ => negb (is_nil n) || match p with BP_pred (P_exists _) => true | BP_pred _ => false | BP_sc s' => negb (is_value s') | BP_val _ => false end
  end.
Definition no_value_f (f : bfac) : bool :=
  match f with BF n p => negb (is_nil n) || match p with BP_pred (P_exists _) => true | BP_sc s' => negb (is_value s') | _ => false end end.
Definition no_value (s : sc) : bool := match s with SC_f f => no_value_f f | SC_t f _ _ => no_value_f f end.

(** ** How a condition ends

    [open]: it ends in a value that is itself a condition, which would take in a following AND or OR;
    [bare]: it ends in a value without operator, which would take in a following operator. *)
Definition open_ve (v : ve) : bool := match v with VE_nb _ => false | VE_sc _ => true end.
Definition open_f (f : bfac) : bool :=
  match f with
  | BF _ (BP_pred (P_cmp _ _ r)) => open_ve r
  | BF _ (BP_pred (P_between _ _ _ hi)) => open_ve hi
  | _ => false
  end.
Fixpoint bare (s : sc) : bool :=
  match s with SC_f f => bare_f f | SC_t _ _ s' => bare s' end
with bare_f (f : bfac) : bool :=
  match f with BF _ p => bare_p p end
with bare_p (p : bprim) : bool :=
  match p with BP_pred p => bare_pred p | BP_sc s => is_value s | BP_val _ => true end
with bare_pred (p : pred) : bool :=
  match p with P_cmp _ _ r => bare_ve r | P_between _ _ _ hi => bare_ve hi | _ => false end
with bare_ve (v : ve) : bool :=
  match v with VE_nb _ => false | VE_sc s => bare s end.

(** ** Joins: what may be followed by more *)
Definition takes_joins (t : tref) : bool := match t with TR_tc _ _ | TR_jt _ => true | TR_dc _ _ | TR_tvf _ _ => false end.
(** a condition (ON, USING) behind [t] would belong to the last join inside [t] *)
Definition takes_spec (t : tref) : bool :=
  match t with
  | TR_jt (JT_q (QJ _ ss)) => match rev ss with JS _ _ _ None :: _ => true | _ => false end
  | _ => false
  end.
Definition joins_in_turn (s1 s2 : jsuf) : bool :=
  match s1, s2 with
  | JS _ _ t sp, JS nat ty _ _ =>
      match sp with
      | None => negb (takes_joins t)
      | Some (JSp_using _) => true
      | Some (JSp_on s) => negb (bare s && negb nat && match ty with JTy_plain (_ :: _) => true | _ => false end)
      end
  end.
Fixpoint in_turn (ss : list jsuf) : bool :=
  match ss with s1 :: ((s2 :: _) as r) => joins_in_turn s1 s2 && in_turn r | _ => true end.

(** ** Sums *)
Definition sign_of (f : factor) : text := match f with Factor s _ => s end.
(** a string literal, which a following comment could continue *)
Definition is_string (f : factor) : bool :=
  match f with Factor _ (NP_vep (VEP (VP_str s) [])) => head_is sq s | _ => false end.
Fixpoint no_comments (f : factor) (ts : list vterm) : bool :=
  match ts with
  | [] => true
  | VTerm op f2 :: ts' => negb (is_string f && text_eqb op (L "-") && text_eqb (sign_of f2) (L "-")) && no_comments f2 ts'
  end.

Fixpoint c_ve (v : ve) : bool :=
  match v with VE_nb v => c_venb v | VE_sc s => c_sc s && no_value s end
with c_venb (v : venb) : bool :=
  match v with VENB f ts => c_factor f && forallb c_vterm ts && no_comments f ts end
with c_vterm (t : vterm) : bool :=
  match t with VTerm op f => one_of op ["*"; "/"; "+"; "-"; "||"]%string && c_factor f end
with c_factor (f : factor) : bool :=
  match f with Factor s p => one_of s [""; "+"; "-"]%string && c_nprim p end
with c_nprim (p : nprim) : bool :=
  match p with NP_vep p => c_vep p | NP_nvf f => c_nvf f end
with c_nvf (f : nvf) : bool :=
  match f with
  | NV_trig1 f a => one_of_nc f ["ACOS"; "ASIN"; "ATAN"; "COS"; "COT"; "SIN"; "TAN"]%string && c_ve a
  | NV_trig2 f a b => one_of_nc f ["ATAN2"]%string && c_ve a && c_ve b
  | NV_math0 f => one_of_nc f ["PI"; "RAND"]%string
  | NV_math1 f a => one_of_nc f ["ABS"; "CEILING"; "DEGREES"; "EXP"; "FLOOR"; "LOG"; "LOG10"; "RADIANS"; "RAND"; "ROUND"; "SQRT"; "TRUNCATE"]%string && c_ve a
  | NV_math2 f a b => one_of_nc f ["MOD"; "POWER"; "ROUND"; "TRUNCATE"]%string && c_ve a && c_ve b
  | NV_cast a t n =>
      c_ve a && one_of_nc t ["BIGINT"; "CHAR"; "FLOAT4"; "FLOAT8"; "INTEGER"; "NUMERIC"; "TEXT"; "VARCHAR"; "VARCHAR2"]%string &&
      (is_nil n || is_digits n)
  | NV_geo1 f a => one_of_nc f ["COORD1"; "COORD2"]%string && c_poc a
  | NV_geo2 f a b => one_of_nc f ["DISTANCE"]%string && c_poc a && c_poc b
  | NV_udf f args =>
      (free_word f && negb (one_of_nc f ["COT"%string]) || one_of_nc f ["DISTINCT"; "LEFT"; "LOWER"; "RIGHT"; "TRIM"; "UPPER"]%string) && forallb c_ve args
  | NV_str s => one_of_nc s ["CURRENT_TIMESTAMP"%string]
  end
with c_vep (v : vep) : bool :=
  match v with
  | VEP v idx => c_vepv v && forallb c_ve idx && (is_nil idx || match v with VP_col (CR1 w) => negb (one_of_nc w ["ARRAY"%string]) | _ => true end)
  end
with c_vepv (v : vepv) : bool :=
  match v with
  | VP_array l => negb (is_nil l) && forallb c_ve l
  | VP_str s => is_number s || is_quoted sq s || one_of_nc s ["TRUE"; "FALSE"; "NULL"; "NULL::CHAR"; "NULL::INT"; "NULL::FLOAT"]%string
  | VP_col c => c_colref is_value_name c
  | VP_setstr s => one_of_nc s ["COUNT(*)"%string]
  | VP_set ty q a =>
      one_of_nc ty ["AVG"; "COUNT"; "MAX"; "MIN"; "SUM"]%string && (is_nil q || one_of_nc q ["ALL"; "DISTINCT"]%string) && c_ve a
  | VP_nullif a b => c_ve a && c_ve b
  | VP_coalesce l => negb (is_nil l) && forallb c_ve l
  | VP_case x w e => c_ve x && negb (is_nil w) && forallb c_swhen w && match e with None => true | Some r => c_result r end
  | VP_scase w e => negb (is_nil w) && forallb c_qwhen w && match e with None => true | Some r => c_result r end
  | VP_any a => c_ve a
  | VP_sub a => c_ve a
  end
with c_swhen (w : swhen) : bool := match w with SWhen a r => c_ve a && c_result r end
with c_qwhen (w : qwhen) : bool := match w with QWhen c r => c_sc c && c_result r end
with c_result (r : result) : bool := match r with Res_str _ => false | Res_ve a => c_ve a end
with c_sc (s : sc) : bool :=
  match s with
  | SC_f f => c_bfac f
  | SC_t f op s' => c_bfac f && one_of op ["AND"; "OR"]%string && c_sc s' && negb (open_f f)
  end
with c_bfac (f : bfac) : bool :=
  match f with BF n p => (if is_nil n then negb (begins_with_nc "NOT" (pr_bprim fmt p)) else one_of_nc n ["NOT"%string]) && c_bprim p end
with c_bprim (p : bprim) : bool :=
  match p with
  | BP_pred p => c_pred p
  | BP_sc s => c_sc s
  | BP_val v => c_venb v && negb (head_is "(" (pr_venb fmt v)) && negb (begins_with_nc "EXISTS" (pr_venb fmt v))
  end
with c_pred (p : pred) : bool :=
  match p with
  | P_cmp l op r => c_venb l && one_of op ["="; "!="; "<>"; "<="; ">="; "<"; ">"]%string && c_ve r
  | P_between v n lo hi => c_venb v && (is_nil n || one_of_nc n ["NOT"%string]) && c_ve lo && negb (open_ve lo) && c_ve hi
  | P_in v n t => c_venb v && one_of n [""; "NOT "]%string && c_intarget t
  | P_null v n => c_venb v && one_of n [""; "NOT"]%string
  | P_like v n p => c_venb v && one_of n [""; "NOT"]%string && c_ve p && negb (open_ve p)
  | P_exists q => c_subq q
  end
with c_intarget (t : intarget) : bool :=
  match t with
  | In_sub q => c_subq q
  | In_list l =>
      negb (is_nil l) && forallb c_ve l &&
      match l with x :: _ => negb (begins_with_nc "SELECT" (pr_ve fmt x)) && negb (begins_with_nc "WITH" (pr_ve fmt x)) | [] => true end
  end
with c_subq (q : subq) : bool :=
  match q with
  | SQ_jt j => c_jt j && negb (begins_with_nc "SELECT" (pr_jt fmt j)) && negb (begins_with_nc "WITH" (pr_jt fmt j))
  | SQ_q q => c_qspec false q
  end
with c_jt (j : jt) : bool := match j with JT_q q => c_qjoin q | JT_p j => c_jt j end
with c_qjoin (q : qjoin) : bool :=
  match q with QJ h ss => c_qjhead h && negb (is_nil ss) && forallb c_jsuf ss && in_turn ss end
with c_qjhead (h : qjhead) : bool :=
  match h with
  | QH_tc n a => is_table_name n && (is_nil a || is_name a)
  | QH_jt j => match j with JT_p j' => c_jt j' | JT_q _ => false end
  end
with c_jsuf (s : jsuf) : bool :=
  match s with
  | JS nat ty t sp =>
      match ty with
      | JTy_plain s => is_nil s || one_of_nc s ["INNER"%string]
      | JTy_outer s _ => one_of_nc s ["FULL"; "LEFT"; "RIGHT"]%string
      end && c_tref t &&
      match sp with None => true | Some sp => c_jspec sp && negb (takes_spec t) end
  end
with c_jspec (s : jspec) : bool :=
  match s with JSp_using l => negb (is_nil l) && forallb is_name l | JSp_on s => c_sc s end
with c_tref (t : tref) : bool :=
  match t with
  | TR_tc n a => is_table_name n && (is_nil a || is_name a)
  | TR_jt j => c_jt j
  | TR_dc q a => match q with SQ_q q => c_qspec false q | SQ_jt _ => false end && is_name a
  | TR_tvf f args => is_dotted f && negb (is_nil args) && forallb is_dotted args
  end
(** [geo]: conditions on geometries are allowed in the WHERE clauses *)
with c_qspec (geo : bool) (q : qspec) : bool :=
  match q with
  | QS w i ad g h o =>
      match w with None => true | Some w => c_with w end && c_sfw geo i && forallb (c_addon geo) ad && forallb c_gterm g &&
      match h with None => true | Some s => c_sc s end &&
      forallb (fun s => match s with
                        | Sort k o => match k with SK_col c => c_colref is_name c | SK_int d => is_digits d end && (is_nil o || one_of_nc o ["ASC"; "DESC"]%string)
                        end) o
  end
with c_with (w : withc) : bool :=
  match w with With n cols q => is_name n && forallb is_name cols && c_subq q end
with c_addon (geo : bool) (a : addon) : bool :=
  match a with Addon op s => one_of op ["UNION"; "UNION ALL"; "UNION DISTINCT"]%string && c_sfw geo s end
with c_sfw (geo : bool) (s : sfw) : bool :=
  match s with SFW s ts w => c_select s && negb (is_nil ts) && forallb c_tref ts && c_where geo w end
with c_where (geo : bool) (w : wherec) : bool :=
  match w with
  | Where g s =>
      match g with None => true | Some g => geo && c_geom g end && match s with None => true | Some s => c_sc s end
  end
with c_geom (g : geom) : bool :=
  match g with G_left _ _ => false | G_right p fl => c_gpred p && one_of fl ["0"; "1"]%string end
with c_gpred (p : gpred) : bool :=
  match p with GP_intersects e s => c_ve e && c_soc s | GP_contains a b => c_soc a && c_soc b end
with c_select (s : select) : bool :=
  match s with Select q top c => (is_nil q || one_of_nc q ["ALL"; "DISTINCT"]%string) && (top <=? top_none)%N && c_columns c end
with c_columns (c : columns) : bool :=
  match c with C_star s => text_eqb s (L "*") | C_list l => negb (is_nil l) && forallb c_colv l end
with c_colv (c : colv) : bool :=
  match c with
  | CV_as e a => c_ve e && is_name a
  | CV_star s => existsb (fun '(n, r) => text_eqb r (L "*") && table_name_from is_value_name n) (cuts "." s)
  | CV_ve e => c_ve e
  end
with c_gterm (g : gterm) : bool := match g with GT_ve e => c_ve e | GT_col _ => false end.

(** A query as the parser builds it. *)
Definition canonical (q : qspec) : bool := c_qspec true q.
End Canon.
