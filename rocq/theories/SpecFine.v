(** What it takes, part by part, for the normal form of a query to be canonical (C13): the conditions of
    SpecCanon.v, each on the part that it speaks about. *)
From Verif Require Import Chars Ast Print SpecLexical SpecCanon SpecNorm SpecNodes.

Section Fine.
Variable fmt : text -> text.
Definition plain_where (w : wherec) : bool := match w with Where None _ => true | Where (Some _) _ => false end.
Definition plain_sfw (s : sfw) : bool := match s with SFW _ _ w => plain_where w end.
(** no condition on geometries in the query or the queries united with it *)
Definition plain_query (q : qspec) : bool :=
  match q with QS _ i ad _ _ _ => plain_sfw i && forallb (fun a => match a with Addon _ s => plain_sfw s end) ad end.
Definition not_query (t : text) : bool := negb (begins_with_nc "SELECT" t) && negb (begins_with_nc "WITH" t).

Definition fine (n : node) : bool :=
  match n with
  | N_ve (VE_nb _) => true
  | N_ve (VE_sc s) => no_value s
  | N_venb (VENB f ts) => no_comments f ts
  | N_vterm (VTerm op _) => one_of op ["*"; "/"; "+"; "-"; "||"]%string
  | N_factor (Factor s _) => one_of s [""; "+"; "-"]%string
  | N_nprim _ => true
  | N_nvf f =>
      match f with
      | NV_trig1 f _ => one_of_nc f ["ACOS"; "ASIN"; "ATAN"; "COS"; "COT"; "SIN"; "TAN"]%string
      | NV_trig2 f _ _ => one_of_nc f ["ATAN2"]%string
      | NV_math0 f => one_of_nc f ["PI"; "RAND"]%string
      | NV_math1 f _ => one_of_nc f ["ABS"; "CEILING"; "DEGREES"; "EXP"; "FLOOR"; "LOG"; "LOG10"; "RADIANS"; "RAND"; "ROUND"; "SQRT"; "TRUNCATE"]%string
      | NV_math2 f _ _ => one_of_nc f ["MOD"; "POWER"; "ROUND"; "TRUNCATE"]%string
      | NV_cast _ t n =>
          one_of_nc t ["BIGINT"; "CHAR"; "FLOAT4"; "FLOAT8"; "INTEGER"; "NUMERIC"; "TEXT"; "VARCHAR"; "VARCHAR2"]%string &&
          (is_nil n || is_digits n)
      | NV_geo1 f _ => one_of_nc f ["COORD1"; "COORD2"]%string
      | NV_geo2 f _ _ => one_of_nc f ["DISTANCE"]%string
      | NV_udf f _ =>
          free_word f && negb (one_of_nc f ["COT"%string]) || one_of_nc f ["DISTINCT"; "LEFT"; "LOWER"; "RIGHT"; "TRIM"; "UPPER"]%string
      | NV_str s => one_of_nc s ["CURRENT_TIMESTAMP"%string]
      end
  | N_vep (VEP v idx) => is_nil idx || match v with VP_col (CR1 w) => negb (one_of_nc w ["ARRAY"%string]) | _ => true end
  | N_vepv v =>
      match v with
      | VP_array l => negb (is_nil l)
      | VP_str s => is_number s || is_quoted sq s || one_of_nc s ["TRUE"; "FALSE"; "NULL"; "NULL::CHAR"; "NULL::INT"; "NULL::FLOAT"]%string
      | VP_col c => c_colref is_value_name c
      | VP_setstr s => one_of_nc s ["COUNT(*)"%string]
      | VP_set ty q _ => one_of_nc ty ["AVG"; "COUNT"; "MAX"; "MIN"; "SUM"]%string && (is_nil q || one_of_nc q ["ALL"; "DISTINCT"]%string)
      | VP_coalesce l => negb (is_nil l)
      | VP_case _ w _ => negb (is_nil w)
      | VP_scase w _ => negb (is_nil w)
      | VP_nullif _ _ | VP_any _ | VP_sub _ => true
      end
  | N_swhen _ | N_qwhen _ => true
  | N_result (Res_str _) => false
  | N_result (Res_ve _) => true
  | N_sc (SC_f _) => true
  | N_sc (SC_t f op _) => one_of_nc op ["AND"; "OR"]%string && negb (open_f f)
  | N_bfac (BF n p) => if is_nil n then negb (begins_with_nc "NOT" (pr_bprim fmt p)) else one_of_nc n ["NOT"%string]
  | N_bprim (BP_val v) => negb (head_is "(" (pr_venb fmt v)) && negb (begins_with_nc "EXISTS" (pr_venb fmt v))
  | N_bprim _ => true
  | N_pred p =>
      match p with
      | P_cmp _ op _ => one_of op ["="; "!="; "<>"; "<="; ">="; "<"; ">"]%string
      | P_between _ n lo _ => (is_nil n || one_of_nc n ["NOT"%string]) && negb (open_ve lo)
      | P_like _ _ p => negb (open_ve p)
      | P_in _ _ _ | P_null _ _ | P_exists _ => true
      end
  | N_intarget (In_sub _) => true
  | N_intarget (In_list l) => match l with x :: _ => not_query (pr_ve fmt x) | [] => false end
  | N_subq (SQ_jt j) => not_query (pr_jt fmt j)
  | N_subq (SQ_q q) => plain_query q
  | N_jt (JT_q (QJ _ ss)) => negb (is_nil ss) && in_turn ss
  | N_jt (JT_p _) => true
  | N_qjhead (QH_tc n a) => is_table_name n && (is_nil a || is_name a)
  | N_qjhead (QH_jt j) => match j with JT_p _ => true | JT_q _ => false end
  | N_jsuf (JS _ ty t sp) =>
      match ty with
      | JTy_plain s => is_nil s || one_of_nc s ["INNER"%string]
      | JTy_outer s _ => one_of_nc s ["FULL"; "LEFT"; "RIGHT"]%string
      end && match sp with None => true | Some _ => negb (takes_spec t) end
  | N_jspec (JSp_using l) => negb (is_nil l) && forallb is_name l
  | N_jspec (JSp_on _) => true
  | N_tref t =>
      match t with
      | TR_tc n a => is_table_name n && (is_nil a || is_name a)
      | TR_jt _ => true
      | TR_dc q a => match q with SQ_q _ => true | SQ_jt _ => false end && is_name a
      | TR_tvf f args => is_dotted f && negb (is_nil args) && forallb is_dotted args
      end
  | N_qspec _ => true
  | N_with (With n cols _) => is_name n && forallb is_name cols
  | N_addon (Addon op _) => one_of_nc op ["UNION"; "UNION ALL"; "UNION DISTINCT"]%string
  | N_sfw (SFW _ ts _) => negb (is_nil ts)
  | N_where _ => true
  | N_geom (G_left fl _) => one_of fl ["0"; "1"]%string
  | N_geom (G_right _ fl) => one_of fl ["0"; "1"]%string
  | N_gpred _ => true
  | N_select (Select q top _) => (is_nil q || one_of_nc q ["ALL"; "DISTINCT"]%string) && (top <=? top_none)%N
  | N_columns (C_star s) => text_eqb s (L "*")
  | N_columns (C_list l) => negb (is_nil l)
  | N_colv (CV_as _ a) => is_name a
  | N_colv (CV_star s) => existsb (fun '(n, r) => text_eqb r (L "*") && table_name_from is_value_name n) (cuts "." s)
  | N_colv (CV_ve _) => true
  | N_gterm (GT_ve _) => true
  | N_gterm (GT_col _) => false
  | N_sort (Sort k o) => match k with SK_col c => c_colref is_name c | SK_int d => is_digits d end && (is_nil o || one_of_nc o ["ASC"; "DESC"]%string)
  | N_soc s => c_soc fmt (n_soc fmt s)
  | N_poc p => c_poc fmt (n_poc fmt p)
  end.
End Fine.
