(** The empty() members that Ast.v leaves out, and empty() of any part of a query. *)
From Verif Require Import Ast SpecNodes.

(** Value_Expression_Non_Bool_Term.hxx:10 *)
Definition vterm_empty (t : vterm) : bool := match t with VTerm op _ => is_nil op end.
(** Searched_When.hxx:11 (Simple_When has no empty()) *)
Definition qwhen_empty (w : qwhen) : bool := match w with QWhen _ r => result_empty r end.
(** Table_Reference/empty.cxx:5, Table_Correlation.hxx:12, Joined_Table_Wrap/empty.cxx:5, Derived_Correlation.hxx:10,
    Table_Valued_Function.hxx:14 *)
Definition tref_empty (t : tref) : bool :=
  match t with TR_tc n _ => is_nil n | TR_jt j => jt_empty j | TR_dc q _ => subq_empty q | TR_tvf f _ => is_nil f end.
(** Group_By_Term/empty.cxx:5 *)
Definition gterm_empty (t : gterm) : bool := match t with GT_col c => colref_empty c | GT_ve v => ve_empty v end.
(** Select.hxx:19: boost::variant::empty(), which is constantly false *)
Definition select_empty (s : select) : bool := false.
(** Point_or_Column: a variant of Point (Point.hxx:12) and a column *)
Definition poc_empty (p : poc) : bool := match p with Poc_point _ c => coordinate_empty c | Poc_col c => colref_empty c end.

(** The parts without an empty() of their own: WHEN .. THEN, the right side of IN, the first table of a join (its empty() is that
    of the join), columns, sort keys, and components behind an operator.  Join_Suffix::empty(), Join_Suffix.hxx:15, calls a
    function that is defined nowhere. *)
Definition node_empty (n : node) : bool :=
  match n with
  | N_ve v => ve_empty v | N_venb v => venb_empty v | N_vterm v => vterm_empty v | N_factor v => factor_empty v
  | N_nprim v => nprim_empty v | N_nvf v => nvf_empty v | N_vep v => vep_empty v | N_vepv v => vepv_empty v
  | N_qwhen v => qwhen_empty v | N_result v => result_empty v | N_sc v => sc_empty v | N_bfac v => bfac_empty v
  | N_bprim v => bprim_empty v | N_pred v => pred_empty v | N_subq v => subq_empty v | N_jt v => jt_empty v
  | N_jspec v => jspec_empty v | N_tref v => tref_empty v | N_qspec v => qspec_empty v | N_with v => with_empty v
  | N_sfw v => sfw_empty v | N_where v => where_empty v | N_geom v => geom_empty v | N_gpred v => gpred_empty v
  | N_select v => select_empty v | N_gterm v => gterm_empty v | N_soc v => soc_empty v | N_poc v => poc_empty v
  | N_swhen _ | N_intarget _ | N_qjhead _ | N_jsuf _ | N_addon _ | N_columns _ | N_colv _ | N_sort _ => false
  end.
