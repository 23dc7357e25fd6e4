(** ADQL::Query: construction (/repo/src/Query/Query.cxx:140-175) and the accessors of
    /repo/src/Query.hxx, Query/Query_Specification.hxx,
    Query/Query_Specification/Select_From_Where_List.hxx and Query/simplified_columns.cxx. *)
From Verif Require Export Grammar Preprocess Print.

(** std::map<std::string,std::string>: an association list with at most one entry per key
    (with several, the first counts).  [lookup] is std::map::find as used by checked_mapping,
    init_column_reference.cxx:6-13. *)
Definition mapping := list (text * text).
Fixpoint lookup (tm : mapping) (k : text) : option text :=
  match tm with
  | [] => None
  | (a, v) :: tm' => if text_eqb a k then Some v else lookup tm' k
  end.

(** Query.hxx:23: the mapping of Query(input), "{{}}": one default-constructed pair. *)
Definition default_mapping : mapping := [([], [])].

Inductive qerr : Set :=
| E_paren (e : paren_error)      (* check_and_adjust_parens *)
| E_table (name : text)          (* "Error: The table TAP_UPLOAD.<name> was not found. ..." *)
| E_expect (rest : text)         (* on_error: "Error: Expecting <what> here: \"<rest>\"" *)
| E_select (input : text)        (* "Error: Expecting <SELECT> here: \"<input>\"" *)
| E_trailing (rest : text)       (* "Error: Unexpected terms at the end: <rest>" *)
| E_fuel.                        (* model artefact; Totality shows that it does not occur *)

Inductive qres : Set := Q_ok (q : qspec) | Q_err (e : qerr).

(** Rule nesting allowed for an input: enough, see Totality. *)
Definition fuel_for (i : text) : nat := 3 * length i + 4.

(** phrase_parse and the checks around it, Query.cxx:140-154; on_error, init_query.cxx:127-134. *)
Definition parse_it (tm : mapping) (input : text) : qres :=
  match grun (lookup tm) (fuel_for input) (g_query (lookup tm)) input with
  | Ok q r => match skip r with [] => Q_ok q | _ => Q_err (E_trailing (skip r)) end
  | Fail _ => Q_err (E_select input)
  | Throw (ExExpect at_) => Q_err (E_expect at_)
  | Throw (ExTable n) => Q_err (E_table n)
  | OOF => Q_err E_fuel
  end.

(** Query::Query, Query.cxx:161-175 *)
Definition query (tm : mapping) (input : text) : qres :=
  match preprocess input with
  | inl e => Q_err (E_paren e)
  | inr t => parse_it tm t
  end.

(** * Accessors *)
Inductive acc (A : Type) : Type :=
| A_ok (v : A)
| A_throw                        (* std::runtime_error of validate_sfw_index / get_union_op *)
| A_range.                       (* std::out_of_range of vector::at *)
Arguments A_ok {A}. Arguments A_throw {A}. Arguments A_range {A}.

Definition abind {A B} (a : acc A) (f : A -> acc B) : acc B :=
  match a with A_ok v => f v | A_throw => A_throw | A_range => A_range end.

(** vector::at; the index is an unsigned int *)
Definition at_ {A} (l : list A) (i : N) : acc A :=
  match nth_error l (N.to_nat i) with Some v => A_ok v | None => A_range end.

Definition uint_mod : N := (2 ^ 32)%N.

Definition q_initial (q : qspec) : sfw := match q with QS _ i _ _ _ _ => i end.
Definition q_addons (q : qspec) : list addon := match q with QS _ _ a _ _ _ => a end.
Definition q_with (q : qspec) : option withc := match q with QS w _ _ _ _ _ => w end.
Definition q_group (q : qspec) : list gterm := match q with QS _ _ _ g _ _ => g end.
Definition q_having (q : qspec) : option sc := match q with QS _ _ _ _ h _ => h end.
Definition q_order (q : qspec) : list sort_spec := match q with QS _ _ _ _ _ o => o end.
Definition sfw_select (s : sfw) : select := match s with SFW s _ _ => s end.
Definition sfw_tables (s : sfw) : list tref := match s with SFW _ t _ => t end.
Definition sfw_where (s : sfw) : wherec := match s with SFW _ _ w => w end.
Definition addon_op (a : addon) : text := match a with Addon o _ => o end.
Definition addon_sfw (a : addon) : sfw := match a with Addon _ s => s end.
Definition sel_quant (s : select) : text := match s with Select q _ _ => q end.
Definition sel_top (s : select) : N := match s with Select _ t _ => t end.
Definition sel_columns (s : select) : columns := match s with Select _ _ c => c end.
Definition where_geom (w : wherec) : option geom := match w with Where g _ => g end.
Definition where_sc (w : wherec) : option sc := match w with Where _ s => s end.

(** get_num_sfws, Select_From_Where_List.hxx:78-83 = get_num_union_components,
    Query_Specification.hxx:42-44: size_t converted to uint. *)
Definition get_num_sfws (q : qspec) : N :=
  if sfw_empty (q_initial q) then 0
  else ((1 + N.of_nat (length (q_addons q))) mod uint_mod)%N.

(** Query_Specification.hxx:46 *)
Definition is_union_query (q : qspec) : bool := (1 <? get_num_sfws q)%N.

(** Select_From_Where_List.hxx:39-44 *)
Definition validate_sfw_index (q : qspec) (i : N) : acc unit :=
  if (get_num_sfws q <=? i)%N then A_throw else A_ok tt.

(** Select_From_Where_List.hxx:52-67 *)
Definition get_sfw (q : qspec) (i : N) : acc sfw :=
  if (i =? 0)%N then A_ok (q_initial q)
  else abind (validate_sfw_index q i) (fun _ =>
       abind (at_ (q_addons q) (i - 1)) (fun a => A_ok (addon_sfw a))).

(** Select_From_Where_List.hxx:69-75 *)
Definition get_union_op (q : qspec) (i : N) : acc text :=
  if ((0 <? i) && (i <? get_num_sfws q))%N
  then abind (at_ (q_addons q) (i - 1)) (fun a => A_ok (addon_op a))
  else A_throw.

(** Select_From_Where_List.hxx:85-103 *)
Definition get_where (q : qspec) (i : N) : acc wherec :=
  abind (validate_sfw_index q i) (fun _ => abind (get_sfw q i) (fun s => A_ok (sfw_where s))).
Definition get_select (q : qspec) (i : N) : acc select :=
  abind (validate_sfw_index q i) (fun _ => abind (get_sfw q i) (fun s => A_ok (sfw_select s))).
Definition get_initial_table (q : qspec) (i : N) : acc tref :=
  abind (validate_sfw_index q i) (fun _ => abind (get_sfw q i) (fun s => at_ (sfw_tables s) 0)).

(** The loops of get_combined_table_list and get_table_lists_by_sfw,
    Select_From_Where_List.hxx:106-133: [for (uint i = 0; i < num_sfws; ++i)]. *)
Fixpoint table_loop (q : qspec) (n : nat) (i : N) : acc (list (list tref)) :=
  match n with
  | O => A_ok []
  | S n' =>
      abind (get_sfw q i) (fun s =>
      abind (table_loop q n' (i + 1)%N) (fun l => A_ok (sfw_tables s :: l)))
  end.
Definition get_table_lists_by_sfw (q : qspec) : acc (list (list tref)) :=
  table_loop q (N.to_nat (get_num_sfws q)) 0.
Definition get_combined_table_list (q : qspec) : acc (list tref) :=
  if sfw_empty (q_initial q) then A_ok []
  else abind (table_loop q (N.to_nat (get_num_sfws q)) 0) (fun l => A_ok (concat l)).

(** Query.hxx:31-41 *)
Definition simple_spatial_query (q : qspec) : bool :=
  (get_num_sfws q =? 1)%N &&
  (is_nil (sel_quant (sfw_select (q_initial q))) ||
   text_eqb (sel_quant (sfw_select (q_initial q))) (L "ALL")) &&
  opt_empty sc_empty (where_sc (sfw_where (q_initial q))) &&
  opt_empty with_empty (q_with q) && is_nil (q_group q) && is_nil (q_order q) &&
  opt_empty sc_empty (q_having q).

Section Columns.
Variable fmt : text -> text.

(** simplified_columns.cxx:4-15 *)
Definition simplified_column (c : colv) : text * text :=
  match c with
  | CV_as e a => (pr_ve fmt e, a)
  | CV_star s => (s, s)
  | CV_ve e => (pr_ve fmt e, pr_ve fmt e)
  end.
(** simplified_columns.cxx:17-38 *)
Definition simplified_columns (q : qspec) (i : N) : acc (list (text * text)) :=
  abind (get_sfw q i) (fun s =>
    A_ok (match sel_columns (sfw_select s) with
          | C_star s => [(s, [])]
          | C_list l => map simplified_column l
          end)).
(** ADQL::to_string(query) / operator<<, to_string.hxx:8-13, Query.hxx:44-46 *)
Definition to_string (q : qspec) : text := pr_qspec fmt q.
End Columns.
