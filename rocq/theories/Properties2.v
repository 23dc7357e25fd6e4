(** C15, C16, C22, C26-C30: what accepted queries look like, and the accessors. *)
From Verif Require Import Query PegSpec Spec SpecNodes SpecClauses AccessProofs NodeProps ColumnProofs.

Definition sample1 : string := "select * from a where contains(p,q) and y > 2 union all select * from b".
Definition dummy : qspec := QS None (SFW (Select [] 0 (C_star [])) [] (Where None None)) [] [] None [].
Definition sample1_q : qspec :=
  Eval vm_compute in match query default_mapping (L sample1) with Q_ok q => q | Q_err _ => dummy end.
Example sample1_ok : query default_mapping (L sample1) = Q_ok sample1_q.
Proof. vm_compute. reflexivity. Qed.
Lemma default_ne : forall n t, n <> [] -> lookup default_mapping n = Some t -> t <> [].
Proof. intros [|c n] t H; [congruence|]. cbn. discriminate. Qed.

(** ** C15: recorded clauses are printed, others are not.
    [clauses_printed] (SpecClauses.v) spells the printed text of every node out as a
    concatenation in which a clause contributes its keyword and its text iff it is recorded.
    The hypothesis excludes a TAP_UPLOAD table that is mapped to the empty name. *)
Theorem C15_recorded_clauses_are_printed :
  forall tm input q fmt,
    (forall n t, n <> [] -> lookup tm n = Some t -> t <> []) ->
    query tm input = Q_ok q -> Forall (clauses_printed fmt) (nodes_qspec q).
Proof. exact accepted_clauses. Qed.
Print Assumptions C15_recorded_clauses_are_printed.
Example C15_case_where : exists g c, where_of (q_initial sample1_q) = Where (Some g) (Some c).
Proof. vm_compute. eauto. Qed.
Example C15_case_others : exists q,
  query default_mapping (L "with w as (select * from u) select * from t group by a having b = 1 order by c") = Q_ok q /\
  q_with q <> None /\ q_having q <> None /\ q_group q <> [] /\ q_order q <> [].
Proof. eexists. split; [vm_compute; reflexivity|]. vm_compute. repeat split; discriminate. Qed.

(** Without the hypothesis it is false: the WHERE clause disappears. *)
Theorem C15_empty_table_name_refuted :
  exists tm input q fmt, query tm input = Q_ok q /\ ~ Forall (clauses_printed fmt) (nodes_qspec q).
Proof.
  exists [(L "e", [])], (L "select * from t where exists (TAP_UPLOAD.e join b)").
  eexists. exists (fun x => x). split; [vm_compute; reflexivity|].
  intros H. inversion H as [|? ? _ H2]; subst. inversion H2 as [|? ? H3 _]; subst. vm_compute in H3. discriminate.
Qed.
Print Assumptions C15_empty_table_name_refuted.

(** ** C16: negation.
    Exact characterisation: each condition of an accepted query was read at a place [j] (which
    does not start with white space) of the text; it is recorded as negated iff the text there
    starts with NOT, in any letter case.  Missing for the full property: the NOT has to be a
    word, i.e. to be followed by white space; the refuted version below shows that this is
    really missing. *)
Theorem C16_negated_iff_not_partial :
  forall tm input q w p,
    query tm input = Q_ok q -> In (N_bfac (BF w p)) (nodes_qspec q) ->
    exists t j, preprocess input = inr t /\ is_suffix j t /\ skip j = j /\
      ((w = [] /\ (forall w' r, j = w' ++ r -> upper w' <> L "NOT") /\
        exists r, ev (g_body (lookup tm)) _ g_boolean_primary j (Ok p r)) \/
       (exists k, j = w ++ k /\ upper w = L "NOT" /\
        exists r, ev (g_body (lookup tm)) _ g_boolean_primary
                     (match k with c :: _ => if is_space c then k else j | [] => j end) (Ok p r))).
Proof. exact accepted_not. Qed.
Print Assumptions C16_negated_iff_not_partial.
Example C16_case : exists q p, query default_mapping (L "select * from t where nOt a = 3 and b = 4") = Q_ok q /\
  In (N_bfac (BF (L "nOt") p)) (nodes_qspec q).
Proof. eexists; eexists; split; [vm_compute; reflexivity|]. cbn. do 7 right. left. reflexivity. Qed.

(** A condition on the column [notes] is recorded and printed as negated. *)
Theorem C16_column_notes_refuted :
  exists q v c, query default_mapping (L "select * from t where notes > 3") = Q_ok q /\
    where_of (q_initial q) = Where None (Some (SC_f (BF (L "not") (BP_pred (P_cmp v (L ">") c))))) /\
    to_string (fun x => x) q = L "SELECT * FROM t WHERE not notes > 3".
Proof. eexists; eexists; eexists; split; [vm_compute; reflexivity|]. split; vm_compute; reflexivity. Qed.
Print Assumptions C16_column_notes_refuted.

(** ** C22: no subquery, at any depth, has a geometry in its WHERE clauses. *)
Theorem C22_no_geometry_in_subqueries :
  forall tm input q s,
    query tm input = Q_ok q -> In (N_subq (SQ_q s)) (nodes_qspec q) ->
    Forall (fun c => exists cond, where_of c = Where None cond) (components s).
Proof. exact accepted_subqueries. Qed.
Print Assumptions C22_no_geometry_in_subqueries.
Example C22_case : exists q s1 s2,
  query default_mapping (L "select * from (select * from u where c in (select * from w union select * from x)) as d where contains(p,q)") = Q_ok q /\
  In (N_subq (SQ_q s1)) (nodes_qspec q) /\ In (N_subq (SQ_q s2)) (nodes_qspec s1) /\
  length (components s2) = 2.
Proof.
  do 3 eexists. split; [vm_compute; reflexivity|]. cbn.
  split; [repeat first [left; reflexivity | right]|]. split; [cbn; repeat first [left; reflexivity | right]|]. reflexivity.
Qed.

(** ** C26: the union accessors agree with the query (with fewer than 2^32 components, the
    range of the [uint] counters). *)
Theorem C26_union_accessors_agree :
  forall tm input q, query tm input = Q_ok q -> countable_query q ->
    get_num_sfws q = N.of_nat (length (components q)) /\
    length (components q) = S (length (operators q)) /\
    (forall i s, nth_error (components q) i = Some s ->
       get_sfw q (N.of_nat i) = A_ok s /\ get_where q (N.of_nat i) = A_ok (where_of s) /\
       get_select q (N.of_nat i) = A_ok (select_of s)) /\
    (forall i o, nth_error (operators q) i = Some o -> get_union_op q (N.of_nat (S i)) = A_ok o) /\
    Forall (fun o => upper o = L "UNION" \/ upper o = L "UNION ALL" \/ upper o = L "UNION DISTINCT")
      (operators q).
Proof. exact union_accessors. Qed.
Print Assumptions C26_union_accessors_agree.
Example C26_case : exists q, query default_mapping (L sample1) = Q_ok q /\ countable_query q /\
  length (components q) = 2 /\ operators q = [L "union all"].
Proof. exists sample1_q. split; [exact sample1_ok|]. vm_compute. auto. Qed.

(** The count is a [uint]: it is wrong for 2^32 and more components. *)
Theorem C26_count_wraps_refuted :
  exists q, tables_of (q_initial q) <> [] /\ get_num_sfws q <> N.of_nat (length (components q)).
Proof. exact count_wraps. Qed.
Print Assumptions C26_count_wraps_refuted.

(** ** C27: index validation.  No accessor ever reads outside a vector ([A_range] is
    std::out_of_range) for any query whatsoever; in accepted queries valid indices work and
    the others throw. *)
Theorem C27_union_index_validation :
  (forall q i, get_sfw q i <> A_range /\ get_union_op q i <> A_range /\
               get_where q i <> A_range /\ get_select q i <> A_range) /\
  (forall tm input q, query tm input = Q_ok q -> countable_query q -> forall i,
     (i < length (components q) ->
        (exists s, get_sfw q (N.of_nat i) = A_ok s) /\ (exists w, get_where q (N.of_nat i) = A_ok w) /\
        (exists s, get_select q (N.of_nat i) = A_ok s) /\ (exists t, get_initial_table q (N.of_nat i) = A_ok t) /\
        (0 < i -> exists o, get_union_op q (N.of_nat i) = A_ok o)) /\
     (length (components q) <= i ->
        get_sfw q (N.of_nat i) = A_throw /\ get_where q (N.of_nat i) = A_throw /\
        get_select q (N.of_nat i) = A_throw /\ get_initial_table q (N.of_nat i) = A_throw /\
        get_union_op q (N.of_nat i) = A_throw) /\
     get_union_op q 0 = A_throw).
Proof. exact index_validation. Qed.
Print Assumptions C27_union_index_validation.
Example C27_case : get_sfw sample1_q 2 = A_throw /\ exists s, get_sfw sample1_q 1 = A_ok s.
Proof. vm_compute. eauto. Qed.

(** ** C28: table lists. *)
Theorem C28_table_lists_are_complete :
  forall tm input q, query tm input = Q_ok q -> countable_query q ->
    get_table_lists_by_sfw q = A_ok (map tables_of (components q)) /\
    get_combined_table_list q = A_ok (concat (map tables_of (components q))) /\
    Forall (fun s => tables_of s <> []) (components q) /\
    (forall i s t ts, nth_error (components q) i = Some s -> tables_of s = t :: ts ->
       get_initial_table q (N.of_nat i) = A_ok t).
Proof. exact table_lists_complete. Qed.
Print Assumptions C28_table_lists_are_complete.
Example C28_case : exists q t1 t2 t3,
  query default_mapping (L "select * from a, b union select * from c") = Q_ok q /\ countable_query q /\
  map tables_of (components q) = [[t1; t2]; [t3]].
Proof. do 4 eexists. split; [vm_compute; reflexivity|]. vm_compute. auto. Qed.

(** ** C29: simplified_columns. *)
Theorem C29_simplified_columns_describe_the_select_list :
  forall tm input q fmt i s, query tm input = Q_ok q -> countable_query q ->
    nth_error (components q) i = Some s ->
    exists l, simplified_columns fmt q (N.of_nat i) = A_ok l /\
      match select_of s with
      | Select _ _ (C_star _) => l = [(L "*", [])]
      | Select _ _ (C_list items) =>
          Forall2 (fun item p =>
            match item with
            | CV_as e a => p = (pr_ve fmt e, a)
            | _ => exists t, p = (t, t) /\ t = pr_colv fmt item
            end) items l
      end.
Proof. exact simplified_columns_acc. Qed.
Print Assumptions C29_simplified_columns_describe_the_select_list.
Example C29_case : exists q, query default_mapping (L "select a+1 as b, t.*, c from t") = Q_ok q /\
  simplified_columns (fun x => x) q 0 = A_ok [(L "a+1", L "b"); (L "t.*", L "t.*"); (L "c", L "c")].
Proof. eexists. split; vm_compute; reflexivity. Qed.

(** ** C30: simple_spatial_query.
    Partial: the default quantifier has to be spelt ALL. *)
Theorem C30_simple_spatial_query_partial :
  forall tm input q,
    (forall n t, n <> [] -> lookup tm n = Some t -> t <> []) ->
    query tm input = Q_ok q -> countable_query q ->
    (exists quant top cols tables geom,
       q = QS None (SFW (Select quant top cols) tables (Where geom None)) [] [] None [] /\
       (quant = [] \/ quant = L "ALL")) <->
    simple_spatial_query q = true.
Proof. exact simple_spatial_acc. Qed.
Print Assumptions C30_simple_spatial_query_partial.
Example C30_case : exists q, query default_mapping (L "select all * from t where contains(p,q)") = Q_ok q.
Proof. vm_compute. eauto. Qed.

(** "SELECT all" and "SELECT ALL" mean the same, but are classified differently. *)
Theorem C30_lower_case_all_refuted :
  exists q1 q2,
    query default_mapping (L "select ALL * from t where contains(p,q)") = Q_ok q1 /\
    query default_mapping (L "select all * from t where contains(p,q)") = Q_ok q2 /\
    simple_spatial_query q1 = true /\ simple_spatial_query q2 = false.
Proof. do 2 eexists. split; [vm_compute; reflexivity|]. split; [vm_compute; reflexivity|]. split; vm_compute; reflexivity. Qed.
Print Assumptions C30_lower_case_all_refuted.
