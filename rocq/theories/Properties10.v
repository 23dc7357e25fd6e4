(** C13: writing a query and reading it again. *)
From Verif Require Import Query Spec SpecCanon QueryProofs RewriteSound Calc CanonJoin CanonAll SpecNorm NormProofs Properties3.

(** A query in canonical form (SpecCanon.v) is written, and the grammar reads the very same query
    from the text, for every table mapping and every way [fmt] to write the numbers in shapes. *)
Theorem C13_read_back :
  forall tm fmt q, canonical fmt q = true -> parse_it tm (to_string fmt q) = Q_ok q.
Proof.
  intros tm fmt q C. apply parse_it_ok. destruct (all_read tm fmt) as (_ & _ & _ & _ & _ & A).
  destruct (A q true C (to_string fmt q) [] (or_introl eq_refl)) as (r & E & S); [now rewrite app_nil_r|]. exists r. split; [exact E|now apply skip_white].
Qed.
Print Assumptions C13_read_back.

Section Cases.
Let col (c : string) : venb := VENB (Factor [] (NP_vep (VEP (VP_col (CR1 (L c))) []))) [].
Let lit (c : string) : venb := VENB (Factor [] (NP_vep (VEP (VP_str (L c)) []))) [].
(** Two selects, a join, a condition in parentheses, a query as operand of IN. *)
Let q1 : qspec :=
  QS None
    (SFW (Select [] 3 (C_list [CV_as (VE_nb (col "a")) (L "x");
        CV_ve (VE_nb (VENB (Factor (L "-") (NP_vep (VEP (VP_str (L "2.5")) []))) [VTerm (L "*") (Factor [] (NP_nvf (NV_udf (L "f") [VE_nb (col "b")])))]))]))
      [TR_jt (JT_q (QJ (QH_tc (L "t") []) [JS false (JTy_outer (L "LEFT") false) (TR_tc (L "u") []) (Some (JSp_using [L "k"]))]))]
      (Where None (Some (SC_t (BF (L "NOT") (BP_sc (SC_t (BF [] (BP_pred (P_cmp (col "a") (L "=") (VE_nb (lit "1"))))) (L "OR")
                                                     (SC_f (BF [] (BP_pred (P_like (col "b") [] (VE_nb (lit "'z'")))))))))
                          (L "AND")
                          (SC_f (BF [] (BP_pred (P_in (col "c") [] (In_sub (SQ_q (QS None (SFW (Select [] top_none (C_list [CV_ve (VE_nb (col "d"))])) [TR_tc (L "v") []] (Where None None)) [] [] None [])))))))))))
    [Addon (L "UNION ALL") (SFW (Select [] top_none (C_star (L "*"))) [TR_tc (L "w") []] (Where None None))] [] None [Sort (SK_int (L "1")) (L "DESC")].
Example C13_case : canonical (fun x => x) q1 = true /\
  to_string (fun x => x) q1 =
    L "SELECT TOP 3 a AS x, -2.5*f(b) FROM t LEFT JOIN u USING (k)  WHERE NOT (a = 1 OR b LIKE 'z') AND c IN (SELECT d FROM v) UNION ALL SELECT * FROM w ORDER BY 1 DESC".
Proof. split; vm_compute; reflexivity. Qed.
(** A geometry in front of another condition. *)
Let q2 : qspec :=
  QS None (SFW (Select [] top_none (C_star (L "*"))) [TR_tc (L "t") []]
    (Where (Some (G_right (GP_contains (Soc_shape (Sh_point ICRS (Coord (CS_col (CR1 (L "ra"))) (CS_dbl (L "-1.5"))))) (Soc_col (CR2 (L "t") (L "s")))) (L "1")))
           (Some (SC_f (BF [] (BP_sc (SC_f (BF [] (BP_pred (P_between (col "m") [] (VE_nb (lit "1")) (VE_nb (lit "2"))))))))))))
    [] [] None [].
Example C13_case_geometry : canonical (fun x => x) q2 = true /\
  to_string (fun x => x) q2 = L "SELECT * FROM t WHERE CONTAINS(POINT('ICRS GEOCENTER',ra,-1.5),t.s)=1 AND (m BETWEEN 1 AND 2)".
Proof. split; vm_compute; reflexivity. Qed.

(** No two canonical queries are written alike. *)
Theorem C13_written_apart :
  forall fmt q q', canonical fmt q = true -> canonical fmt q' = true -> to_string fmt q = to_string fmt q' -> q = q'.
Proof.
  intros fmt q q' C C' E. pose proof (C13_read_back default_mapping fmt q C) as R. rewrite E, (C13_read_back default_mapping fmt q' C') in R. now injection R.
Qed.
Print Assumptions C13_written_apart.
Example C13_written_apart_case : canonical (fun x => x) q1 = true /\ canonical (fun x => x) q2 = true /\ q1 <> q2.
Proof. split; [vm_compute; reflexivity|]. split; [vm_compute; reflexivity|discriminate]. Qed.

(** The whole of ADQL::Query: the same, when the rewriting of geometries finds nothing to rewrite in
    the text, which is so if there is no WHERE in it, or neither CONTAINS nor INTERSECTS. *)
Theorem C13_query_partial :
  forall tm fmt q, canonical fmt q = true -> preprocess (to_string fmt q) = inr (to_string fmt q) -> query tm (to_string fmt q) = Q_ok q.
Proof. intros tm fmt q C P. unfold query. rewrite P. now apply C13_read_back. Qed.
Print Assumptions C13_query_partial.
Example C13_query_case : canonical (fun x => x) q2 = true /\ preprocess (to_string (fun x => x) q2) = inr (to_string (fun x => x) q2).
Proof. split; vm_compute; reflexivity. Qed.
Theorem C13_query_no_geometry_partial :
  forall tm fmt q, canonical fmt q = true ->
    ~ occurs_nc (L "WHERE") (to_string fmt q) \/ ~ occurs_nc (L "CONTAINS") (to_string fmt q) /\ ~ occurs_nc (L "INTERSECTS") (to_string fmt q) ->
    query tm (to_string fmt q) = Q_ok q.
Proof. intros tm fmt q C N. apply C13_query_partial; [exact C|]. now apply not_rewritten. Qed.
Print Assumptions C13_query_no_geometry_partial.
Example C13_query_no_geometry_case :
  canonical (fun x => x) q1 = true /\ ~ occurs_nc (L "CONTAINS") (to_string (fun x => x) q1) /\ ~ occurs_nc (L "INTERSECTS") (to_string (fun x => x) q1).
Proof. split; [vm_compute; reflexivity|]. split; apply find_nc_false; vm_compute; reflexivity. Qed.

(** Other queries are written like their normal form (SpecNorm.v: AND, OR, NOT, UNION in upper case,
    the flag of a geometry on the right, numbers as they are written), and this is what is read; from
    then on nothing changes any more. *)
Theorem C13_normal_form :
  forall tm fmt q, (forall d, fmt (fmt d) = fmt d) -> canonical fmt (normal fmt q) = true ->
    parse_it tm (to_string fmt q) = Q_ok (normal fmt q) /\ to_string fmt (normal fmt q) = to_string fmt q.
Proof.
  intros tm fmt q I C. destruct (normal_same fmt I q) as [E _]. split; [|exact E]. unfold to_string. rewrite <- E. now apply C13_read_back.
Qed.
Print Assumptions C13_normal_form.
Let q3 : qspec :=
  QS None (SFW (Select [] top_none (C_star (L "*"))) [TR_tc (L "t") []]
    (Where (Some (G_left (L "0") (GP_intersects (VE_nb (col "a")) (Soc_col (CR1 (L "s"))))))
           (Some (SC_t (BF (L "not") (BP_val (col "b"))) (L "or") (SC_f (BF [] (BP_pred (P_null (col "c") (L "not")))))))))
    [] [] None [].
Example C13_normal_form_case : canonical (fun x => x) q3 = false /\ canonical (fun x => x) (normal (fun x => x) q3) = true /\
  to_string (fun x => x) q3 = L "SELECT * FROM t WHERE INTERSECTS(a,s)=0 AND not b OR c IS NOT NULL".
Proof. split; [|split]; vm_compute; reflexivity. Qed.
End Cases.

(** Otherwise the text of an accepted query may be refused: here the rewriting moves a part of a
    string literal, which it had not done in the input because of the line break behind WHERE. *)
Theorem C13_reread_refuted :
  exists input q e, query default_mapping input = Q_ok q /\ canonical (fun x => x) q = true /\ query default_mapping (to_string (fun x => x) q) = Q_err e.
Proof.
  exists (L "select * from t where" ++ [newline] ++ L "b='and and contains'"). eexists; eexists. split; [vm_compute; reflexivity|]. split; vm_compute; reflexivity.
Qed.
Print Assumptions C13_reread_refuted.
