(** Columns, tables and condition of a component make a query again (C51). *)
From Verif Require Import Query Print Spec SpecNodes SpecCanon SpecNorm SpecUsual SpecRebuild PrintEq NormProofs ApiProofs LexProofs.
Local Open Scope list_scope.

Section Rebuild.
Variable fmt : text -> text.
Hypothesis stable : forall d, fmt (fmt d) = fmt d.
(** An alias that repeats the expression is not written. *)
Definition plain (c : colv) : colv := match c with CV_as e a => if text_eqb a (pr_ve fmt e) then CV_ve e else c | _ => c end.
Definition plain_columns (c : columns) : columns := match c with C_star s => C_star s | C_list l => C_list (map plain l) end.
Lemma same_ve e : pr_ve fmt (n_ve fmt e) = pr_ve fmt e.
Proof. destruct (normal_same_all fmt stable) as (E & _). apply E. Qed.
Lemma plain_canonical c : c_colv fmt (n_colv fmt c) = true -> c_colv fmt (n_colv fmt (plain c)) = true.
Proof.
  destruct c as [e a| |]; try exact (fun H => H). cbn [plain]. destruct (text_eqb a (pr_ve fmt e)); [|exact (fun H => H)].
  rewrite n_colv_CV_as, n_colv_CV_ve, c_colv_CV_as, c_colv_CV_ve. intros H. now apply andb_true_iff in H.
Qed.
Lemma plain_column c : simplified_column fmt (n_colv fmt (plain c)) = simplified_column fmt c.
Proof.
  destruct c as [e a|s|e]; cbn [plain]; [|reflexivity|rewrite n_colv_CV_ve; cbn [simplified_column]; now rewrite same_ve].
  destruct (text_eqb a (pr_ve fmt e)) eqn:E.
  - apply text_eqb_iff in E. rewrite n_colv_CV_ve. cbn [simplified_column]. rewrite same_ve. now subst a.
  - rewrite n_colv_CV_as. cbn [simplified_column]. now rewrite same_ve.
Qed.
Lemma plain_text c : c_colv fmt (n_colv fmt c) = true -> pr_colv fmt (plain c) = column_text (simplified_column fmt c).
Proof.
  assert (R : forall s, text_eqb s s = true) by (intros; now apply text_eqb_iff).
  destruct c as [e a|s|e]; cbn [plain simplified_column column_text]; [|intros _; now rewrite R, orb_true_r|intros _; rewrite R, orb_true_r; apply pr_colv_CV_ve].
  rewrite n_colv_CV_as, c_colv_CV_as. intros H. apply andb_true_iff in H as [_ N]. replace (is_nil a) with false by (destruct a; [discriminate|reflexivity]).
  cbn [orb]. destruct (text_eqb a (pr_ve fmt e)); [apply pr_colv_CV_ve|apply pr_colv_CV_as].
Qed.
Definition described (c : columns) : list (text * text) := match c with C_star s => [(s, [])] | C_list l => map (simplified_column fmt) l end.
Lemma plain_columns_canonical c : c_columns fmt (n_columns fmt c) = true -> c_columns fmt (n_columns fmt (plain_columns c)) = true.
Proof.
  destruct c as [s|l]; [exact (fun H => H)|]. cbn [plain_columns]. rewrite !n_columns_C_list, !c_columns_C_list, !andb_true_iff. intros [N F]. split; [now destruct l|].
  rewrite forallb_forall in *. intros x I. apply in_map_iff in I as (y & <- & I). apply in_map_iff in I as (z & <- & I). apply plain_canonical, F. now apply in_map.
Qed.
Lemma plain_columns_described c : described (n_columns fmt (plain_columns c)) = described c.
Proof.
  destruct c as [s|l]; [reflexivity|]. cbn [plain_columns]. rewrite n_columns_C_list. cbn [described]. rewrite !map_map. apply map_ext. apply plain_column.
Qed.
Lemma plain_columns_text c : c_columns fmt (n_columns fmt c) = true -> pr_columns fmt (plain_columns c) = join (L ", ") (map column_text (described c)).
Proof.
  destruct c as [s|l]; [reflexivity|]. cbn [plain_columns]. rewrite n_columns_C_list, c_columns_C_list, andb_true_iff. intros [_ F].
  rewrite pr_columns_C_list. cbn [described]. rewrite !map_map. f_equal. apply map_ext_in. intros a I. apply plain_text. rewrite forallb_forall in F. apply F. now apply in_map.
Qed.
Definition alone (s : sfw) : qspec :=
  match s with SFW (Select _ _ c) ts w => QS None (SFW (Select [] top_none (plain_columns c)) ts w) [] [] None [] end.
Lemma alone_text s : c_columns fmt (n_columns fmt (sel_columns (sfw_select s))) = true ->
  to_string fmt (alone s) = rebuilt (described (sel_columns (sfw_select s))) (map (pr_tref fmt) (sfw_tables s)) (if where_empty (sfw_where s) then None else Some (pr_where fmt (sfw_where s))).
Proof.
  destruct s as [[q t c] ts w]. intros C. unfold to_string. cbn [alone sfw_select sel_columns sfw_tables sfw_where] in *. rewrite pr_qspec_QS, pr_sfw_SFW, pr_select_Select, (plain_columns_text _ C).
  unfold rebuilt. cbn. rewrite ?app_nil_r. destruct (where_empty w); now rewrite ?app_nil_r, <- ?app_assoc.
Qed.
Lemma alone_canonical s : c_sfw fmt true (n_sfw fmt s) = true -> canonical fmt (normal fmt (alone s)) = true.
Proof.
  destruct s as [[q t c] ts w]. cbn [alone]. unfold canonical, normal. autorewrite with n_eq c_eq. rewrite !andb_true_iff. intros H.
  pose proof (plain_columns_canonical c). cbn. tauto.
Qed.
End Rebuild.
