(** Nothing that was parsed is [empty()]. *)
From Verif Require Import Query PegProps Gen Totality.

(** Inversion of derivations. *)
Ltac ginv1 :=
  match goal with
  | H : exists _, _ |- _ => destruct H
  | H : _ /\ _ |- _ => destruct H
  | H : _ \/ _ |- _ => destruct H
  | x : (_ * _)%type |- _ => destruct x
  | x : unit |- _ => destruct x
  | H : (_, _) = (_, _) |- _ => injection H; clear H; intros
  end.
Ltac ginv := repeat (ginv1; cbn [fst snd] in *); subst.

Ltac gunf H := unfold ident, lit, kw, p_ve, p_venb, p_sc, p_subq, p_jt, p_tref in H; cbn [gen fst snd] in H.
Tactic Notation "gopen" constr(c) "in" hyp(H) := unfold c in H; gunf H.

Section NE.
Variable m : text -> option text.

Definition ne_attr (r : rule) : attr r -> Prop :=
  match r return attr r -> Prop with
  | R_ve => fun v => ve_empty v = false
  | R_venb => fun v => venb_empty v = false
  | R_sc => fun v => sc_empty v = false
  | R_subq => fun v => subq_empty v = false
  | R_jt => fun v => jt_empty v = false
  | R_tref => fun _ => True
  end.
Definition ne_pr (r : rule) (_ _ : text) (v : attr r) : Prop := ne_attr r v.
Notation G := (gen ne_pr).

Lemma nonnil_len {A} (l : list A) : length l > 0 -> is_nil l = false.
Proof. destruct l; cbn; auto; lia. Qed.

(** A character-level rule that always yields some text. *)
Fixpoint snz (e : se) : bool :=
  match e with
  | SChr _ => true
  | SLit _ _ => false
  | SStr _ s => negb (is_nil s)
  | SSeq a b => snz a || snz b
  | SAlt a b => snz a && snz b
  | SStar _ | SOpt _ | SAnd _ | SNot _ => false
  | SPlus a | SHold a => snz a
  | SDiff a _ => snz a
  | SExp a b => snz a || snz b
  | SMap _ _ => false
  end.

Lemma ext_len p a : ext p a -> length p <= length a.
Proof. intros [x ->]. rewrite app_length; lia. Qed.

Lemma snz_ok e : forall acc i a r, snz e = true -> srun e acc i = SOk a r -> length acc < length a.
Proof.
  assert (E : forall e acc i a r, srun e acc i = SOk a r -> length acc <= length a).
  { intros e0 acc i a r H. pose proof (srun_ok e0 acc i) as K. rewrite H in K. apply ext_len, K. }
  assert (F : forall e acc i a, srun e acc i = SFail a -> length acc <= length a).
  { intros e0 acc i a H. pose proof (srun_ok e0 acc i) as K. rewrite H in K. apply ext_len, K. }
  induction e as [f|nc s|nc s|a IHa b IHb|a IHa b IHb|a IHa|a IHa|a IHa|a IHa|a IHa|a IHa|a IHa b IHb|a IHa b IHb|f a IHa];
    intros acc i x r; cbn [snz srun]; intros Hz; try discriminate.
  - destruct i as [|c i]; [discriminate|]. destruct (f c); [|discriminate]. intros H; injection H as <- <-.
    rewrite app_length; cbn; lia.
  - destruct (strip nc s i) as [[t r']|] eqn:Es; [|discriminate]. intros H; injection H as <- <-.
    apply strip_len in Es. rewrite app_length, Es. destruct s; [discriminate|cbn; lia].
  - destruct (srun a acc i) eqn:Ea; try discriminate. intros H. apply orb_true_iff in Hz as [Hz|Hz].
    + apply IHa in Ea; auto. apply E in H. lia.
    + apply IHb in H; auto. apply E in Ea. lia.
  - apply andb_true_iff in Hz as [H1 H2]. destruct (srun a acc i) eqn:Ea; try discriminate.
    + intros H; injection H as <- <-. eauto.
    + intros H. apply IHb in H; auto. apply F in Ea. lia.
  - destruct (srun a acc i) eqn:Ea; try discriminate. intros H.
    apply IHa in Ea; auto. assert (length acc0 <= length x); [|lia].
    revert H. generalize (length rest). intros n. clear -E F. revert acc0 rest.
    induction n as [|n IH]; intros acc0 rest; cbn; destruct (srun a acc0 rest) eqn:Ea; try discriminate.
    + intros H; injection H as <- <-. eauto.
    + destruct (_ <? _)%nat; [|discriminate]. intros H. apply IH in H. apply E in Ea. lia.
    + intros H; injection H as <- <-. eauto.
  - destruct (srun a acc i) eqn:Ea; try discriminate. intros H; injection H as <- <-. eauto.
  - destruct (srun b [] i) eqn:Eb; try discriminate. eauto.
  - destruct (srun a acc i) eqn:Ea; try discriminate. destruct (srun b acc0 rest) eqn:Eb; try discriminate.
    intros H; injection H as <- <-. apply orb_true_iff in Hz as [Hz|Hz].
    + apply IHa in Ea; auto. apply E in Eb. lia.
    + apply IHb in Eb; auto. apply E in Ea. lia.
Qed.

Lemma lexeme_nz e t k v : snz e = true -> lexeme e t k v -> is_nil v = false.
Proof. intros Hz H. apply snz_ok in H; auto. apply nonnil_len. cbn in H. lia. Qed.

Ltac nz := eapply lexeme_nz; [|eassumption]; vm_compute; reflexivity.

Lemma ident_nz t k v : G ident t k v -> is_nil v = false.
Proof. cbn [gen ident]. intros H. ginv. nz. Qed.

Lemma colref_nz t k v : G (g_column_reference m) t k v -> colref_empty v = false.
Proof.
  intros H. unfold g_column_reference, g_catalog_schema_qualifier_column, g_schema_qualifier_column, g_qualifier_column in H.
  gunf H. ginv; cbn [colref_empty]; nz.
Qed.

Lemma nvf_nz t k v : G (g_numeric_value_function m) t k v -> nvf_empty v = false.
Proof.
  intros H.
  unfold g_numeric_value_function, g_trig_function, g_trig_one_arg, g_trig_two_arg, g_math_function,
    g_math_zero_arg, g_math_one_arg, g_math_two_arg, g_cast_function, g_geo_function, g_geo_one_arg,
    g_geo_two_arg, g_user_defined_function in H.
  gunf H. ginv; cbn [nvf_empty]; nz.
Qed.

Lemma vepv_nz_set t k v : G g_set_function_specification t k v -> vepv_empty v = false.
Proof.
  intros H. unfold g_set_function_specification, g_count_star, g_general_set_function in H. gunf H. ginv; cbn [vepv_empty]; [|nz].
  apply nonnil_len; rewrite app_length.
  match goal with H : lexeme (strs_nc _) _ _ ?v |- length ?v + _ > 0 => apply lexeme_nz in H; [destruct v; [discriminate|cbn; lia]|vm_compute; reflexivity] end.
Qed.

Lemma vepv_nz_case t k v : G g_case_expression t k v -> vepv_empty v = false.
Proof.
  intros H. unfold g_case_expression, g_nullif, g_coalesce, g_case_specification, g_simple_case, g_searched_case in H.
  gunf H. ginv; cbn [vepv_empty is_nil]; auto.
Qed.

Lemma vep_nz t k v : G (g_value_expression_primary m) t k v -> vep_empty v = false.
Proof.
  intros H. unfold g_value_expression_primary, g_array_constructor, g_any_expression, g_value_subexpression in H. gunf H.
  ginv; cbn [vep_empty vepv_empty is_nil]; auto; first [nz | eapply colref_nz; eassumption | eapply vepv_nz_set; eassumption | eapply vepv_nz_case; eassumption].
Qed.

Lemma factor_nz t k v : G (g_factor m) t k v -> factor_empty v = false.
Proof.
  intros H. unfold g_factor in H; cbn [gen] in H. destruct H as ((s & p) & H & ->).
  destruct H as (t1 & t2 & -> & _ & H). cbn [snd factor_empty] in *.
  unfold g_numeric_primary in H; cbn [gen] in H.
  destruct H as [(x & H & ->)|(sp & t' & -> & _ & x & H & ->)]; cbn [nprim_empty].
  - eapply nvf_nz; eauto.
  - eapply vep_nz; eauto.
Qed.

Lemma pred_nz t k v : G g_predicate t k v -> pred_empty v = false.
Proof.
  intros H. unfold g_predicate, g_comparison_predicate, g_between_predicate, g_in_predicate, g_null_predicate,
    g_like_predicate, g_exists_predicate in H. gunf H. ginv; cbn [pred_empty]; auto; nz.
Qed.

Lemma bfac_nz t k v : G g_boolean_factor t k v -> bfac_empty v = false.
Proof.
  intros H. unfold g_boolean_factor in H; cbn [gen] in H. destruct H as ((s & p) & H & ->).
  destruct H as (t1 & t2 & -> & _ & H). cbn [snd bfac_empty] in *.
  unfold g_boolean_primary in H. cbn [gen] in H.
  destruct H as [(x & H & ->)|H].
  - cbn [bprim_empty]. eapply pred_nz; eauto.
  - ginv; cbn [bprim_empty]; auto.
Qed.

Lemma sc_nz t k v : G g_search_condition t k v -> sc_empty v = false.
Proof.
  intros H. unfold g_search_condition, g_boolean_term in H. gunf H. ginv; cbn [sc_empty].
  - nz.
  - eapply bfac_nz; eauto.
Qed.

Lemma from_nz t k v : G (g_from_clause) t k v -> is_nil v = false.
Proof. intros H. gopen g_from_clause in H. ginv. reflexivity. Qed.

Lemma sfw_nz w t k v : G (g_sfw_gen m w) t k v -> sfw_empty v = false.
Proof.
  intros H. unfold g_sfw_gen in H. cbn [gen] in H. ginv. cbn [sfw_empty].
  eapply from_nz; eauto.
Qed.

Lemma qspec_nz w t k v : G (g_query_gen m w) t k v -> qspec_empty v = false.
Proof.
  intros H. unfold g_query_gen in H. cbn [gen] in H. ginv.
  cbn [qspec_empty]. eapply sfw_nz; eauto.
Qed.

(** No table is mapped to the empty name (the entry "" -> "" of the default mapping of
    Query.hxx:23 is harmless). *)
Hypothesis Hm : forall n t, n <> [] -> m n = Some t -> t <> [].

Lemma table_name_nz t k v : lexeme (s_table_name m) t k v -> is_nil v = false.
Proof.
  intros H. unfold lexeme, s_table_name in H.
  match type of H with srun (SAlt _ ?b) _ _ = _ => set (e := b) in H end.
  cbn [srun] in H. destruct (srun (s_tap_upload m) [] (t ++ k)) as [a r|a|x|] eqn:E; try discriminate.
  - injection H as -> ->. unfold s_tap_upload in E. cbn [srun] in E.
    destruct (strip _ _ _) as [[t' r']|]; [|discriminate].
    destruct (srun s_identifier [] r') as [s r2| | |] eqn:Ei; try discriminate.
    apply snz_ok in Ei; [|vm_compute; reflexivity].
    destruct (m s) eqn:Em; [|discriminate]. injection E as <- <-. apply Hm in Em; [|destruct s; [cbn in Ei; lia|discriminate]].
    destruct t0; auto; congruence.
  - apply snz_ok in H; [|vm_compute; reflexivity]. apply nonnil_len. lia.
Qed.

Lemma jt_nz t k v : G (g_joined_table m) t k v -> jt_empty v = false.
Proof.
  intros H. unfold g_joined_table, g_qualified_join, g_table_correlation in H. gunf H.
  ginv; cbn [jt_empty qjoin_empty qjhead_empty]; auto; eapply table_name_nz; eassumption.
Qed.

Lemma subq_nz t k v : G (g_subquery m) t k v -> subq_empty v = false.
Proof.
  intros H. unfold g_subquery, g_query_no_geometry in H. gunf H. ginv; cbn [subq_empty]; auto.
  eapply qspec_nz; eauto.
Qed.

Lemma ne_body r t k v : G (g_body m r) t k v -> ne_pr r t k v.
Proof.
  destruct r; unfold ne_pr, ne_attr; cbn [g_body].
  - intros H. unfold g_value_expression in H. gunf H. ginv; cbn [ve_empty]; auto.
  - intros H. unfold g_value_expression_non_bool in H. cbn [gen] in H. ginv. cbn [venb_empty]. eapply factor_nz; eauto.
  - apply sc_nz.
  - apply subq_nz.
  - apply jt_nz.
  - trivial.
Qed.

(** Hence for the runs of the interpreter: *)
Lemma ne_run n (A : Set) (e : PE A) i v r : grun m n e i = Ok v r -> exists t, i = t ++ r /\ G e t r v.
Proof. apply gen_sound. apply ne_body. Qed.

Lemma geom_nz t k v : G (g_geometry m) t k v -> geom_empty v = false.
Proof.
  assert (S : forall t k v, G (g_shape_or_column m) t k v -> soc_empty v = false).
  { clear. intros t k v H. unfold g_shape_or_column, g_shape, g_circle, g_box, g_ellipse, g_polygon in H. gunf H.
    ginv; cbn [soc_empty shape_empty is_nil]; auto; try (eapply colref_nz; eassumption).
    all: match goal with |- coordinate_empty ?c = false => destruct c; reflexivity end. }
  intros H. unfold g_geometry, g_geometry_left, g_geometry_right, g_contains, g_intersects in H. gunf H.
  ginv; cbn [geom_empty gpred_empty]; auto.
  all: repeat match goal with H : gen _ (g_shape_or_column m) _ _ _ |- _ => apply S in H end.
  all: match goal with H1 : soc_empty _ = false, H2 : soc_empty _ = false |- _ => rewrite H1, ?H2; reflexivity end.
Qed.

Lemma where_nz t k v : G (g_where m) t k v -> where_empty v = false.
Proof.
  intros H. unfold g_where in H. gunf H. ginv; cbn [snd fst where_empty opt_empty]; auto.
  all: match goal with H : gen _ (g_geometry m) _ _ _ |- _ => apply geom_nz in H; rewrite H; reflexivity | _ => idtac end.
Qed.
Lemma where_ng_nz t k v : G (g_where_no_geometry) t k v -> where_empty v = false.
Proof. intros H. unfold g_where_no_geometry in H. gunf H. ginv; cbn [where_empty opt_empty]; auto. Qed.
Lemma with_nz t k v : G g_with t k v -> with_empty v = false.
Proof.
  intros H. unfold g_with in H. gunf H. ginv; cbn [with_empty].
  match goal with H : ne_pr R_subq _ _ _ |- _ => cbn in H; rewrite H; apply andb_false_r end.
Qed.
Lemma having_nz t k v : G g_having t k v -> sc_empty v = false.
Proof. intros H. unfold g_having in H. gunf H. ginv. auto. Qed.
Lemma result_nz t k v : G g_result t k v -> result_empty v = false.
Proof. intros H. unfold g_result in H. gunf H. ginv; cbn [result_empty]; auto. nz. Qed.
Lemma jspec_nz t k v : G g_join_specification t k v -> jspec_empty v = false.
Proof.
  intros H. unfold g_join_specification, g_join_condition, g_named_columns_join in H. gunf H. ginv; cbn [jspec_empty is_nil]; auto.
Qed.
End NE.
