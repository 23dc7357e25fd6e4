(** No part that was read is empty (C52). *)
From Verif Require Import Query PegProps Totality Gen NonEmpty Spec SpecNodes Nodes NodeProps EmptyParts.

Section Parts.
Variable m : text -> option text.
Variable T : text.
Hypothesis Hm : forall n t, n <> [] -> m n = Some t -> t <> [].
Notation GE := (gen ne_pr).
Ltac nz := eapply lexeme_nz; [|eassumption]; vm_compute; reflexivity.
Lemma soc_nz t k v : GE (g_shape_or_column m) t k v -> soc_empty v = false.
Proof.
  intros H. unfold g_shape_or_column, g_shape, g_circle, g_box, g_ellipse, g_polygon in H. gunf H.
  ginv; cbn [soc_empty shape_empty is_nil]; auto; try (eapply colref_nz; eassumption).
  all: match goal with |- coordinate_empty ?c = false => destruct c; reflexivity end.
Qed.
Lemma poc_nz t k v : GE (g_point_or_column m) t k v -> poc_empty v = false.
Proof.
  intros H. unfold g_point_or_column in H. gunf H. ginv; cbn [poc_empty]; auto; try (eapply colref_nz; eassumption).
  all: match goal with |- coordinate_empty ?c = false => destruct c; reflexivity end.
Qed.
Lemma gpred_nz t k v : GE (g_contains m <|> g_intersects m) t k v -> gpred_empty v = false.
Proof.
  intros H. unfold g_contains, g_intersects in H. gunf H. ginv; cbn [gpred_empty]; auto.
  repeat match goal with H : gen _ (g_shape_or_column m) _ _ _ |- _ => apply soc_nz in H end.
  match goal with H1 : soc_empty _ = false, H2 : soc_empty _ = false |- _ => rewrite H1, ?H2; reflexivity end.
Qed.
Lemma nprim_nz t k v : GE (g_numeric_primary m) t k v -> nprim_empty v = false.
Proof.
  intros H. unfold g_numeric_primary in H; cbn [gen] in H.
  destruct H as [(x & H & ->)|(sp & t' & -> & _ & x & H & ->)]; cbn [nprim_empty]; [eapply nvf_nz; eauto|eapply vep_nz; eauto].
Qed.
Lemma bprim_nz t k v : GE g_boolean_primary t k v -> bprim_empty v = false.
Proof.
  intros H. unfold g_boolean_primary in H. cbn [gen] in H. destruct H as [(x & H & ->)|H]; [cbn [bprim_empty]; eapply pred_nz; eauto|]. ginv; cbn [bprim_empty]; auto.
Qed.
Lemma vterm_nz t k v : GE (g_term m) t k v -> vterm_empty v = false.
Proof. intros H. unfold g_term in H. gunf H. ginv. cbn [vterm_empty]. nz. Qed.
Lemma qwhen_nz t k v : GE g_searched_when t k v -> qwhen_empty v = false.
Proof. intros H. unfold g_searched_when in H. gunf H. ginv. cbn [qwhen_empty]. eapply result_nz; eauto. Qed.
Lemma gterm_nz t k v : GE (g_group_by_term m) t k v -> gterm_empty v = false.
Proof. intros H. unfold g_group_by_term in H. gunf H. ginv; cbn [gterm_empty]; auto; eapply colref_nz; eassumption. Qed.
Lemma tref_nz t k v : GE (g_table_reference m) t k v -> tref_empty v = false.
Proof.
  intros H. unfold g_table_reference, g_table_correlation, g_derived_correlation, g_table_valued_function in H. gunf H. ginv; cbn [tref_empty]; auto.
  all: try (eapply table_name_nz; eassumption). all: nz.
Qed.
Lemma part_nz x : from m T x -> x <> N_where (Where None None) -> node_empty x = false.
Proof.
  assert (R : forall (A : Set) (e : PE A) v, read m T e v -> exists t k, GE e t k v) by (intros A e v H; eapply read_gen; eauto).
  destruct x; cbn [from node_empty]; intros H N; try reflexivity.
  - apply R in H as (t & k & H). now apply (ne_body m Hm R_ve) in H.
  - apply R in H as (t & k & H). now apply (ne_body m Hm R_venb) in H.
  - apply R in H as (t & k & H). eapply vterm_nz; eauto.
  - apply R in H as (t & k & H). eapply factor_nz; eauto.
  - apply R in H as (t & k & H). eapply nprim_nz; eauto.
  - apply R in H as (t & k & H). eapply nvf_nz; eauto.
  - apply R in H as (t & k & H). eapply vep_nz; eauto.
  - destruct H as (idx & H & _). apply R in H as (t & k & H). apply vep_nz in H. exact H.
  - apply R in H as (t & k & H). eapply qwhen_nz; eauto.
  - apply R in H as (t & k & H). eapply result_nz; eauto.
  - apply R in H as (t & k & H). eapply sc_nz; eauto.
  - apply R in H as (t & k & H). eapply bfac_nz; eauto.
  - apply R in H as (t & k & H). eapply bprim_nz; eauto.
  - apply R in H as (t & k & H). eapply pred_nz; eauto.
  - apply R in H as (t & k & H). eapply subq_nz; eauto.
  - destruct H as [H|(j & -> & H)]; apply R in H as (t & k & H); cbn [jt_empty]; eapply jt_nz; eauto.
  - apply R in H as (t & k & H). eapply jspec_nz; eauto.
  - apply R in H as (t & k & H). eapply tref_nz; eauto.
  - destruct H as [H|H]; apply R in H as (t & k & H); eapply qspec_nz; eauto.
  - apply R in H as (t & k & H). eapply with_nz; eauto.
  - destruct H as [H|H]; apply R in H as (t & k & H); eapply sfw_nz; eauto.
  - destruct H as [H|[H|H]]; [| |congruence]; apply R in H as (t & k & H); [eapply where_nz; eauto|eapply where_ng_nz; eauto].
  - apply R in H as (t & k & H). eapply geom_nz; eauto.
  - apply R in H as (t & k & H). eapply gpred_nz; eauto.
  - apply R in H as (t & k & H). eapply gterm_nz; eauto.
  - apply R in H as (t & k & H). eapply soc_nz; eauto.
  - apply R in H as (t & k & H). eapply poc_nz; eauto.
Qed.
End Parts.
