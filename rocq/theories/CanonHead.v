(** empty() is false on the parts of canonical queries. *)
From Verif Require Import Grammar Print PegProps PegSpec PegEquiv TextLemmas SpecLexical LexProofs LexProofs2 First Calc Look Tight Operand TopProofs SpecCanon AstInd PrintEq CanonBase CanonLex CanonGeo.

Ltac ands := repeat match goal with
  | H : (_ && _) = true |- _ => apply andb_true_iff in H; destruct H
  | H : negb _ = true |- _ => apply negb_true_iff in H
  | H : _ /\ _ |- _ => destruct H
  end.
Lemma one_of_nonempty t ws : forallb (fun w => negb (is_nil (L w))) ws = true -> one_of t ws = true -> is_nil t = false.
Proof. intros F H. apply one_of_iff, in_map_iff in H as (w & <- & I). apply (proj1 (forallb_forall _ _) F) in I. now apply negb_true_iff. Qed.
Lemma one_of_nc_nonempty t ws : forallb (fun w => negb (is_nil (L w))) ws = true -> one_of_nc t ws = true -> is_nil t = false.
Proof. intros F H. apply (one_of_nonempty _ _ F) in H. now destruct t. Qed.
Lemma is_name_nonempty t : is_name t = true -> is_nil t = false.
Proof. intros H. apply is_name_ok, name_dark in H. now destruct t. Qed.
Lemma is_value_name_nonempty t : is_value_name t = true -> is_nil t = false.
Proof. intros H. unfold is_value_name in H. ands. now apply is_name_nonempty. Qed.
Lemma colref_nonempty f c : (forall x, f x = true -> is_nil x = false) -> c_colref f c = true -> colref_empty c = false.
Proof. intros F H. destruct c; cbn in *; ands; auto using is_name_nonempty. Qed.
Lemma soc_nonempty fmt s : c_soc fmt s = true -> soc_empty s = false.
Proof. destruct s as [[? c|? c ?|? c ? ?|? c ? ? ?|? l]|c]; cbn; intros H; ands; try (destruct c; reflexivity); auto. apply (colref_nonempty is_name); auto using is_name_nonempty. Qed.
Lemma table_name_nonempty n : is_table_name n = true -> is_nil n = false.
Proof. intros H. apply is_table_name_ok, (tname_dark name) in H; [now destruct n|apply name_dark]. Qed.

Section Head.
Variable fmt : text -> text.
Notation c_ve := (SpecCanon.c_ve fmt). Notation c_venb := (SpecCanon.c_venb fmt). Notation c_factor := (SpecCanon.c_factor fmt). Notation c_nprim := (SpecCanon.c_nprim fmt).
Notation c_nvf := (SpecCanon.c_nvf fmt). Notation c_vep := (SpecCanon.c_vep fmt). Notation c_vepv := (SpecCanon.c_vepv fmt). Notation c_sc := (SpecCanon.c_sc fmt).
Notation c_bfac := (SpecCanon.c_bfac fmt). Notation c_bprim := (SpecCanon.c_bprim fmt). Notation c_pred := (SpecCanon.c_pred fmt). Notation c_subq := (SpecCanon.c_subq fmt).
Notation c_jt := (SpecCanon.c_jt fmt). Notation c_qjoin := (SpecCanon.c_qjoin fmt). Notation c_qjhead := (SpecCanon.c_qjhead fmt).

(** ** empty() is false on canonical queries *)
Theorem nonempty_all :
  (forall v, c_ve v = true -> ve_empty v = false) /\ (forall v, c_venb v = true -> venb_empty v = false) /\
  (forall s, c_sc s = true -> sc_empty s = false) /\ (forall q, c_subq q = true -> subq_empty q = false).
Proof.
  edestruct (ast_ind (fun v => c_ve v = true -> ve_empty v = false) (fun v => c_venb v = true -> venb_empty v = false) (fun _ => True)
    (fun v => c_factor v = true -> factor_empty v = false) (fun v => c_nprim v = true -> nprim_empty v = false) (fun v => c_nvf v = true -> nvf_empty v = false)
    (fun v => c_vep v = true -> vep_empty v = false) (fun v => c_vepv v = true -> vepv_empty v = false) (fun _ => True) (fun _ => True) (fun _ => True)
    (fun v => c_sc v = true -> sc_empty v = false) (fun v => c_bfac v = true -> bfac_empty v = false) (fun v => c_bprim v = true -> bprim_empty v = false)
    (fun v => c_pred v = true -> pred_empty v = false) (fun _ => True) (fun v => c_subq v = true -> subq_empty v = false)
    (fun v => c_jt v = true -> jt_empty v = false) (fun v => c_qjoin v = true -> qjoin_empty v = false) (fun v => c_qjhead v = true -> qjhead_empty v = false)
    (fun _ => True) (fun _ => True) (fun _ => True) (fun v => forall g, c_qspec fmt g v = true -> qspec_empty v = false) (fun _ => True) (fun _ => True) (fun v => forall g, c_sfw fmt g v = true -> sfw_empty v = false)
    (fun _ => True) (fun _ => True) (fun _ => True) (fun _ => True) (fun _ => True) (fun _ => True) (fun _ => True)).
  all: try (intros; exact I).
  all: try (intros; match goal with H : _ = true |- _ => autorewrite with c_eq in H end; ands; cbn [ve_empty venb_empty factor_empty nprim_empty nvf_empty vep_empty vepv_empty sc_empty bfac_empty bprim_empty pred_empty jt_empty qjoin_empty qjhead_empty subq_empty qspec_empty sfw_empty];
    first [ solve [eauto] | eapply one_of_nc_nonempty; [|eassumption]; reflexivity | eapply one_of_nonempty; [|eassumption]; reflexivity ]).
  - intros f args _ H1. rewrite c_nvf_NV_udf in H1. apply andb_true_iff in H1 as [H1 _]. cbn. apply orb_true_iff in H1 as [H1|H1]; [|eapply one_of_nc_nonempty; [|eassumption]; reflexivity].
    apply andb_true_iff in H1 as [H1 _]. apply free_word_ok in H1 as [W _]. destruct W as (? & ? & -> & _). reflexivity.
  - intros s H1. rewrite c_vepv_VP_str in H1. cbn. rewrite !orb_true_iff in H1. destruct H1 as [[H1|H1]|H1].
    + apply is_number_ok in H1. destruct (number_starts _ H1) as (? & ? & -> & _). reflexivity.
    + apply is_quoted_ok in H1. destruct H1 as (? & -> & _). reflexivity.
    + eapply one_of_nc_nonempty; [|eassumption]; reflexivity.
  - intros c H1. rewrite c_vepv_VP_col in H1. cbn. eapply colref_nonempty; [apply is_value_name_nonempty|exact H1].
  - intros n a H1. rewrite c_qjhead_QH_tc in H1. ands. now apply table_name_nonempty.
  - intros j Hj H1. rewrite c_qjhead_QH_jt in H1. destruct j as [q|j]; [discriminate|]. cbn in Hj |- *. apply Hj. exact H1.
  - tauto.
Qed.
Lemma ve_nonempty v : c_ve v = true -> ve_empty v = false. Proof. apply nonempty_all. Qed.
Lemma venb_nonempty v : c_venb v = true -> venb_empty v = false. Proof. apply nonempty_all. Qed.
Lemma sc_nonempty s : c_sc s = true -> sc_empty s = false. Proof. apply nonempty_all. Qed.
Lemma subq_nonempty q : c_subq q = true -> subq_empty q = false. Proof. apply nonempty_all. Qed.
Lemma pr_sc_f f : c_sc (SC_f f) = true -> pr_sc fmt (SC_f f) = pr_bfac fmt f.
Proof. intros C. rewrite pr_sc_SC_f. now rewrite sc_nonempty. Qed.
Lemma pr_sc_t f op s : c_sc (SC_t f op s) = true -> pr_sc fmt (SC_t f op s) = pr_bfac fmt f ++ L " " ++ op ++ L " " ++ pr_sc fmt s.
Proof.
  intros C. rewrite pr_sc_SC_t. rewrite sc_nonempty by exact C. rewrite c_sc_SC_t in C. ands. match goal with H : one_of _ _ = true |- _ => apply one_of_iff in H; now destruct H as [<-|[<-|[]]] end.
Qed.

End Head.
