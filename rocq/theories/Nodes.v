(** Every part of a parsed query was read by its own grammar rule from some place of the
    text. *)
From Verif Require Import Query PegProps Totality Spec SpecNodes.

Section Inv.
Context {rule : Set} {attr : rule -> Set} (body : forall r, pe rule attr (attr r)).
Notation PE := (pe rule attr).
Notation R := (run body).

Lemma inv_seq n {A B : Set} (a : PE A) (b : PE B) i v r : R n _ (PSeq a b) i = Ok v r ->
  exists va vb i1, v = (va, vb) /\ suffix i1 i /\ R n _ a i = Ok va i1 /\ R n _ b i1 = Ok vb r.
Proof.
  rewrite run_Seq. destruct (R n _ a i) as [va i1| | |] eqn:E; try discriminate.
  destruct (R n _ b i1) as [vb i2| | |] eqn:E2; try discriminate. intros H; injection H as <- <-.
  exists va, vb, i1. repeat split; auto. eapply run_suffix; eauto.
Qed.
Lemma inv_exp n {A B : Set} (a : PE A) (b : PE B) i v r : R n _ (PExp a b) i = Ok v r ->
  exists va vb i1, v = (va, vb) /\ suffix i1 i /\ R n _ a i = Ok va i1 /\ R n _ b i1 = Ok vb r.
Proof.
  rewrite run_Exp. destruct (R n _ a i) as [va i1| | |] eqn:E; try discriminate.
  destruct (R n _ b i1) as [vb i2| | |] eqn:E2; try discriminate. intros H; injection H as <- <-.
  exists va, vb, i1. repeat split; auto. eapply run_suffix; eauto.
Qed.
Lemma inv_alt n {A : Set} (a b : PE A) i v r : R n _ (PAlt a b) i = Ok v r ->
  R n _ a i = Ok v r \/ exists i1, suffix i1 i /\ R n _ a i = Fail i1 /\ R n _ b i1 = Ok v r.
Proof.
  rewrite run_Alt. pose proof (run_ok body n _ a i) as K. destruct (R n _ a i) as [va i1|i1| |] eqn:E; try discriminate; eauto.
Qed.
Lemma inv_map n {A B : Set} (f : A -> B) (a : PE A) i v r : R n _ (PMap f a) i = Ok v r ->
  exists x, v = f x /\ R n _ a i = Ok x r.
Proof. rewrite run_Map. destruct (R n _ a i) as [x i1| | |] eqn:E; try discriminate. intros H; injection H as <- <-; eauto. Qed.
Lemma inv_opt n {A : Set} (a : PE A) i v r : R n _ (POpt a) i = Ok v r ->
  (exists x, v = Some x /\ R n _ a i = Ok x r) \/ (v = None /\ R n _ a i = Fail r).
Proof. rewrite run_Opt. destruct (R n _ a i) as [x i1|i1| |] eqn:E; try discriminate; intros H; injection H as <- <-; eauto. Qed.
Lemma inv_ret n {A : Set} (x : A) i v r : R n _ (PRet x) i = Ok v r -> v = x /\ r = i.
Proof. rewrite run_Ret. intros H; injection H as <- <-; auto. Qed.
Lemma inv_rule n q i v r : R n _ (PRule q) i = Ok v r -> exists k, n = S k /\ R k _ (body q) i = Ok v r.
Proof. destruct n; [discriminate|]. rewrite run_Rule. eauto. Qed.

(** Elements of repetitions *)
Definition elem {A : Set} n (a : PE A) (i : text) (v : A) : Prop := exists i1 r, suffix i1 i /\ R n _ a i1 = Ok v r.
Lemma elem_mono {A : Set} n (a : PE A) i j v : suffix i j -> elem n a i v -> elem n a j v.
Proof. intros S (i1 & r & S1 & H). exists i1, r; split; auto. eapply suffix_trans; eauto. Qed.

Lemma pstar_elems {A : Set} n (a : PE A) k : forall i vs r, pstar (R n _ a) k i = Ok vs r -> Forall (elem n a i) vs.
Proof.
  induction k as [|k IH]; intros i vs r; cbn; destruct (R n _ a i) as [v i1|i1| |] eqn:E; try discriminate.
  - intros H; injection H as <- <-; constructor.
  - destruct (pstar _ k i1) eqn:Es; try discriminate. intros H; injection H as <- <-. constructor.
    + exists i, i1; split; auto.
    + apply IH in Es. eapply Forall_impl; [|exact Es]. intros x. apply elem_mono. eapply run_suffix; eauto.
  - intros H; injection H as <- <-; constructor.
Qed.
Lemma plist_elems {A : Set} n (a : PE A) s k : forall i vs r, plist (R n _ a) (R n _ s) k i = Ok vs r -> Forall (elem n a i) vs.
Proof.
  induction k as [|k IH]; intros i vs r; cbn; destruct (R n _ s i) as [u i0|i0| |] eqn:E0; try discriminate;
    try (intros H; injection H as <- <-; constructor);
    destruct (R n _ a i0) as [v i1|i1| |] eqn:E; try discriminate;
    try (intros H; injection H as <- <-; constructor).
  destruct (plist _ _ k i1) eqn:Es; try discriminate. intros H; injection H as <- <-. constructor.
  - exists i0, i1; split; auto. eapply run_suffix; eauto.
  - apply IH in Es. eapply Forall_impl; [|exact Es]. intros x. apply elem_mono.
    eapply suffix_trans; eapply run_suffix; eauto.
Qed.
Lemma inv_star n {A : Set} (a : PE A) i v r : R n _ (PStar a) i = Ok v r -> Forall (elem n a i) v.
Proof. rewrite run_Star. apply pstar_elems. Qed.
Lemma inv_plus n {A : Set} (a : PE A) i v r : R n _ (PPlus a) i = Ok v r -> Forall (elem n a i) v.
Proof.
  rewrite run_Plus. destruct (R n _ a i) as [x i1| | |] eqn:E; try discriminate.
  destruct (pstar _ _ _) eqn:Es; try discriminate. intros H; injection H as <- <-. constructor.
  - exists i, i1; split; auto.
  - apply pstar_elems in Es. eapply Forall_impl; [|exact Es]. intros y. apply elem_mono. eapply run_suffix; eauto.
Qed.
Lemma inv_list n {A : Set} (a : PE A) s i v r : R n _ (PList a s) i = Ok v r -> Forall (elem n a i) v.
Proof.
  rewrite run_List. destruct (R n _ a i) as [x i1| | |] eqn:E; try discriminate.
  destruct (plist _ _ _ _) eqn:Es; try discriminate. intros H; injection H as <- <-. constructor.
  - exists i, i1; split; auto.
  - apply plist_elems in Es. eapply Forall_impl; [|exact Es]. intros y. apply elem_mono. eapply run_suffix; eauto.
Qed.
End Inv.

Section Nodes.
Variable m : text -> option text.
Variable T : text.          (* the whole text *)

(** [v] was read by [e] from a suffix of the text. *)
Definition read {A : Set} (e : PE A) (v : A) : Prop :=
  exists n i r, suffix i T /\ grun m n e i = Ok v r.

Definition from (x : node) : Prop :=
  match x with
  | N_ve v => read (g_value_expression) v
  | N_venb v => read (g_value_expression_non_bool m) v
  | N_vterm v => read (g_term m) v
  | N_factor v => read (g_factor m) v
  | N_nprim v => read (g_numeric_primary m) v
  | N_nvf v => read (g_numeric_value_function m) v
  | N_vep v => read (g_value_expression_primary m) v
  | N_vepv v => exists idx, read (g_value_expression_primary m) (VEP v idx) /\ read (g_numeric_primary m) (NP_vep (VEP v idx))
  | N_swhen v => read g_simple_when v
  | N_qwhen v => read g_searched_when v
  | N_result v => read g_result v
  | N_sc v => read g_search_condition v
  | N_bfac v => read g_boolean_factor v
  | N_bprim v => read g_boolean_primary v
  | N_pred v => read g_predicate v
  | N_intarget v => read g_in_target v
  | N_subq v => read (g_subquery m) v
  | N_jt v => read (g_joined_table m) v \/ exists j, v = JT_p j /\ read (g_joined_table m) j
  | N_qjhead v => True
  | N_jsuf v => read g_join_suffix v
  | N_jspec v => read g_join_specification v
  | N_tref v => read (g_table_reference m) v
  | N_qspec v => read (g_query m) v \/ read (g_query_no_geometry m) v
  | N_with v => read g_with v
  | N_addon v => read (g_addon_gen m (g_where m)) v \/ read (g_addon_gen m g_where_no_geometry) v
  | N_sfw v => read (g_sfw_gen m (g_where m)) v \/ read (g_sfw_gen m g_where_no_geometry) v
  | N_where v => read (g_where m) v \/ read g_where_no_geometry v \/ v = Where None None
  | N_geom v => read (g_geometry m) v
  | N_gpred v => read (g_contains m <|> g_intersects m) v
  | N_select v => read (g_select m) v
  | N_columns v => read (g_columns m) v
  | N_colv v => read (g_select_item m) v
  | N_gterm v => read (g_group_by_term m) v
  | N_sort v => read (g_sort_specification m) v
  | N_soc v => read (g_shape_or_column m) v
  | N_poc v => read (g_point_or_column m) v
  end.

Definition nodes_attr (r : rule) : attr r -> list node :=
  match r return attr r -> list node with
  | R_ve => nodes_ve | R_venb => nodes_venb | R_sc => nodes_sc
  | R_subq => nodes_subq | R_jt => nodes_jt | R_tref => nodes_tref
  end.

Notation F := (Forall from).
Notation Rn n e i v r := (run (g_body m) n _ e i = Ok v r).

Lemma Fcons x l : from x -> F l -> F (x :: l). Proof. now constructor. Qed.
Lemma Fapp a b : F a -> F b -> F (a ++ b). Proof. intros; apply Forall_app; auto. Qed.
Lemma Fnil : F []. Proof. constructor. Qed.
Lemma Fopt {A} (f : A -> list node) o : (forall x, o = Some x -> F (f x)) -> F (onodes f o).
Proof. destruct o; cbn; auto. Qed.
Lemma Fmap {A} (f : A -> list node) (P : A -> Prop) l : Forall P l -> (forall x, P x -> F (f x)) -> F (flat_map f l).
Proof. induction 1; cbn; intros; auto. apply Fapp; auto. Qed.

Lemma read_intro {A : Set} (e : PE A) n i v r : suffix i T -> Rn n e i v r -> read e v.
Proof. intros; exists n, i, r; auto. Qed.

Section Step.
Variable n : nat.
Hypothesis IH : forall k, k < n -> forall q i v r, suffix i T -> Rn k (g_body m q) i v r -> F (nodes_attr q v).

Lemma rule_F q i v r : suffix i T -> Rn n (PRule q) i v r -> F (nodes_attr q v).
Proof. intros S H. apply inv_rule in H as (k & -> & H). eapply IH; eauto. Qed.

Lemma F_ve i v r : suffix i T -> Rn n p_ve i v r -> F (nodes_ve v).
Proof. apply (rule_F R_ve). Qed.
Lemma F_venb i v r : suffix i T -> Rn n p_venb i v r -> F (nodes_venb v).
Proof. apply (rule_F R_venb). Qed.
Lemma F_sc i v r : suffix i T -> Rn n p_sc i v r -> F (nodes_sc v).
Proof. apply (rule_F R_sc). Qed.
Lemma F_subq i v r : suffix i T -> Rn n p_subq i v r -> F (nodes_subq v).
Proof. apply (rule_F R_subq). Qed.
Lemma F_jt i v r : suffix i T -> Rn n p_jt i v r -> F (nodes_jt v).
Proof. apply (rule_F R_jt). Qed.
Lemma F_tref i v r : suffix i T -> Rn n p_tref i v r -> F (nodes_tref v).
Proof. apply (rule_F R_tref). Qed.

Lemma elem_ve i l : suffix i T -> Forall (elem (g_body m) n p_ve i) l -> F (flat_map nodes_ve l).
Proof. intros S H. eapply Fmap; [exact H|]. intros x (i1 & r & S1 & H1). eapply F_ve; [|exact H1]. eapply suffix_trans; eauto. Qed.

(** Take a run apart. *)
Ltac rinv1 :=
  match goal with
  | H : run _ _ _ (PSeq _ _) _ = Ok _ _ |- _ => apply inv_seq in H as (? & ? & ? & ? & ? & ? & ?)
  | H : run _ _ _ (PExp _ _) _ = Ok _ _ |- _ => apply inv_exp in H as (? & ? & ? & ? & ? & ? & ?)
  | H : run _ _ _ (PAlt _ _) _ = Ok _ _ |- _ => apply inv_alt in H as [H|(? & ? & ? & H)]
  | H : run _ _ _ (PMap _ _) _ = Ok _ _ |- _ => apply inv_map in H as (? & ? & H)
  | H : run _ _ _ (POpt _) _ = Ok _ _ |- _ => apply inv_opt in H as [(? & ? & H)|(? & H)]
  | H : run _ _ _ (PRet _) _ = Ok _ _ |- _ => apply inv_ret in H as (? & ?)
  | H : run _ _ _ (PStar _) _ = Ok _ _ |- _ => apply inv_star in H
  | H : run _ _ _ (PPlus _) _ = Ok _ _ |- _ => apply inv_plus in H
  | H : run _ _ _ (PList _ _) _ = Ok _ _ |- _ => apply inv_list in H
  | x : (_ * _)%type |- _ => destruct x
  | H : (_, _) = (_, _) |- _ => injection H; clear H; intros
  | H : Ok _ _ = Ok _ _ |- _ => injection H; clear H; intros
  end.
Ltac rinv := repeat (rinv1; subst); cbn [fst snd odef] in *; subst.
Ltac sfx := repeat match goal with H : suffix ?a ?b |- _ => 
    match goal with K : suffix b T |- _ =>
      lazymatch goal with K' : suffix a T |- _ => fail | _ => pose proof (suffix_trans _ _ _ H K) end end end.
Ltac leaf := first
  [ apply Fnil
  | (eapply F_ve; [|eassumption]; eassumption) | (eapply F_venb; [|eassumption]; eassumption) | (eapply F_sc; [|eassumption]; eassumption)
  | (eapply F_subq; [|eassumption]; eassumption) | (eapply F_jt; [|eassumption]; eassumption) | (eapply F_tref; [|eassumption]; eassumption)
  | (eapply elem_ve; [|eassumption]; eassumption) ].
Ltac go := repeat first [apply Fcons; [cbn [from]; first [(eapply read_intro; [|eassumption]; eassumption)|idtac]|] | apply Fapp | leaf].

Lemma F_poc i v r : suffix i T -> Rn n (g_point_or_column m) i v r -> F [N_poc v].
Proof. intros S H. go. Qed.
Lemma F_soc i v r : suffix i T -> Rn n (g_shape_or_column m) i v r -> F [N_soc v].
Proof. intros S H. go. Qed.

Lemma F_nvf i v r : suffix i T -> Rn n (g_numeric_value_function m) i v r -> F (nodes_nvf v).
Proof.
  intros S H. pose proof (read_intro _ _ _ _ _ S H) as Rd.
  unfold g_numeric_value_function, g_trig_function, g_trig_one_arg, g_trig_two_arg, g_math_function,
    g_math_zero_arg, g_math_one_arg, g_math_two_arg, g_cast_function, g_geo_function, g_geo_one_arg,
    g_geo_two_arg, g_user_defined_function in H.
  rinv; sfx; cbn [nodes_nvf flat_map]; apply Fcons; try exact Rd; go.
Qed.

Lemma F_result i v r : suffix i T -> Rn n g_result i v r -> F (nodes_result v).
Proof.
  intros S H. pose proof (read_intro _ _ _ _ _ S H) as Rd. unfold g_result in H.
  rinv; sfx; cbn [nodes_result]; apply Fcons; try exact Rd; go.
Qed.
Lemma F_swhen i v r : suffix i T -> Rn n g_simple_when i v r -> F (nodes_swhen v).
Proof.
  intros S H. pose proof (read_intro _ _ _ _ _ S H) as Rd. unfold g_simple_when in H.
  rinv; sfx; cbn [nodes_swhen]; apply Fcons; try exact Rd; go. eapply F_result; [|eassumption]; eassumption.
Qed.
Lemma F_qwhen i v r : suffix i T -> Rn n g_searched_when i v r -> F (nodes_qwhen v).
Proof.
  intros S H. pose proof (read_intro _ _ _ _ _ S H) as Rd. unfold g_searched_when in H.
  rinv; sfx; cbn [nodes_qwhen]; apply Fcons; try exact Rd; go. eapply F_result; [|eassumption]; eassumption.
Qed.
Lemma F_else i v r : suffix i T -> Rn n g_else_clause i v r -> F (nodes_result v).
Proof.
  intros S H. unfold g_else_clause in H. rinv; sfx. eapply F_result; [|eassumption]; eassumption.
Qed.
Ltac elems L := eapply Fmap; [eassumption|]; let x := fresh in let S1 := fresh in let H1 := fresh in
   intros x (? & ? & S1 & H1); eapply L; [|exact H1]; eapply suffix_trans; eassumption.

Lemma F_case i v r : suffix i T -> Rn n g_case_expression i v r -> F (tl (nodes_vepv v)).
Proof.
  intros S H. unfold g_case_expression, g_nullif, g_coalesce, g_case_specification, g_simple_case, g_searched_case in H.
  rinv; sfx; cbn [nodes_vepv tl onodes]; go.
  all: try (elems F_swhen). all: try (elems F_qwhen). all: eapply F_else; [|eassumption]; eassumption.
Qed.
Lemma F_vep i v r : suffix i T -> Rn n (g_value_expression_primary m) i v r -> read (g_numeric_primary m) (NP_vep v) -> F (nodes_vep v).
Proof.
  intros S H Rp. pose proof (read_intro _ _ _ _ _ S H) as Rd.
  unfold g_value_expression_primary in H. apply inv_map in H as ((x & idx) & -> & H).
  apply inv_seq in H as (x' & idx' & i1 & E & S1 & Hx & Hi). injection E as <- <-.
  cbn [nodes_vep]. apply Fcons; [exact Rd|]. apply Fapp.
  - assert (from (N_vepv x)) as Fx by (exists idx; split; [exact Rd|exact Rp]).
    unfold g_array_constructor, g_set_function_specification, g_count_star, g_general_set_function,
      g_any_expression, g_value_subexpression, g_general_set_args in Hx.
    repeat match type of Hx with run _ _ _ (PAlt _ _) _ = _ => apply inv_alt in Hx as [Hx|(? & ? & ? & Hx)] end.
    all: try (rinv; sfx; cbn [nodes_vepv]; apply Fcons; [exact Fx|]; go; fail).
    sfx. assert (F (tl (nodes_vepv x))) as K by (eapply F_case; [|exact Hx]; assumption).
    destruct x; cbn [nodes_vepv tl] in *; apply Fcons; auto.
  - apply inv_star in Hi. eapply Fmap; [exact Hi|]. intros y (i2 & r2 & S2 & H2).
    clear Hx. assert (suffix i1 T) by (eapply suffix_trans; [exact S1|exact S]).
    unfold g_array_index in H2. rinv. sfx. go.
Qed.
Lemma F_factor i v r : suffix i T -> Rn n (g_factor m) i v r -> F (nodes_factor v).
Proof.
  intros S H. pose proof (read_intro _ _ _ _ _ S H) as Rd. unfold g_factor in H.
  rinv; sfx; cbn [nodes_factor]; apply Fcons; try exact Rd.
  match goal with H : run _ _ _ (g_numeric_primary m) _ = _ |- _ => rename H into Hp end.
  match type of Hp with run _ _ _ _ ?i = _ => assert (suffix i T) as Sp by assumption end.
  pose proof (read_intro _ _ _ _ _ Sp Hp) as Rp. unfold g_numeric_primary in Hp.
  rinv; sfx; cbn [nodes_nprim]; apply Fcons; try exact Rp.
  - eapply F_nvf; [|eassumption]; eassumption.
  - eapply F_vep; [|eassumption|exact Rp]; eassumption.
Qed.
Lemma F_pred i v r : suffix i T -> Rn n g_predicate i v r -> F (nodes_pred v).
Proof.
  intros S H. pose proof (read_intro _ _ _ _ _ S H) as Rd.
  unfold g_predicate, g_comparison_predicate, g_between_predicate, g_in_predicate, g_null_predicate,
    g_like_predicate, g_exists_predicate in H.
  rinv; sfx; cbn [nodes_pred]; apply Fcons; try exact Rd; go.
  - match goal with H : run _ _ _ g_in_target _ = _ |- _ => rename H into Hp end.
    match type of Hp with run _ _ _ _ ?i = _ => assert (suffix i T) as Sp by assumption end.
    pose proof (read_intro _ _ _ _ _ Sp Hp) as Rp. unfold g_in_target in Hp.
    rinv; sfx; cbn [nodes_intarget]; apply Fcons; try exact Rp; go.
  - match goal with H : run _ _ _ p_venb ?i = Ok ?v _ |- read _ (VE_nb ?v) => rename H into Hp; assert (suffix i T) as Sp by assumption end.
    eapply read_intro; [exact Sp|]. unfold g_value_expression. rewrite run_Alt, run_Map, Hp. reflexivity.
Qed.
Lemma F_bfac i v r : suffix i T -> Rn n g_boolean_factor i v r -> F (nodes_bfac v).
Proof.
  intros S H. pose proof (read_intro _ _ _ _ _ S H) as Rd. unfold g_boolean_factor in H.
  rinv; sfx; cbn [nodes_bfac]; apply Fcons; try exact Rd.
  match goal with H : run _ _ _ g_boolean_primary _ = _ |- _ => rename H into Hp end.
  match type of Hp with run _ _ _ _ ?i = _ => assert (suffix i T) as Sp by assumption end.
  pose proof (read_intro _ _ _ _ _ Sp Hp) as Rp. unfold g_boolean_primary in Hp.
  rinv; sfx; cbn [nodes_bprim]; apply Fcons; try exact Rp; go.
  eapply F_pred; [|eassumption]; eassumption.
Qed.
Lemma F_scb i v r : suffix i T -> Rn n g_search_condition i v r -> F (nodes_sc v).
Proof.
  intros S H. pose proof (read_intro _ _ _ _ _ S H) as Rd. unfold g_search_condition, g_boolean_term in H.
  rinv; sfx; cbn [nodes_sc]; apply Fcons; try exact Rd; go; (eapply F_bfac; [|eassumption]; eassumption).
Qed.
Lemma F_veb i v r : suffix i T -> Rn n g_value_expression i v r -> F (nodes_ve v).
Proof.
  intros S H. pose proof (read_intro _ _ _ _ _ S H) as Rd. unfold g_value_expression in H.
  rinv; sfx; cbn [nodes_ve]; apply Fcons; try exact Rd; go.
Qed.
Lemma F_vterm i v r : suffix i T -> Rn n (g_term m) i v r -> F (nodes_vterm v).
Proof.
  intros S H. pose proof (read_intro _ _ _ _ _ S H) as Rd. unfold g_term in H.
  rinv; sfx; cbn [nodes_vterm]; apply Fcons; try exact Rd; go. eapply F_factor; [|eassumption]; eassumption.
Qed.
Lemma F_venbb i v r : suffix i T -> Rn n (g_value_expression_non_bool m) i v r -> F (nodes_venb v).
Proof.
  intros S H. pose proof (read_intro _ _ _ _ _ S H) as Rd. unfold g_value_expression_non_bool in H.
  rinv; sfx; cbn [nodes_venb]; apply Fcons; try exact Rd; go.
  - eapply F_factor; [|eassumption]; eassumption.
  - elems F_vterm.
Qed.
Lemma F_jspec i v r : suffix i T -> Rn n g_join_specification i v r -> F (nodes_jspec v).
Proof.
  intros S H. pose proof (read_intro _ _ _ _ _ S H) as Rd. unfold g_join_specification, g_join_condition, g_named_columns_join in H.
  rinv; sfx; cbn [nodes_jspec]; apply Fcons; try exact Rd; go.
Qed.
Lemma F_jsuf i v r : suffix i T -> Rn n g_join_suffix i v r -> F (nodes_jsuf v).
Proof.
  intros S H. pose proof (read_intro _ _ _ _ _ S H) as Rd. unfold g_join_suffix in H.
  rinv; sfx; cbn [nodes_jsuf onodes]; apply Fcons; try exact Rd; go; (eapply F_jspec; [|eassumption]; eassumption).
Qed.
Lemma F_jtb i v r : suffix i T -> Rn n (g_joined_table m) i v r -> F (nodes_jt v).
Proof.
  intros S H. pose proof (read_intro _ _ _ _ _ S H) as Rd. unfold g_joined_table, g_qualified_join, g_table_correlation in H.
  rinv; sfx; cbn [nodes_jt nodes_qjoin nodes_qjhead]; apply Fcons; try (left; exact Rd); go.
  all: try exact Logic.I.
  all: try (elems F_jsuf).
  right. eexists; split; [reflexivity|].
  match goal with H : run _ _ _ p_jt _ = _ |- _ => destruct (inv_rule (g_body m) n R_jt _ _ _ H) as (k & _ & Hk) end.
  eapply read_intro; [|exact Hk]. assumption.
Qed.
Lemma F_trefb i v r : suffix i T -> Rn n (g_table_reference m) i v r -> F (nodes_tref v).
Proof.
  intros S H. pose proof (read_intro _ _ _ _ _ S H) as Rd.
  unfold g_table_reference, g_table_correlation, g_derived_correlation, g_table_valued_function in H.
  rinv; sfx; cbn [nodes_tref]; apply Fcons; try exact Rd; go.
Qed.
Lemma F_gpred i v r : suffix i T -> Rn n (g_contains m <|> g_intersects m) i v r -> F (nodes_gpred v).
Proof.
  intros S H. pose proof (read_intro _ _ _ _ _ S H) as Rd. unfold g_contains, g_intersects in H.
  rinv; sfx; cbn [nodes_gpred]; apply Fcons; try exact Rd; go.
Qed.
Lemma F_geom i v r : suffix i T -> Rn n (g_geometry m) i v r -> F (nodes_geom v).
Proof.
  intros S H. pose proof (read_intro _ _ _ _ _ S H) as Rd. unfold g_geometry, g_geometry_left, g_geometry_right in H.
  set (gp := g_contains m <|> g_intersects m) in *.
  rinv; sfx; cbn [nodes_geom]; apply Fcons; try exact Rd; (eapply F_gpred; [|eassumption]; eassumption).
Qed.
Lemma F_where i v r : suffix i T -> Rn n (g_where m) i v r -> F (nodes_where v).
Proof.
  intros S H. pose proof (read_intro _ _ _ _ _ S H) as Rd. unfold g_where in H.
  rinv; sfx; cbn [nodes_where onodes app]; apply Fcons; try (left; exact Rd); go;
    (eapply F_geom; [|eassumption]; eassumption).
Qed.
Lemma F_where_ng i v r : suffix i T -> Rn n (g_where_no_geometry) i v r -> F (nodes_where v).
Proof.
  intros S H. pose proof (read_intro _ _ _ _ _ S H) as Rd. unfold g_where_no_geometry in H.
  rinv; sfx; cbn [nodes_where onodes app]; apply Fcons; try (right; left; exact Rd); go.
Qed.
Lemma F_colv i v r : suffix i T -> Rn n (g_select_item m) i v r -> F (nodes_colv v).
Proof.
  intros S H. pose proof (read_intro _ _ _ _ _ S H) as Rd. unfold g_select_item, g_as, g_non_as in H.
  rinv; sfx; cbn [nodes_colv]; apply Fcons; try exact Rd; go.
Qed.
Lemma F_columns i v r : suffix i T -> Rn n (g_columns m) i v r -> F (nodes_columns v).
Proof.
  intros S H. pose proof (read_intro _ _ _ _ _ S H) as Rd. unfold g_columns in H.
  rinv; sfx; cbn [nodes_columns]; apply Fcons; try exact Rd; go. elems F_colv.
Qed.
Lemma F_select i v r : suffix i T -> Rn n (g_select m) i v r -> F (nodes_select v).
Proof.
  intros S H. pose proof (read_intro _ _ _ _ _ S H) as Rd. unfold g_select in H.
  rinv; sfx; cbn [nodes_select]; apply Fcons; try exact Rd; (eapply F_columns; [|eassumption]; eassumption).
Qed.
Lemma F_gterm i v r : suffix i T -> Rn n (g_group_by_term m) i v r -> F (nodes_gterm v).
Proof.
  intros S H. pose proof (read_intro _ _ _ _ _ S H) as Rd. unfold g_group_by_term in H.
  rinv; sfx; cbn [nodes_gterm]; apply Fcons; try exact Rd; go.
Qed.
Lemma F_with i v r : suffix i T -> Rn n g_with i v r -> F (nodes_with v).
Proof.
  intros S H. pose proof (read_intro _ _ _ _ _ S H) as Rd. unfold g_with in H.
  rinv; sfx; cbn [nodes_with]; apply Fcons; try exact Rd; go.
Qed.

(** The parts that exist with and without geometry. *)
Section W.
Variable w : PE wherec.
Hypothesis Hw : w = g_where m \/ w = g_where_no_geometry.
Hypothesis Fw : forall i v r, suffix i T -> Rn n w i v r -> F (nodes_where v).
Lemma F_sfw i v r : suffix i T -> Rn n (g_sfw_gen m w) i v r -> F (nodes_sfw v).
Proof.
  intros S H. assert (from (N_sfw v)) as Rd by (destruct Hw as [-> | ->]; [left|right]; eapply read_intro; eauto).
  unfold g_sfw_gen, g_from_clause in H.
  rinv; sfx; cbn [nodes_sfw]; apply Fcons; try exact Rd; go.
  all: try (eapply F_select; [|eassumption]; eassumption).
  all: try (elems F_tref).
  - eapply Fw; [|eassumption]; eassumption.
  - right; right; reflexivity.
Qed.
Lemma F_addon i v r : suffix i T -> Rn n (g_addon_gen m w) i v r -> F (nodes_addon v).
Proof.
  intros S H. assert (from (N_addon v)) as Rd by (destruct Hw as [-> | ->]; [left|right]; eapply read_intro; eauto).
  unfold g_addon_gen in H.
  rinv; sfx; cbn [nodes_addon]; apply Fcons; try exact Rd. eapply F_sfw; [|eassumption]; eassumption.
Qed.
Lemma F_qspec i v r : suffix i T -> Rn n (g_query_gen m w) i v r -> F (nodes_qspec v).
Proof.
  intros S H. assert (from (N_qspec v)) as Rd by (destruct Hw as [-> | ->]; [left|right]; eapply read_intro; eauto).
  unfold g_query_gen in H. apply inv_map in H as (x & -> & H). destruct x as ((((wi & (i0 & ad)) & g) & h) & o).
  apply inv_seq in H as (? & ? & i5 & E & S5 & H & Ho); injection E as <- <-.
  apply inv_seq in H as (? & ? & i4 & E & S4 & H & Hh); injection E as <- <-.
  apply inv_seq in H as (? & ? & i3 & E & S3 & H & Hg); injection E as <- <-.
  apply inv_seq in H as (? & ? & i2 & E & S2 & H & Hi); injection E as <- <-.
  apply inv_seq in Hi as (? & ? & i1 & E & S1 & Hi & Ha); injection E as <- <-.
  sfx.
  cbn [nodes_qspec]. apply Fcons; [exact Rd|]. repeat apply Fapp.
  - apply Fopt. intros x ->. apply inv_opt in H as [(y & E & H)|(E & _)]; [injection E as ->|discriminate].
    eapply F_with; [|exact H]; assumption.
  - eapply F_sfw; [|exact Hi]; assumption.
  - apply inv_star in Ha. eapply Fmap; [exact Ha|]. intros y (? & ? & Sy & Hy). eapply F_addon; [|exact Hy]. eapply suffix_trans; [exact Sy|assumption].
  - apply inv_opt in Hg as [(y & -> & Hg)|(-> & _)]; [|cbn; apply Fnil]. cbn [odef]. unfold g_group_by in Hg. clear H Hi Ha Hh Ho.
    rinv. sfx. elems F_gterm.
  - apply Fopt. intros x ->. apply inv_opt in Hh as [(y & E & Hh)|(E & _)]; [injection E as ->|discriminate].
    unfold g_having in Hh. clear H Hi Ha Hg Ho. rinv; sfx. go.
  - apply inv_opt in Ho as [(y & -> & Ho)|(-> & _)]; [|cbn; apply Fnil]. cbn [odef]. unfold g_order_by in Ho. clear H Hi Ha Hg Hh.
    rinv. sfx. match goal with H : Forall _ ?l |- F (map _ ?l) => rename H into Hl end.
    apply Forall_map. eapply Forall_impl; [|exact Hl]. intros z (? & ? & Sx & Hx). cbn [from].
    eapply read_intro; [|exact Hx]. eapply suffix_trans; [exact Sx|assumption].
Qed.
End W.

Lemma F_query i v r : suffix i T -> Rn n (g_query m) i v r -> F (nodes_qspec v).
Proof. apply F_qspec; [now left|]. apply F_where. Qed.
Lemma F_query_ng i v r : suffix i T -> Rn n (g_query_no_geometry m) i v r -> F (nodes_qspec v).
Proof. apply F_qspec; [now right|]. apply F_where_ng. Qed.
Lemma F_subqb i v r : suffix i T -> Rn n (g_subquery m) i v r -> F (nodes_subq v).
Proof.
  intros S H. pose proof (read_intro _ _ _ _ _ S H) as Rd. unfold g_subquery in H.
  rinv; sfx; cbn [nodes_subq]; apply Fcons; try exact Rd; go.
  eapply F_query_ng; [|eassumption]; eassumption.
Qed.
End Step.

Lemma F_body n : forall q i v r, suffix i T -> Rn n (g_body m q) i v r -> F (nodes_attr q v).
Proof.
  induction n as [n IH] using lt_wf_ind. intros q i v r S H.
  destruct q; cbn [nodes_attr g_body] in *.
  - eapply F_veb; eauto.
  - eapply F_venbb; eauto.
  - eapply F_scb; eauto.
  - eapply F_subqb; eauto.
  - eapply F_jtb; eauto.
  - eapply F_trefb; eauto.
Qed.
End Nodes.

Lemma query_nodes m n i q r : grun m n (g_query m) i = Ok q r -> Forall (from m i) (nodes_qspec q).
Proof. intros H. eapply F_query; [|apply suffix_refl|exact H]. intros; eapply F_body; eauto. Qed.
