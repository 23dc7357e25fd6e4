(** Letter case does not matter: the grammar and the printed text (C12). *)
From Verif Require Import Query PegProps TextLemmas SpecCase CaseLex CaseParse.

Section Fmt.
Variable fmt : text -> text.
Hypothesis fmt_case : forall a b, ueq a b -> ueq (fmt a) (fmt b).
(** [U] is [upper]; a variable here so that [cbn] keeps the mutual fixpoints folded. *)
Variable U : text -> text.
Hypothesis U_case : forall a b, ueq a b -> U a = U b.

(** Same structure, printed texts that differ in letter case only, same answer of empty(). *)
Definition al {A : Set} (tx : A -> A) (pr : A -> text) (em : A -> bool) (v w : A) : Prop :=
  tx v = tx w /\ ueq (pr v) (pr w) /\ em v = em w.
Definition no {A : Set} (_ : A) := false.
Instance lk_colref : Like colref := al (tx_colref U) pr_colref colref_empty.
Instance lk_csae : Like csae := al (tx_csae U) (pr_csae fmt) csae_empty.
Instance lk_coord : Like coordinate := al (tx_coord U) (pr_coord fmt) coordinate_empty.
Instance lk_shape : Like shape := al (tx_shape U) (pr_shape fmt) shape_empty.
Instance lk_soc : Like soc := al (tx_soc U) (pr_soc fmt) soc_empty.
Instance lk_poc : Like poc := al (tx_poc U) (pr_poc fmt) no.
Instance lk_sk : Like sort_key := al (tx_sort_key U) (fun k => match k with SK_col c => pr_colref c | SK_int s => s end) no.
Instance lk_sort : Like sort_spec := al (tx_sort U) pr_sort no.
Instance lk_jtype : Like jtype := al (tx_jtype U) pr_jtype no.
Instance lk_ve : Like ve := al (tx_ve U) (pr_ve fmt) ve_empty.
Instance lk_venb : Like venb := al (tx_venb U) (pr_venb fmt) venb_empty.
Instance lk_vterm : Like vterm := al (tx_vterm U) (pr_vterm fmt) no.
Instance lk_factor : Like factor := al (tx_factor U) (pr_factor fmt) factor_empty.
Instance lk_nprim : Like nprim := al (tx_nprim U) (pr_nprim fmt) nprim_empty.
Instance lk_nvf : Like nvf := al (tx_nvf U) (pr_nvf fmt) nvf_empty.
Instance lk_vep : Like vep := al (tx_vep U) (pr_vep fmt) vep_empty.
Instance lk_vepv : Like vepv := al (tx_vepv U) (pr_vepv fmt) vepv_empty.
Instance lk_swhen : Like swhen := al (tx_swhen U) (pr_swhen fmt) no.
Instance lk_qwhen : Like qwhen := al (tx_qwhen U) (pr_qwhen fmt) no.
Instance lk_result : Like result := al (tx_result U) (pr_result fmt) result_empty.
Instance lk_sc : Like sc := al (tx_sc U) (pr_sc fmt) sc_empty.
Instance lk_bfac : Like bfac := al (tx_bfac U) (pr_bfac fmt) bfac_empty.
Instance lk_bprim : Like bprim := al (tx_bprim U) (pr_bprim fmt) bprim_empty.
Instance lk_pred : Like pred := al (tx_pred U) (pr_pred fmt) pred_empty.
Instance lk_int : Like intarget := al (tx_intarget U) (pr_intarget fmt) no.
Instance lk_subq : Like subq := al (tx_subq U) (pr_subq fmt) subq_empty.
Instance lk_jt : Like jt := al (tx_jt U) (pr_jt fmt) jt_empty.
Instance lk_qjoin : Like qjoin := al (tx_qjoin U) (pr_qjoin fmt) qjoin_empty.
Instance lk_qjhead : Like qjhead := al (tx_qjhead U) (pr_qjhead fmt) qjhead_empty.
Instance lk_jsuf : Like jsuf := al (tx_jsuf U) (pr_jsuf fmt) no.
Instance lk_jspec : Like jspec := al (tx_jspec U) (pr_jspec fmt) jspec_empty.
Instance lk_tref : Like tref := al (tx_tref U) (pr_tref fmt) no.
Instance lk_qspec : Like qspec := al (tx_qspec U) (pr_qspec fmt) qspec_empty.
Instance lk_with : Like withc := al (tx_with U) (pr_with fmt) with_empty.
Instance lk_addon : Like addon := al (tx_addon U) (pr_addon fmt) no.
Instance lk_sfw : Like sfw := al (tx_sfw U) (pr_sfw fmt) sfw_empty.
Instance lk_where : Like wherec := al (tx_where U) (pr_where fmt) where_empty.
Instance lk_geom : Like geom := al (tx_geom U) (pr_geom fmt) geom_empty.
Instance lk_gpred : Like gpred := al (tx_gpred U) (pr_gpred fmt) gpred_empty.
Instance lk_select : Like select := al (tx_select U) (pr_select fmt) no.
Instance lk_columns : Like columns := al (tx_columns U) (pr_columns fmt) no.
Instance lk_colv : Like colv := al (tx_colv U) (pr_colv fmt) no.
Instance lk_gterm : Like gterm := al (tx_gterm U) (pr_gterm fmt) no.

(** ** Lists and options of related values *)
Lemma al_map {A : Set} tx pr em (l l' : list A) : Forall2 (al tx pr em) l l' -> map tx l = map tx l'.
Proof. induction 1 as [|x y l l' (E & _) _ IH]; cbn [map]; congruence. Qed.
Lemma f2_nil {A : Set} (R : A -> A -> Prop) l l' : Forall2 R l l' -> is_nil l = is_nil l'.
Proof. destruct 1; reflexivity. Qed.
Lemma text_map l l' : Forall2 ueq l l' -> map U l = map U l'.
Proof. induction 1 as [|a b l l' H _ IH]; cbn [map]; [reflexivity|]. apply U_case in H. congruence. Qed.
Lemma f2_concat {A : Set} (R : A -> A -> Prop) (g : A -> text) l l' : Forall2 R l l' -> (forall x y, R x y -> ueq (g x) (g y)) ->
  ueq (concat (map g l)) (concat (map g l')).
Proof. intros H Hg. induction H; cbn [map concat]; [reflexivity|]. apply ueq_app; auto. Qed.
Lemma f2_join {A : Set} (R : A -> A -> Prop) (g : A -> text) s l l' : Forall2 R l l' -> (forall x y, R x y -> ueq (g x) (g y)) ->
  ueq (join s (map g l)) (join s (map g l')).
Proof.
  intros H Hg. induction H as [|x y l l' H0 H IH]; [reflexivity|]. destruct H as [|x2 y2 l l' H1 H]; cbn [map join]; [auto|].
  apply ueq_app; [auto|]. apply ueq_app; [reflexivity|exact IH].
Qed.
Lemma f2_join_id s l l' : Forall2 ueq l l' -> ueq (join s l) (join s l').
Proof. intros H. rewrite <- (map_id l), <- (map_id l'). eapply f2_join; [exact H|auto]. Qed.
Lemma f2_len {A : Set} (R : A -> A -> Prop) l l' : Forall2 R l l' -> length l = length l'.
Proof. induction 1; cbn; congruence. Qed.
Lemma upper_idem a : upper (upper a) = upper a.
Proof. unfold upper. rewrite map_map. apply map_ext, upc_idem. Qed.
Lemma ueq_upper a b : ueq a b -> ueq (upper a) (upper b).
Proof. unfold ueq. rewrite !upper_idem. auto. Qed.
Lemma ueq_nlsp a b : ueq a b -> ueq (nl_sp a) (nl_sp b).
Proof. intros H. unfold nl_sp. rewrite (ueq_is_nil _ _ H). destruct (is_nil b); [reflexivity|]. apply ueq_app; [exact H|reflexivity]. Qed.

(** ** Solving the obligations of the attribute functions *)
Ltac dest :=
  repeat match goal with
  | x : (_ * _)%type |- _ => destruct x
  | H : @like (_ * _)%type _ _ _ |- _ => destruct H as [? ?]; cbn [fst snd] in *
  | H : like (Some ?a) (Some ?b) |- _ => change (like a b) in H
  | H : like (Some _) None |- _ => destruct H
  | H : like None (Some _) |- _ => destruct H
  | H : @like (option _) _ ?a ?b |- _ => first [is_var a; destruct a | is_var b; destruct b]
  end.
Ltac cbns := cbn [tx_colref tx_csae tx_coord tx_shape tx_soc tx_poc tx_sort_key tx_sort tx_jtype tx_ve tx_venb tx_vterm tx_factor
    tx_nprim tx_nvf tx_vep tx_vepv tx_swhen tx_qwhen tx_result tx_sc tx_bfac tx_bprim tx_pred tx_intarget tx_subq tx_jt tx_qjoin
    tx_qjhead tx_jsuf tx_jspec tx_tref tx_qspec tx_with tx_addon tx_sfw tx_where tx_geom tx_gpred tx_select tx_columns tx_colv
    tx_gterm pr_colref pr_csae pr_coord pr_shape pr_soc pr_poc pr_sort pr_jtype pr_tc pr_tvf pr_vector pr_ve pr_venb pr_vterm
    pr_factor pr_nprim pr_nvf pr_vep pr_vepv pr_swhen pr_qwhen pr_result pr_sc pr_bfac pr_bprim pr_pred pr_intarget pr_subq
    pr_jt pr_qjoin pr_qjhead pr_jsuf pr_jspec pr_tref pr_qspec pr_with pr_addon pr_sfw pr_where pr_geom pr_gpred pr_select
    pr_columns pr_colv pr_gterm
    colref_empty csae_empty coordinate_empty shape_empty soc_empty nvf_empty sfw_empty qspec_empty jt_empty qjoin_empty
    qjhead_empty subq_empty ve_empty venb_empty factor_empty nprim_empty vep_empty vepv_empty sc_empty bfac_empty bprim_empty
    pred_empty result_empty gpred_empty geom_empty opt_empty where_empty with_empty jspec_empty option_map odef dflt].
Ltac facts :=
  repeat match goal with
  | H : like ?a ?b |- _ =>
      let T := type of a in
      match T with
      | text => change (ueq a b) in H
      | list ascii => change (ueq a b) in H
      | list text => change (Forall2 ueq a b) in H
      | list _ => change (Forall2 like a b) in H
      | unit => clear H
      | option _ => clear H
      | N => change (a = b) in H
      | bool => change (a = b) in H
      | frame => change (a = b) in H
      | _ => destruct H as (? & ? & ?)
      end
  end; subst.

Ltac maps :=
  repeat match goal with
  | H : Forall2 ueq ?l ?l' |- _ => lazymatch goal with
      | _ : is_nil l = is_nil l' |- _ => fail
      | _ => pose proof (f2_nil _ _ _ H); pose proof (text_map _ _ H) end
  | H : Forall2 like ?l ?l' |- _ => lazymatch goal with
      | _ : is_nil l = is_nil l' |- _ => fail
      | _ => pose proof (f2_nil _ _ _ H); pose proof (al_map _ _ _ _ _ H) end
  end.
Ltac prt :=
  repeat first
    [ assumption | reflexivity | apply fmt_case | apply ueq_nlsp | apply ueq_upper
    | (eapply f2_join_id; eassumption)
    | (eapply f2_concat; [eassumption|intros ? ? (? & ? & ?); cbv beta])
    | (eapply f2_join; [eassumption|first [intros ? ? (? & ? & ?) | intros ? ? ?]; cbv beta])
    | match goal with
      | E : ueq ?a ?b |- ueq (if is_nil ?a then _ else _) _ => rewrite (ueq_is_nil _ _ E); destruct (is_nil b)
      | E : ?a = ?b |- ueq (if ?a then _ else _) _ => rewrite E; destruct b
      | |- ueq (if ?a then _ else _) (if ?a then _ else _) => destruct a
      end
    | apply ueq_app ].
Ltac emp :=
  repeat match goal with
  | E : ueq ?a ?b |- context [is_nil ?a] => rewrite (ueq_is_nil _ _ E)
  end; first [reflexivity | congruence].
Ltac fold_tx :=
  (let b := eval cbv beta delta [tx_ve] in (tx_ve U) in change b with (tx_ve U));
  (let b := eval cbv beta delta [tx_venb] in (tx_venb U) in change b with (tx_venb U));
  (let b := eval cbv beta delta [tx_vterm] in (tx_vterm U) in change b with (tx_vterm U));
  (let b := eval cbv beta delta [tx_factor] in (tx_factor U) in change b with (tx_factor U));
  (let b := eval cbv beta delta [tx_nprim] in (tx_nprim U) in change b with (tx_nprim U));
  (let b := eval cbv beta delta [tx_nvf] in (tx_nvf U) in change b with (tx_nvf U));
  (let b := eval cbv beta delta [tx_vep] in (tx_vep U) in change b with (tx_vep U));
  (let b := eval cbv beta delta [tx_vepv] in (tx_vepv U) in change b with (tx_vepv U));
  (let b := eval cbv beta delta [tx_swhen] in (tx_swhen U) in change b with (tx_swhen U));
  (let b := eval cbv beta delta [tx_qwhen] in (tx_qwhen U) in change b with (tx_qwhen U));
  (let b := eval cbv beta delta [tx_result] in (tx_result U) in change b with (tx_result U));
  (let b := eval cbv beta delta [tx_sc] in (tx_sc U) in change b with (tx_sc U));
  (let b := eval cbv beta delta [tx_bfac] in (tx_bfac U) in change b with (tx_bfac U));
  (let b := eval cbv beta delta [tx_bprim] in (tx_bprim U) in change b with (tx_bprim U));
  (let b := eval cbv beta delta [tx_pred] in (tx_pred U) in change b with (tx_pred U));
  (let b := eval cbv beta delta [tx_intarget] in (tx_intarget U) in change b with (tx_intarget U));
  (let b := eval cbv beta delta [tx_subq] in (tx_subq U) in change b with (tx_subq U));
  (let b := eval cbv beta delta [tx_jt] in (tx_jt U) in change b with (tx_jt U));
  (let b := eval cbv beta delta [tx_qjoin] in (tx_qjoin U) in change b with (tx_qjoin U));
  (let b := eval cbv beta delta [tx_qjhead] in (tx_qjhead U) in change b with (tx_qjhead U));
  (let b := eval cbv beta delta [tx_jsuf] in (tx_jsuf U) in change b with (tx_jsuf U));
  (let b := eval cbv beta delta [tx_jspec] in (tx_jspec U) in change b with (tx_jspec U));
  (let b := eval cbv beta delta [tx_tref] in (tx_tref U) in change b with (tx_tref U));
  (let b := eval cbv beta delta [tx_qspec] in (tx_qspec U) in change b with (tx_qspec U));
  (let b := eval cbv beta delta [tx_with] in (tx_with U) in change b with (tx_with U));
  (let b := eval cbv beta delta [tx_addon] in (tx_addon U) in change b with (tx_addon U));
  (let b := eval cbv beta delta [tx_sfw] in (tx_sfw U) in change b with (tx_sfw U));
  (let b := eval cbv beta delta [tx_where] in (tx_where U) in change b with (tx_where U));
  (let b := eval cbv beta delta [tx_geom] in (tx_geom U) in change b with (tx_geom U));
  (let b := eval cbv beta delta [tx_gpred] in (tx_gpred U) in change b with (tx_gpred U));
  (let b := eval cbv beta delta [tx_select] in (tx_select U) in change b with (tx_select U));
  (let b := eval cbv beta delta [tx_columns] in (tx_columns U) in change b with (tx_columns U));
  (let b := eval cbv beta delta [tx_colv] in (tx_colv U) in change b with (tx_colv U));
  (let b := eval cbv beta delta [tx_gterm] in (tx_gterm U) in change b with (tx_gterm U)).
Ltac fold_pr :=
  (let b := eval cbv beta delta [pr_ve] in (pr_ve fmt) in change b with (pr_ve fmt));
  (let b := eval cbv beta delta [pr_venb] in (pr_venb fmt) in change b with (pr_venb fmt));
  (let b := eval cbv beta delta [pr_vterm] in (pr_vterm fmt) in change b with (pr_vterm fmt));
  (let b := eval cbv beta delta [pr_factor] in (pr_factor fmt) in change b with (pr_factor fmt));
  (let b := eval cbv beta delta [pr_nprim] in (pr_nprim fmt) in change b with (pr_nprim fmt));
  (let b := eval cbv beta delta [pr_nvf] in (pr_nvf fmt) in change b with (pr_nvf fmt));
  (let b := eval cbv beta delta [pr_vep] in (pr_vep fmt) in change b with (pr_vep fmt));
  (let b := eval cbv beta delta [pr_vepv] in (pr_vepv fmt) in change b with (pr_vepv fmt));
  (let b := eval cbv beta delta [pr_swhen] in (pr_swhen fmt) in change b with (pr_swhen fmt));
  (let b := eval cbv beta delta [pr_qwhen] in (pr_qwhen fmt) in change b with (pr_qwhen fmt));
  (let b := eval cbv beta delta [pr_result] in (pr_result fmt) in change b with (pr_result fmt));
  (let b := eval cbv beta delta [pr_sc] in (pr_sc fmt) in change b with (pr_sc fmt));
  (let b := eval cbv beta delta [pr_bfac] in (pr_bfac fmt) in change b with (pr_bfac fmt));
  (let b := eval cbv beta delta [pr_bprim] in (pr_bprim fmt) in change b with (pr_bprim fmt));
  (let b := eval cbv beta delta [pr_pred] in (pr_pred fmt) in change b with (pr_pred fmt));
  (let b := eval cbv beta delta [pr_intarget] in (pr_intarget fmt) in change b with (pr_intarget fmt));
  (let b := eval cbv beta delta [pr_subq] in (pr_subq fmt) in change b with (pr_subq fmt));
  (let b := eval cbv beta delta [pr_jt] in (pr_jt fmt) in change b with (pr_jt fmt));
  (let b := eval cbv beta delta [pr_qjoin] in (pr_qjoin fmt) in change b with (pr_qjoin fmt));
  (let b := eval cbv beta delta [pr_qjhead] in (pr_qjhead fmt) in change b with (pr_qjhead fmt));
  (let b := eval cbv beta delta [pr_jsuf] in (pr_jsuf fmt) in change b with (pr_jsuf fmt));
  (let b := eval cbv beta delta [pr_jspec] in (pr_jspec fmt) in change b with (pr_jspec fmt));
  (let b := eval cbv beta delta [pr_tref] in (pr_tref fmt) in change b with (pr_tref fmt));
  (let b := eval cbv beta delta [pr_qspec] in (pr_qspec fmt) in change b with (pr_qspec fmt));
  (let b := eval cbv beta delta [pr_with] in (pr_with fmt) in change b with (pr_with fmt));
  (let b := eval cbv beta delta [pr_addon] in (pr_addon fmt) in change b with (pr_addon fmt));
  (let b := eval cbv beta delta [pr_sfw] in (pr_sfw fmt) in change b with (pr_sfw fmt));
  (let b := eval cbv beta delta [pr_where] in (pr_where fmt) in change b with (pr_where fmt));
  (let b := eval cbv beta delta [pr_geom] in (pr_geom fmt) in change b with (pr_geom fmt));
  (let b := eval cbv beta delta [pr_gpred] in (pr_gpred fmt) in change b with (pr_gpred fmt));
  (let b := eval cbv beta delta [pr_select] in (pr_select fmt) in change b with (pr_select fmt));
  (let b := eval cbv beta delta [pr_columns] in (pr_columns fmt) in change b with (pr_columns fmt));
  (let b := eval cbv beta delta [pr_colv] in (pr_colv fmt) in change b with (pr_colv fmt));
  (let b := eval cbv beta delta [pr_gterm] in (pr_gterm fmt) in change b with (pr_gterm fmt)).
Ltac ueqs := repeat match goal with H : ueq _ _ |- _ => apply U_case in H end.
Ltac plain_like :=
  cbn [fst snd dflt odef];
  lazymatch goal with
  | |- @like (_ * _)%type _ _ _ => split; plain_like
  | _ => solve [assumption | reflexivity | exact I | constructor]
  end.
Ltac alike :=
  let x := fresh "x" in let y := fresh "y" in let H := fresh "H" in
  intros x y H; dest;
  first
    [ plain_like
    | solve [facts; unfold like, like_text; cbns; prt]
    | (facts; refine (conj _ (conj _ _)); [cbns; fold_tx; maps; ueqs; congruence | cbns; fold_pr; maps; prt | cbns; maps; emp]) ].
Lemma like_odef {A : Set} `{Like A} (d : A) (o o' : option A) : like d d -> like o o' -> like (odef d o) (odef d o').
Proof. intros Hd. destruct o, o'; cbn; intros Ho; try contradiction; assumption. Qed.
Ltac node :=
  intros; dest; facts;
  (refine (conj _ (conj _ _)); [cbns; fold_tx; maps; ueqs; congruence | cbns; fold_pr; maps; prt | cbns; maps; emp]).
Lemma qs_like (w w' : option withc) (i i' : sfw) (ad ad' : list addon) (g g' : list gterm) (h h' : option sc) (o o' : list sort_spec) :
  like w w' -> like i i' -> like ad ad' -> like g g' -> like h h' -> like o o' -> like (QS w i ad g h o) (QS w' i' ad' g' h' o').
Proof. node. Qed.
Lemma js_like b (t t' : jtype) (r r' : tref) (s s' : option jspec) :
  like t t' -> like r r' -> like s s' -> like (JS b t r s) (JS b t' r' s').
Proof. node. Qed.
Lemma sfw_like (s s' : select) (l l' : list tref) (w w' : wherec) : like s s' -> like l l' -> like w w' -> like (SFW s l w) (SFW s' l' w').
Proof. node. Qed.
Lemma nowhere_like : like (Where None None) (Where None None).
Proof. repeat split. Qed.
Lemma plain_like0 : like (JTy_plain []) (JTy_plain []).
Proof. repeat split. Qed.
Instance lk_attr q : Like (attr q) :=
  match q with
  | R_ve => lk_ve | R_venb => lk_venb | R_sc => lk_sc | R_subq => lk_subq | R_jt => lk_jt | R_tref => lk_tref
  end.
Ltac slx :=
  first [ apply slike_identifier | apply slike_tap | apply slike_table | apply slike_qstar | apply slike_regular
        | match goal with |- slike ?e => unfold e end | match goal with |- slike (?e _) => unfold e end | sl ].
Ltac pstep :=
  lazymatch goal with
  | |- psim _ _ (PLit true _) => apply psim_lit_nc
  | |- psim _ _ (PLit false _) => apply psim_lit_cs; reflexivity
  | |- psim _ _ (PLex _) => apply psim_lex
  | |- psim _ _ (POptLex _) => apply psim_optlex
  | |- psim _ _ PSpace => apply psim_space
  | |- psim _ _ PDbl => apply psim_dbl
  | |- psim _ _ PTop => apply psim_top
  | |- psim _ _ (PRet _) => apply psim_ret
  | |- psim _ _ (PSeq _ _) => apply psim_seq
  | |- psim _ _ (PExp _ _) => apply psim_exp
  | |- psim _ _ (PAlt _ _) => apply psim_alt
  | |- psim _ _ (POpt _) => apply psim_opt
  | |- psim _ _ (PStar _) => apply psim_star
  | |- psim _ _ (PPlus _) => apply psim_plus
  | |- psim _ _ (PList _ _) => apply psim_list
  | |- @psim ?mm ?nn ?B ?HB (@PMap _ _ ?A _ ?f ?a) =>
      let HA := constr:(_ : Like A) in apply (@psim_map mm nn A B HA HB f a)
  | |- psim _ _ (PRule ?q) => match goal with H : _ |- _ => exact (H q) end
  | |- psim _ _ (?e ?x ?y) => first [solve [auto 2 with sims nocore] | unfold e]
  | |- psim _ _ (?e ?x) => first [solve [auto 2 with sims nocore] | unfold e]
  | |- psim _ _ ?e => first [assumption | solve [auto 2 with sims nocore] | unfold e]
  end.
Ltac sim := repeat pstep; try solve [alike]; try solve [repeat slx]; try reflexivity.
Create HintDb sims.
Section Rules.
Variable m : text -> option text.
Variable n : nat.
Hypothesis IH : forall q, psim m n (PRule q).
Lemma g_catalog_schema_qualifier_column_sim : psim m n g_catalog_schema_qualifier_column.
Proof. unfold g_catalog_schema_qualifier_column. sim. Qed.
Hint Resolve g_catalog_schema_qualifier_column_sim : sims.
Lemma g_schema_qualifier_column_sim : psim m n g_schema_qualifier_column.
Proof. unfold g_schema_qualifier_column. sim. Qed.
Hint Resolve g_schema_qualifier_column_sim : sims.
Lemma g_qualifier_column_sim : psim m n (g_qualifier_column m).
Proof. unfold g_qualifier_column. sim. Qed.
Hint Resolve g_qualifier_column_sim : sims.
Lemma g_column_reference_sim : psim m n (g_column_reference m).
Proof. unfold g_column_reference. sim. Qed.
Hint Resolve g_column_reference_sim : sims.
Lemma g_binary_arithmetic_expression_sim : psim m n g_binary_arithmetic_expression.
Proof. unfold g_binary_arithmetic_expression. sim. Qed.
Hint Resolve g_binary_arithmetic_expression_sim : sims.
Lemma g_csae_sim : psim m n (g_csae m).
Proof. unfold g_csae. sim. Qed.
Hint Resolve g_csae_sim : sims.
Lemma g_coord_sim : psim m n (g_coord m).
Proof. unfold g_coord. sim. Qed.
Hint Resolve g_coord_sim : sims.
Lemma g_reference_frame_sim : psim m n g_reference_frame.
Proof. unfold g_reference_frame. sim. Qed.
Hint Resolve g_reference_frame_sim : sims.
Lemma g_reference_position_sim : psim m n g_reference_position.
Proof. unfold g_reference_position. sim. Qed.
Hint Resolve g_reference_position_sim : sims.
Lemma g_coord_sys_sim : psim m n g_coord_sys.
Proof. unfold g_coord_sys. sim. Qed.
Hint Resolve g_coord_sys_sim : sims.
Lemma g_point_sim : psim m n (g_point m).
Proof. unfold g_point. sim. Qed.
Hint Resolve g_point_sim : sims.
Lemma g_point_or_column_sim : psim m n (g_point_or_column m).
Proof. unfold g_point_or_column. sim. Qed.
Hint Resolve g_point_or_column_sim : sims.
Lemma g_circle_sim : psim m n (g_circle m).
Proof. unfold g_circle. sim. Qed.
Hint Resolve g_circle_sim : sims.
Lemma g_ellipse_sim : psim m n (g_ellipse m).
Proof. unfold g_ellipse. sim. Qed.
Hint Resolve g_ellipse_sim : sims.
Lemma g_box_sim : psim m n (g_box m).
Proof. unfold g_box. sim. Qed.
Hint Resolve g_box_sim : sims.
Lemma g_polygon_sim : psim m n (g_polygon m).
Proof. unfold g_polygon. sim. Qed.
Hint Resolve g_polygon_sim : sims.
Lemma g_shape_sim : psim m n (g_shape m).
Proof. unfold g_shape. sim. Qed.
Hint Resolve g_shape_sim : sims.
Lemma g_shape_or_column_sim : psim m n (g_shape_or_column m).
Proof. unfold g_shape_or_column. sim. Qed.
Hint Resolve g_shape_or_column_sim : sims.
Lemma g_contains_sim : psim m n (g_contains m).
Proof. unfold g_contains. sim. Qed.
Hint Resolve g_contains_sim : sims.
Lemma g_intersects_sim : psim m n (g_intersects m).
Proof. unfold g_intersects. sim. Qed.
Hint Resolve g_intersects_sim : sims.
Lemma g_geometry_left_sim : psim m n (g_geometry_left m).
Proof. unfold g_geometry_left. sim. Qed.
Hint Resolve g_geometry_left_sim : sims.
Lemma g_geometry_right_sim : psim m n (g_geometry_right m).
Proof. unfold g_geometry_right. sim. Qed.
Hint Resolve g_geometry_right_sim : sims.
Lemma g_geometry_sim : psim m n (g_geometry m).
Proof. unfold g_geometry. sim. Qed.
Hint Resolve g_geometry_sim : sims.
Lemma g_trig_one_arg_sim : psim m n g_trig_one_arg.
Proof. unfold g_trig_one_arg. sim. Qed.
Hint Resolve g_trig_one_arg_sim : sims.
Lemma g_trig_two_arg_sim : psim m n g_trig_two_arg.
Proof. unfold g_trig_two_arg. sim. Qed.
Hint Resolve g_trig_two_arg_sim : sims.
Lemma g_trig_function_sim : psim m n g_trig_function.
Proof. unfold g_trig_function. sim. Qed.
Hint Resolve g_trig_function_sim : sims.
Lemma g_math_zero_arg_sim : psim m n g_math_zero_arg.
Proof. unfold g_math_zero_arg. sim. Qed.
Hint Resolve g_math_zero_arg_sim : sims.
Lemma g_math_one_arg_sim : psim m n g_math_one_arg.
Proof. unfold g_math_one_arg. sim. Qed.
Hint Resolve g_math_one_arg_sim : sims.
Lemma g_math_two_arg_sim : psim m n g_math_two_arg.
Proof. unfold g_math_two_arg. sim. Qed.
Hint Resolve g_math_two_arg_sim : sims.
Lemma g_math_function_sim : psim m n g_math_function.
Proof. unfold g_math_function. sim. Qed.
Hint Resolve g_math_function_sim : sims.
Lemma g_cast_function_sim : psim m n g_cast_function.
Proof. unfold g_cast_function. sim. Qed.
Hint Resolve g_cast_function_sim : sims.
Lemma g_geo_one_arg_sim : psim m n (g_geo_one_arg m).
Proof. unfold g_geo_one_arg. sim. Qed.
Hint Resolve g_geo_one_arg_sim : sims.
Lemma g_geo_two_arg_sim : psim m n (g_geo_two_arg m).
Proof. unfold g_geo_two_arg. sim. Qed.
Hint Resolve g_geo_two_arg_sim : sims.
Lemma g_geo_function_sim : psim m n (g_geo_function m).
Proof. unfold g_geo_function. sim. Qed.
Hint Resolve g_geo_function_sim : sims.
Lemma g_user_defined_function_sim : psim m n g_user_defined_function.
Proof. unfold g_user_defined_function. sim. Qed.
Hint Resolve g_user_defined_function_sim : sims.
Lemma g_numeric_value_function_sim : psim m n (g_numeric_value_function m).
Proof. unfold g_numeric_value_function. sim. Qed.
Hint Resolve g_numeric_value_function_sim : sims.
Lemma g_general_set_args_sim : psim m n g_general_set_args.
Proof. unfold g_general_set_args. sim. Qed.
Hint Resolve g_general_set_args_sim : sims.
Lemma g_general_set_function_sim : psim m n g_general_set_function.
Proof. unfold g_general_set_function. sim. Qed.
Hint Resolve g_general_set_function_sim : sims.
Lemma g_count_star_sim : psim m n g_count_star.
Proof. unfold g_count_star. sim. Qed.
Hint Resolve g_count_star_sim : sims.
Lemma g_set_function_specification_sim : psim m n g_set_function_specification.
Proof. unfold g_set_function_specification. sim. Qed.
Hint Resolve g_set_function_specification_sim : sims.
Lemma g_result_sim : psim m n g_result.
Proof. unfold g_result. sim. Qed.
Hint Resolve g_result_sim : sims.
Lemma g_simple_when_sim : psim m n g_simple_when.
Proof. unfold g_simple_when. sim. Qed.
Hint Resolve g_simple_when_sim : sims.
Lemma g_else_clause_sim : psim m n g_else_clause.
Proof. unfold g_else_clause. sim. Qed.
Hint Resolve g_else_clause_sim : sims.
Lemma g_simple_case_sim : psim m n g_simple_case.
Proof. unfold g_simple_case. sim. Qed.
Hint Resolve g_simple_case_sim : sims.
Lemma g_searched_when_sim : psim m n g_searched_when.
Proof. unfold g_searched_when. sim. Qed.
Hint Resolve g_searched_when_sim : sims.
Lemma g_searched_case_sim : psim m n g_searched_case.
Proof. unfold g_searched_case. sim. Qed.
Hint Resolve g_searched_case_sim : sims.
Lemma g_case_specification_sim : psim m n g_case_specification.
Proof. unfold g_case_specification. sim. Qed.
Hint Resolve g_case_specification_sim : sims.
Lemma g_nullif_sim : psim m n g_nullif.
Proof. unfold g_nullif. sim. Qed.
Hint Resolve g_nullif_sim : sims.
Lemma g_coalesce_sim : psim m n g_coalesce.
Proof. unfold g_coalesce. sim. Qed.
Hint Resolve g_coalesce_sim : sims.
Lemma g_case_expression_sim : psim m n g_case_expression.
Proof. unfold g_case_expression. sim. Qed.
Hint Resolve g_case_expression_sim : sims.
Lemma g_any_expression_sim : psim m n g_any_expression.
Proof. unfold g_any_expression. sim. Qed.
Hint Resolve g_any_expression_sim : sims.
Lemma g_value_subexpression_sim : psim m n g_value_subexpression.
Proof. unfold g_value_subexpression. sim. Qed.
Hint Resolve g_value_subexpression_sim : sims.
Lemma g_array_index_sim : psim m n g_array_index.
Proof. unfold g_array_index. sim. Qed.
Hint Resolve g_array_index_sim : sims.
Lemma g_array_constructor_sim : psim m n g_array_constructor.
Proof. unfold g_array_constructor. sim. Qed.
Hint Resolve g_array_constructor_sim : sims.
Lemma g_value_expression_primary_sim : psim m n (g_value_expression_primary m).
Proof. unfold g_value_expression_primary. sim. Qed.
Hint Resolve g_value_expression_primary_sim : sims.
Lemma g_numeric_primary_sim : psim m n (g_numeric_primary m).
Proof. unfold g_numeric_primary. sim. Qed.
Hint Resolve g_numeric_primary_sim : sims.
Lemma g_factor_sim : psim m n (g_factor m).
Proof. unfold g_factor. sim. Qed.
Hint Resolve g_factor_sim : sims.
Lemma g_term_sim : psim m n (g_term m).
Proof. unfold g_term. sim. Qed.
Hint Resolve g_term_sim : sims.
Lemma g_value_expression_non_bool_sim : psim m n (g_value_expression_non_bool m).
Proof. unfold g_value_expression_non_bool. sim. Qed.
Hint Resolve g_value_expression_non_bool_sim : sims.
Lemma g_value_expression_sim : psim m n g_value_expression.
Proof. unfold g_value_expression. sim. Qed.
Hint Resolve g_value_expression_sim : sims.
Lemma g_comparison_predicate_sim : psim m n g_comparison_predicate.
Proof. unfold g_comparison_predicate. sim. Qed.
Hint Resolve g_comparison_predicate_sim : sims.
Lemma g_between_predicate_sim : psim m n g_between_predicate.
Proof. unfold g_between_predicate. sim. Qed.
Hint Resolve g_between_predicate_sim : sims.
Lemma g_in_target_sim : psim m n g_in_target.
Proof. unfold g_in_target. sim. Qed.
Hint Resolve g_in_target_sim : sims.
Lemma g_in_predicate_sim : psim m n g_in_predicate.
Proof. unfold g_in_predicate. sim. Qed.
Hint Resolve g_in_predicate_sim : sims.
Lemma g_null_predicate_sim : psim m n g_null_predicate.
Proof. unfold g_null_predicate. sim. Qed.
Hint Resolve g_null_predicate_sim : sims.
Lemma g_like_predicate_sim : psim m n g_like_predicate.
Proof. unfold g_like_predicate. sim. Qed.
Hint Resolve g_like_predicate_sim : sims.
Lemma g_exists_predicate_sim : psim m n g_exists_predicate.
Proof. unfold g_exists_predicate. sim. Qed.
Hint Resolve g_exists_predicate_sim : sims.
Lemma g_predicate_sim : psim m n g_predicate.
Proof. unfold g_predicate. sim. Qed.
Hint Resolve g_predicate_sim : sims.
Lemma g_boolean_primary_sim : psim m n g_boolean_primary.
Proof. unfold g_boolean_primary. sim. Qed.
Hint Resolve g_boolean_primary_sim : sims.
Lemma g_boolean_factor_sim : psim m n g_boolean_factor.
Proof. unfold g_boolean_factor. sim. Qed.
Hint Resolve g_boolean_factor_sim : sims.
Lemma g_boolean_term_sim : psim m n g_boolean_term.
Proof. unfold g_boolean_term. sim. Qed.
Hint Resolve g_boolean_term_sim : sims.
Lemma g_search_condition_sim : psim m n g_search_condition.
Proof. unfold g_search_condition. sim. Qed.
Hint Resolve g_search_condition_sim : sims.
Lemma g_correlation_specification_sim : psim m n g_correlation_specification.
Proof. unfold g_correlation_specification. sim. Qed.
Hint Resolve g_correlation_specification_sim : sims.
Lemma g_table_correlation_sim : psim m n (g_table_correlation m).
Proof. unfold g_table_correlation. sim. Qed.
Hint Resolve g_table_correlation_sim : sims.
Lemma g_outer_join_sim : psim m n g_outer_join.
Proof. unfold g_outer_join. sim. Qed.
Hint Resolve g_outer_join_sim : sims.
Lemma g_join_type_sim : psim m n g_join_type.
Proof. unfold g_join_type. sim. Qed.
Hint Resolve g_join_type_sim : sims.
Lemma g_join_condition_sim : psim m n g_join_condition.
Proof. unfold g_join_condition. sim. Qed.
Hint Resolve g_join_condition_sim : sims.
Lemma g_named_columns_join_sim : psim m n g_named_columns_join.
Proof. unfold g_named_columns_join. sim. Qed.
Hint Resolve g_named_columns_join_sim : sims.
Lemma g_join_specification_sim : psim m n g_join_specification.
Proof. unfold g_join_specification. sim. Qed.
Hint Resolve g_join_specification_sim : sims.
Lemma g_join_suffix_sim : psim m n g_join_suffix.
Proof.
  unfold g_join_suffix. repeat pstep; try solve [repeat slx].
  intros (((nt & t) & ?) & (r & sp)) (((nt' & t') & ?) & (r' & sp')) (((Hn & ?) & ?) & (? & ?)). cbn [fst snd] in *.
  assert (E : match nt with Some _ => true | None => false end = match nt' with Some _ => true | None => false end).
  { destruct nt, nt'; try contradiction; reflexivity. }
  rewrite E. apply js_like; auto. apply like_odef; auto. apply plain_like0.
Qed.
Hint Resolve g_join_suffix_sim : sims.
Lemma g_qualified_join_sim : psim m n (g_qualified_join m).
Proof. unfold g_qualified_join. sim. Qed.
Hint Resolve g_qualified_join_sim : sims.
Lemma g_joined_table_sim : psim m n (g_joined_table m).
Proof. unfold g_joined_table. sim. Qed.
Hint Resolve g_joined_table_sim : sims.
Lemma g_derived_correlation_sim : psim m n g_derived_correlation.
Proof. unfold g_derived_correlation. sim. Qed.
Hint Resolve g_derived_correlation_sim : sims.
Lemma g_table_valued_function_sim : psim m n g_table_valued_function.
Proof. unfold g_table_valued_function. sim. Qed.
Hint Resolve g_table_valued_function_sim : sims.
Lemma g_table_reference_sim : psim m n (g_table_reference m).
Proof. unfold g_table_reference. sim. Qed.
Hint Resolve g_table_reference_sim : sims.
Lemma g_from_clause_sim : psim m n g_from_clause.
Proof. unfold g_from_clause. sim. Qed.
Hint Resolve g_from_clause_sim : sims.
Lemma g_as_sim : psim m n g_as.
Proof. unfold g_as. sim. Qed.
Hint Resolve g_as_sim : sims.
Lemma g_non_as_sim : psim m n (g_non_as m).
Proof. unfold g_non_as. sim. Qed.
Hint Resolve g_non_as_sim : sims.
Lemma g_select_item_sim : psim m n (g_select_item m).
Proof. unfold g_select_item. sim. Qed.
Hint Resolve g_select_item_sim : sims.
Lemma g_columns_sim : psim m n (g_columns m).
Proof. unfold g_columns. sim. Qed.
Hint Resolve g_columns_sim : sims.
Lemma g_with_sim : psim m n g_with.
Proof. unfold g_with. sim. Qed.
Hint Resolve g_with_sim : sims.
Lemma g_where_sim : psim m n (g_where m).
Proof. unfold g_where. sim. Qed.
Hint Resolve g_where_sim : sims.
Lemma g_where_no_geometry_sim : psim m n g_where_no_geometry.
Proof. unfold g_where_no_geometry. sim. Qed.
Hint Resolve g_where_no_geometry_sim : sims.
Lemma g_group_by_term_sim : psim m n (g_group_by_term m).
Proof. unfold g_group_by_term. sim. Qed.
Hint Resolve g_group_by_term_sim : sims.
Lemma g_group_by_sim : psim m n (g_group_by m).
Proof. unfold g_group_by. sim. Qed.
Hint Resolve g_group_by_sim : sims.
Lemma g_having_sim : psim m n g_having.
Proof. unfold g_having. sim. Qed.
Hint Resolve g_having_sim : sims.
Lemma g_sort_key_sim : psim m n (g_sort_key m).
Proof. unfold g_sort_key. sim. Qed.
Hint Resolve g_sort_key_sim : sims.
Lemma g_sort_specification_sim : psim m n (g_sort_specification m).
Proof. unfold g_sort_specification. sim. Qed.
Hint Resolve g_sort_specification_sim : sims.
Lemma g_order_by_sim : psim m n (g_order_by m).
Proof. unfold g_order_by. sim. Qed.
Hint Resolve g_order_by_sim : sims.
Lemma g_top_sim : psim m n g_top.
Proof. unfold g_top. sim. Qed.
Hint Resolve g_top_sim : sims.
Lemma g_select_sim : psim m n (g_select m).
Proof. unfold g_select. sim. Qed.
Hint Resolve g_select_sim : sims.
Lemma sfw_gen_sim w : psim m n w -> psim m n (g_sfw_gen m w).
Proof.
  intros. unfold g_sfw_gen. repeat pstep. intros (? & (? & ?)) (? & (? & ?)) (? & (? & ?)). cbn [fst snd] in *.
  apply sfw_like; auto. apply like_odef; auto. apply nowhere_like.
Qed.
Lemma addon_gen_sim w : psim m n w -> psim m n (g_addon_gen m w).
Proof. intros. unfold g_addon_gen. pose proof (sfw_gen_sim w). sim. Qed.
Lemma query_gen_sim w : psim m n w -> psim m n (g_query_gen m w).
Proof.
  intros. unfold g_query_gen. pose proof (sfw_gen_sim w). pose proof (addon_gen_sim w). repeat pstep.
  intros ((((wi & (i & ad)) & g) & h) & o) ((((wi' & (i' & ad')) & g') & h') & o') ((((? & (? & ?)) & ?) & ?) & ?).
  cbn [fst snd] in *. apply qs_like; auto; apply like_odef; auto; constructor.
Qed.
Lemma g_query_sim : psim m n (g_query m).
Proof. apply query_gen_sim. auto with sims. Qed.
Hint Resolve g_query_sim : sims.
Lemma g_query_no_geometry_sim : psim m n (g_query_no_geometry m).
Proof. apply query_gen_sim. auto with sims. Qed.
Hint Resolve g_query_no_geometry_sim : sims.
Lemma g_subquery_sim : psim m n (g_subquery m).
Proof. unfold g_subquery. sim. Qed.
Hint Resolve g_subquery_sim : sims.
Lemma rules_sim r : psim m n (g_body m r).
Proof. destruct r; cbn [g_body attr]; auto with sims. Qed.
End Rules.
End Fmt.
