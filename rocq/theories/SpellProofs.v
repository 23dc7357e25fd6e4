(** Every rule of the grammar reads what the productions of SpecSpelling.v say. *)
From Verif Require Import Query PegProps Gen Spec TextLemmas SpecLexical SpecContent SpecNodes NonEmpty
  ContentCalc ContentLeaves ContentTokens ContentNames ContentShapes SpecSpelling SpellCalc SpellLeaves.

Ltac dbl v := destruct v; cbn [fst snd] in *.
Ltac op1 :=
  match goal with
  | H : exists _, _ |- _ => destruct H
  | H : _ /\ _ |- _ => destruct H
  | H : _ \/ _ |- _ => destruct H
  | H : both _ _ ?v _ |- _ => let a := fresh "l" in let b := fresh "l" in let E := fresh in
      destruct H as (a & b & E & ? & ?); try (is_var v; destruct v); cbn [fst snd] in *
  | H : optly _ ?o _ |- _ => is_var o; destruct o; cbn [optly] in H
  | H : (_, _) = (_, _) |- _ => injection H; clear H; intros
  | H : ?x = _ |- _ => is_var x; subst x
  | H : _ = ?x |- _ => is_var x; subst x
  | H : many (fun v l => l = [Pt (X (?f v))]) _ _ |- _ => apply many_nt in H
  | H : part_of _ |- _ => fail
  | u : unit |- _ => destruct u
  end.
Ltac opn := cbv beta in *; repeat (op1; cbv beta in *); cbn [app fst snd odef dflt part_of] in *.

Ltac leaf tac :=
  lazymatch goal with
  | |- its _ (lit _) _ => apply i_lit
  | |- its _ (kw _) _ => apply i_kw; reflexivity
  | |- its _ ident _ => apply i_name
  | |- its _ PSpace _ => apply i_space
  | |- its _ PDbl _ => apply i_real
  | |- its _ PTop _ => apply i_count
  | |- its _ (PRet _) _ => apply i_ret
  | |- its _ (PRule _) _ => apply i_rule
  | |- its _ Grammar.p_ve _ => exact (i_rule _ R_ve)
  | |- its _ Grammar.p_venb _ => exact (i_rule _ R_venb)
  | |- its _ Grammar.p_sc _ => exact (i_rule _ R_sc)
  | |- its _ Grammar.p_subq _ => exact (i_rule _ R_subq)
  | |- its _ Grammar.p_jt _ => exact (i_rule _ R_jt)
  | |- its _ Grammar.p_tref _ => exact (i_rule _ R_tref)
  | |- its _ (PLex (kw_soft _)) _ => apply i_keyb_soft; reflexivity
  | |- its _ (PLex (kw_hard _)) _ => apply i_keyb_hard; reflexivity
  | |- its _ (PLex (kws_soft _)) _ => apply i_strs_soft; reflexivity
  | |- its _ (PLex (strs_nc _)) _ => apply i_strs; reflexivity
  | |- its _ (PLex (strs_cs _)) _ => apply i_marks
  | |- its _ (PLex (chr _)) _ => apply i_char
  | |- its _ (PLex s_unsigned_integer) _ => apply i_whole
  | |- its _ (PLex s_unsigned_literal) _ => apply i_value
  | |- its _ (PLex s_null_cast) _ => apply i_null_cast
  | |- its _ (PLex (s_tap_upload _)) _ => apply i_upload
  | |- its _ (PLex (s_table_name _)) _ => apply i_table
  | |- its _ (PLex (s_qualifier_star _)) _ => apply i_qstar
  | |- its _ (PLex s_udf_name) _ => apply i_udf
  | |- its _ (PLex s_arithmetic_operator) _ => apply i_arith
  | |- its _ (PLex s_char_flag) _ => apply i_flag
  | |- its _ (PLex s_tvf_head) _ => apply i_tvf_head
  | |- its _ (PLex s_pqi) _ => apply i_arg
  | |- its _ (POptLex s_sign) _ => apply i_sign
  | |- its _ (POptLex s_set_quantifier) _ => apply i_quantifier
  | |- its _ (POptLex s_ordering) _ => apply i_ordering
  | |- its _ (POptLex (kws_soft _)) _ => apply i_not_soft
  | |- its _ (POptLex (kws_hard _)) _ => apply i_not_hard
  | |- its _ (POptLex (SExp _ _)) _ => apply i_not_in
  | |- its _ (PLex ?e) _ => tac
  end.
Ltac comb :=
  lazymatch goal with
  | |- its _ (PSeq _ _) _ => eapply i_seq; [comb|comb]
  | |- its _ (PExp _ _) _ => eapply i_exp; [comb|comb]
  | |- its _ (PAlt _ _) _ => eapply i_alt; [comb|comb]
  | |- its _ (PMap _ _) _ => first [solve [eauto with maps nocore] | eapply i_map; comb]
  | |- its _ (POpt _) _ => eapply i_opt; comb
  | |- its _ (PStar _) _ => eapply i_star; comb
  | |- its _ (PPlus _) _ => eapply i_plus; comb
  | |- its _ (PList _ _) _ => eapply i_list; [comb|comb]
  | |- its _ ?e _ => first [leaf fail | solve [eapply i_nt; eauto with nts nocore] | solve [eauto with itsdb nocore] | idtac]
  end.
Create HintDb nts. Create HintDb maps. Create HintDb itsdb.

Section Rules.
Variable m : text -> option text.
Notation its := (its m).
Notation nt := (nt m).
Ltac go c := eapply nt_i; [c; comb|intros v l H; opn].

Lemma n_colref : nt (g_column_reference m) X_colref.
Proof.
  go ltac:(unfold g_column_reference, g_catalog_schema_qualifier_column, g_schema_qualifier_column, g_qualifier_column); constructor.
Qed.
Hint Resolve n_colref : nts.
Lemma n_csae : nt (g_csae m) X_csae.
Proof. go ltac:(unfold g_csae, g_binary_arithmetic_expression); constructor. Qed.
Hint Resolve n_csae : nts.
Lemma n_coord : nt (g_coord m) X_coord.
Proof. go ltac:(unfold g_coord); constructor. Qed.
Hint Resolve n_coord : nts.
Lemma i_kw' s w : upper (L s) = L w -> its (kw s) (fun _ l => l = [key w]).
Proof.
  intros C t k v (sp & x & -> & S & H). exists [key w]. split; auto. apply writes_t; auto.
  apply strip_nc_exact in H. now rewrite H.
Qed.
Lemma i_frame : its g_reference_frame (fun f l => l = [key (frame_name f)]).
Proof.
  eapply i_weak.
  - unfold g_reference_frame. eapply i_alt; [eapply i_map, (i_kw' _ "ICRS"); reflexivity|eapply i_alt;
      [eapply i_map, (i_kw' _ "J2000"); reflexivity|eapply i_map, (i_kw' _ "GALACTIC"); reflexivity]].
  - intros v l H. opn; reflexivity.
Qed.
Lemma i_position : its g_reference_position (fun _ l => l = [key "GEOCENTER"]).
Proof. now apply i_kw'. Qed.
Hint Resolve i_frame i_position : itsdb.
(** the optional coordinate-system argument *)
Lemma n_system : nt (POpt (g_coord_sys >! lit "," ==> fst)) (fun f => X_system (odef ICRS f)).
Proof.
  go ltac:(unfold g_coord_sys); cbn [app]; try constructor.
  - apply (p_system m f1 [key (frame_name f1)] [key "GEOCENTER"]); auto.
  - apply (p_system m ICRS [] [key "GEOCENTER"]); auto.
  - apply (p_system m f1 [key (frame_name f1)] []); auto.
  - apply (p_system m ICRS [] []); auto.
Qed.
Hint Resolve n_system : nts.
Lemma i_head w : caps w = true -> its (g_shape_head w) (fun f l => l = [key w; mark "("; Pt (X_system f)]).
Proof.
  intros C. unfold g_shape_head. eapply i_weak.
  - eapply i_map, i_seq; [eapply i_seq; [now apply i_kw|apply i_lit]|eapply i_nt, n_system].
  - intros v l H. opn; reflexivity.
Qed.
Hint Extern 1 (SpellCalc.its _ (g_shape_head _) _) => apply i_head; reflexivity : itsdb.
Definition point_part (v : frame * coordinate) : part := X_shape (Sh_point (fst v) (snd v)).
Lemma n_point : nt (g_point m) point_part.
Proof. go ltac:(unfold g_point); constructor. Qed.
Hint Resolve n_point : nts.
Lemma n_shape : nt (g_shape m) X_shape.
Proof.
  unfold g_shape. repeat apply nt_alt.
  - go ltac:(unfold g_point); constructor.
  - go ltac:(unfold g_circle); constructor.
  - go ltac:(unfold g_box); constructor.
  - go ltac:(unfold g_ellipse); constructor.
  - go ltac:(unfold g_polygon). rewrite listed_commas. now constructor.
Qed.
Hint Resolve n_shape : nts.
Notation nX f := (fun v => X (f v)).
Lemma n_soc : nt (g_shape_or_column m) (nX N_soc).
Proof. go ltac:(unfold g_shape_or_column); constructor. Qed.
Hint Resolve n_soc : nts.
Lemma n_poc : nt (g_point_or_column m) (nX N_poc).
Proof. go ltac:(unfold g_point_or_column); try constructor. destruct x. constructor. Qed.
Hint Resolve n_poc : nts.
Lemma n_gpred : nt (g_contains m <|> g_intersects m) (nX N_gpred).
Proof. go ltac:(unfold g_contains, g_intersects); constructor. Qed.
Hint Resolve n_gpred : nts.
Lemma i_gpred : its (g_contains m <|> g_intersects m) (fun v l => l = [Pt (X (N_gpred v))]).
Proof. apply i_nt, n_gpred. Qed.
Lemma n_geom : nt (g_geometry m) (nX N_geom).
Proof.
  unfold g_geometry, g_geometry_left, g_geometry_right. eapply nt_i.
  - eapply i_alt; (eapply i_map, i_seq).
    + comb.
    + apply i_gpred.
    + apply i_gpred.
    + comb.
  - intros v l H. opn; constructor.
Qed.
Hint Resolve n_geom : nts.

(** Functions *)
Ltac funs := lazymatch goal with
  | |- SpellCalc.its _ (PLex s_trig1) _ => apply i_held; reflexivity
  | |- SpellCalc.its _ (PLex s_trig2) _ => apply i_held; reflexivity
  | |- SpellCalc.its _ (PLex s_geo1) _ => apply i_held; reflexivity
  | |- SpellCalc.its _ (PLex s_geo2) _ => apply i_held; reflexivity
  | |- SpellCalc.its _ (PLex ?e) _ => unfold e; first [apply i_marks | apply i_strs_soft; reflexivity | apply i_strs; reflexivity]
  end.
Hint Extern 1 (SpellCalc.its _ (PLex _) _) => funs : itsdb.
Lemma n_trig : nt g_trig_function (nX N_nvf).
Proof. go ltac:(unfold g_trig_function, g_trig_one_arg, g_trig_two_arg); constructor. Qed.
Lemma n_math : nt g_math_function (nX N_nvf).
Proof. go ltac:(unfold g_math_function, g_math_zero_arg, g_math_one_arg, g_math_two_arg); constructor. Qed.
Lemma n_cast : nt g_cast_function (nX N_nvf).
Proof. go ltac:(unfold g_cast_function); constructor. Qed.
Lemma n_geo : nt (g_geo_function m) (nX N_nvf).
Proof. go ltac:(unfold g_geo_function, g_geo_one_arg, g_geo_two_arg); constructor. Qed.
Lemma n_udf : nt g_user_defined_function (nX N_nvf).
Proof.
  go ltac:(unfold g_user_defined_function).
  - rewrite listed_commas. constructor.
  - apply (p_udf m _ []).
Qed.
Lemma n_nvf : nt (g_numeric_value_function m) (nX N_nvf).
Proof.
  unfold g_numeric_value_function. apply nt_alt; [apply n_trig|]. apply nt_alt; [apply n_math|]. apply nt_alt; [apply n_cast|].
  apply nt_alt; [apply n_geo|]. apply nt_alt; [apply n_udf|].
  go idtac. constructor.
Qed.
Hint Resolve n_nvf : nts.

(** Expressions *)
Lemma n_result : nt g_result (nX N_result).
Proof. go ltac:(unfold g_result); constructor. Qed.
Hint Resolve n_result : nts.
Lemma n_swhen : nt g_simple_when (nX N_swhen).
Proof. go ltac:(unfold g_simple_when); constructor. Qed.
Lemma n_qwhen : nt g_searched_when (nX N_qwhen).
Proof. go ltac:(unfold g_searched_when); constructor. Qed.
Hint Resolve n_swhen n_qwhen : nts.
Lemma n_case : nt g_case_specification (nX N_vepv).
Proof.
  go ltac:(unfold g_case_specification, g_simple_case, g_searched_case, g_else_clause); rewrite ?app_nil_r, <- ?app_assoc; cbn [app].
  - apply (p_case m _ _ (Some _)); auto.
  - apply (p_case m _ _ None); auto.
  - apply (p_scase m _ (Some _)); auto.
  - apply (p_scase m _ None); auto.
Qed.
Lemma n_array : nt g_array_constructor (nX N_vepv).
Proof. go ltac:(unfold g_array_constructor). rewrite (listed_commas (nX N_ve)). now apply p_array. Qed.
Lemma n_set : nt g_set_function_specification (nX N_vepv).
Proof. go ltac:(unfold g_set_function_specification, g_count_star, g_general_set_function, g_general_set_args); apply p_count_star || constructor. Qed.
Lemma n_nullif : nt g_nullif (nX N_vepv).
Proof. go ltac:(unfold g_nullif); constructor. Qed.
Lemma n_coalesce : nt g_coalesce (nX N_vepv).
Proof. go ltac:(unfold g_coalesce). rewrite (listed_commas (nX N_ve)). now apply p_coalesce. Qed.
Lemma n_any : nt g_any_expression (nX N_vepv).
Proof. go ltac:(unfold g_any_expression); constructor. Qed.
Lemma n_sub : nt g_value_subexpression (nX N_vepv).
Proof. go ltac:(unfold g_value_subexpression); constructor. Qed.
Definition g_vepv : PE vepv :=
  g_array_constructor <|> (PLex s_unsigned_literal ==> VP_str) <|> (g_column_reference m ==> VP_col) <|>
   g_set_function_specification <|> g_case_expression <|> g_any_expression <|>
   (PLex s_null_cast ==> VP_str) <|> (PLex s_null_literal ==> VP_str) <|> g_value_subexpression.
Lemma n_vepv : nt g_vepv (nX N_vepv).
Proof.
  unfold g_vepv. apply nt_alt; [apply n_array|]. apply nt_alt; [go idtac; constructor|]. apply nt_alt; [go idtac; constructor|].
  apply nt_alt; [apply n_set|]. apply nt_alt; [unfold g_case_expression; repeat apply nt_alt; [apply n_nullif|apply n_coalesce|apply n_case]|].
  apply nt_alt; [apply n_any|]. apply nt_alt; [go idtac; apply p_null|].
  apply nt_alt; [eapply nt_i; [eapply i_map, i_nulls|intros v l H; opn; apply p_null]|apply n_sub].
Qed.
Hint Resolve n_vepv : nts.
Lemma i_index : its g_array_index (fun v l => l = [mark "["; Pt (X (N_ve v)); mark "]"]).
Proof. eapply i_weak; [unfold g_array_index; comb|]. intros v l H. opn; reflexivity. Qed.
Lemma n_vep : nt (g_value_expression_primary m) (nX N_vep).
Proof.
  eapply nt_i; [change (g_value_expression_primary m) with (g_vepv >> PStar g_array_index ==> (fun '(v, i) => VEP v i)); eapply i_map, i_seq;
    [comb|apply i_star, i_index]|].
  intros v l H. opn. match goal with H : many _ _ _ |- _ => apply (many_index (nX N_ve)) in H end. subst. constructor.
Qed.
Hint Resolve n_vep : nts.
Lemma n_nprim : nt (g_numeric_primary m) (nX N_nprim).
Proof. go ltac:(unfold g_numeric_primary); constructor. Qed.
Hint Resolve n_nprim : nts.
Lemma n_factor : nt (g_factor m) (nX N_factor).
Proof. go ltac:(unfold g_factor); constructor. Qed.
Hint Resolve n_factor : nts.
Lemma n_vterm : nt (g_term m) (nX N_vterm).
Proof. go ltac:(unfold g_term); constructor. Qed.
Hint Resolve n_vterm : nts.
Lemma n_venb : nt (g_value_expression_non_bool m) (nX N_venb).
Proof. go ltac:(unfold g_value_expression_non_bool); constructor. Qed.
Lemma n_ve : nt g_value_expression (nX N_ve).
Proof. go ltac:(unfold g_value_expression); constructor. Qed.

(** Conditions *)
Lemma n_intarget : nt g_in_target (nX N_intarget).
Proof. go ltac:(unfold g_in_target); [constructor|]. rewrite (listed_commas (nX N_ve)). now apply p_in_list. Qed.
Hint Resolve n_intarget : nts.
Lemma i_like_arg : its (Grammar.p_venb ==> VE_nb) (fun v l => l = [Pt (X (N_ve v))] /\ exists p, v = VE_nb p).
Proof.
  intros t k v (x & H & ->). eexists. split; [eauto|]. apply writes_one. econstructor; [apply p_ve_nb|]. now apply writes_one.
Qed.
Hint Resolve i_like_arg : maps.
Lemma n_pred : nt g_predicate (nX N_pred).
Proof.
  go ltac:(unfold g_predicate, g_comparison_predicate, g_between_predicate, g_in_predicate, g_null_predicate, g_like_predicate,
    g_exists_predicate); constructor.
Qed.
Hint Resolve n_pred : nts.
Remove Hints i_like_arg : maps.
Lemma n_bprim : nt g_boolean_primary (nX N_bprim).
Proof. go ltac:(unfold g_boolean_primary); constructor. Qed.
Hint Resolve n_bprim : nts.
Lemma n_bfac : nt g_boolean_factor (nX N_bfac).
Proof. go ltac:(unfold g_boolean_factor); constructor. Qed.
Hint Resolve n_bfac : nts.
Lemma n_sc : nt g_search_condition (nX N_sc).
Proof. go ltac:(unfold g_search_condition, g_boolean_term); constructor. Qed.

(** Tables and joins *)
Definition g_alias := POpt g_correlation_specification.
Lemma n_alias : nt g_alias (fun a => X_alias (dflt a)).
Proof. go ltac:(unfold g_alias, g_correlation_specification); constructor. Qed.
Lemma i_name1 : its ident (fun v l => l = [name v] /\ v <> []).
Proof.
  intros t k v H. destruct (i_name m t k v H) as (l & -> & W). exists [name v]. split; [split; auto|exact W].
  destruct H as (sp & x & _ & _ & H). eapply lexeme_nz in H; [|vm_compute; reflexivity]. now intros ->.
Qed.
Lemma n_alias1 : its g_correlation_specification (fun a l => l = [Pt (X_alias a)] /\ a <> []).
Proof.
  intros t k v H.
  assert (E : its g_correlation_specification (fun a l => production m (X_alias a) l /\ a <> [])).
  { eapply i_weak; [unfold g_correlation_specification; eapply i_map, i_seq; [comb|apply i_name1]|]. intros w l Hl. opn; split; auto; constructor. }
  destruct (E _ _ _ H) as (l & (P & N) & W). exists [Pt (X_alias v)]. split; auto. apply writes_one. econstructor; eauto.
Qed.
Hint Resolve n_alias : nts.
Lemma i_tc : its (g_table_correlation m) (fun v l => l = [T (table_name m (fst v)); Pt (X_alias (snd v))]).
Proof. eapply i_weak; [unfold g_table_correlation; fold g_alias; comb|]. intros v l H. opn; reflexivity. Qed.
Hint Resolve i_tc : itsdb.
Lemma i_outer : its (PLex (kws_soft ["OUTER"]%string)) (fun _ l => l = [keyb "OUTER"]).
Proof.
  intros t k v (sp & x & -> & S & H). exists [keyb "OUTER"]. split; auto. apply writes_t; auto.
  apply (lx_strs_soft ["OUTER"]%string eq_refl) in H as (-> & [U|[]] & B). split; [symmetry; exact U|exact B].
Qed.
Lemma n_jtype : nt (POpt g_join_type) (fun t => X_jtype (odef (JTy_plain []) t)).
Proof.
  eapply nt_i; [unfold g_join_type, g_outer_join; eapply i_opt, i_alt; [comb|eapply i_map, i_seq; [comb|apply i_opt, i_outer]]|].
  intros v l H. opn; [constructor|apply (p_outer m _ true)|apply (p_outer m _ false)|constructor].
Qed.
Hint Resolve n_jtype : nts.
Lemma n_jspec : nt g_join_specification (nX N_jspec).
Proof. go ltac:(unfold g_join_specification, g_join_condition, g_named_columns_join); [constructor|]. now apply p_using. Qed.
Hint Resolve n_jspec : nts.
Lemma n_jsuf : nt g_join_suffix (nX N_jsuf).
Proof.
  eapply nt_i; [unfold g_join_suffix; eapply i_map, i_exp; [eapply i_seq; [eapply i_seq; [comb|eapply i_nt, n_jtype]|comb]|comb]|].
  intros v l H; opn.
  - apply (p_jsuf m true _ _ (Some _)).
  - apply (p_jsuf m false _ _ (Some _)).
  - apply (p_jsuf m true _ _ None).
  - apply (p_jsuf m false _ _ None).
Qed.
Hint Resolve n_jsuf : nts.
Lemma n_jt : nt (g_joined_table m) (nX N_jt).
Proof.
  assert (Hh : nt ((lit "(" >> Grammar.p_jt >> lit ")" ==> (fun '(_, j, _) => QH_jt (JT_p j))) <|>
                (g_table_correlation m ==> (fun '(n, a) => QH_tc n a))) (nX N_qjhead)).
  { apply nt_alt.
    - intros t k v (((u & j) & u') & H & ->). econstructor; [apply p_qh_jt|]. apply writes_one.
      assert (P : nt (lit "(" >> Grammar.p_jt >> lit ")") (fun '(_, j, _) => X (N_jt (JT_p j)))).
      { clear. go idtac. apply p_jt_p. }
      apply (P _ _ _ H).
    - go idtac. destruct x. constructor. }
  assert (Q : nt (((lit "(" >> Grammar.p_jt >> lit ")" ==> (fun '(_, j, _) => QH_jt (JT_p j))) <|>
                (g_table_correlation m ==> (fun '(n, a) => QH_tc n a))) >> PPlus g_join_suffix) (fun v => X_qjoin (QJ (fst v) (snd v)))).
  { eapply nt_i; [eapply i_seq; [eapply i_nt, Hh|comb]|]. clear Hh. intros v l Hl. opn. now apply p_qjoin. }
  unfold g_joined_table, g_qualified_join. apply nt_alt.
  - eapply nt_i; [eapply i_map, i_nt, Q|]. clear Hh Q. intros v l Hl. opn. destruct x. apply p_jt_q.
  - clear Hh Q. go idtac. constructor.
Qed.
Lemma n_tref : nt (g_table_reference m) (nX N_tref).
Proof.
  unfold g_table_reference. apply nt_alt; [go idtac; constructor|]. apply nt_alt; [go idtac; destruct x; constructor|]. apply nt_alt.
  - eapply nt_i; [unfold g_derived_correlation; eapply i_map, i_seq; [comb|apply n_alias1]|]. intros v l H. opn. now constructor.
  - go ltac:(unfold g_table_valued_function).
    + match goal with H : ?x <> [] |- _ => destruct x; [contradiction|] end. rewrite <- app_assoc. apply (p_tr_tvf m _ (_ :: _)).
    + apply (p_tr_tvf m _ []).
Qed.

(** Queries *)
Lemma n_colv : nt (g_select_item m) (nX N_colv).
Proof. go ltac:(unfold g_select_item, g_as, g_non_as); constructor. Qed.
Hint Resolve n_colv : nts.
Lemma n_columns : nt (g_columns m) (nX N_columns).
Proof.
  unfold g_columns. apply nt_alt.
  - intros t k v (w & H & ->). destruct H as (sp & x & -> & S & H). eapply takes_lexeme in H; [|apply takes_strs_cs].
    destruct H as (-> & [<-|[]]). econstructor; [apply p_star|]. now apply writes_t.
  - go idtac. rewrite (listed_commas (nX N_colv)). now apply p_columns.
Qed.
Hint Resolve n_columns : nts.
Lemma n_select : nt (g_select m) (nX N_select).
Proof.
  go ltac:(unfold g_select, g_top).
  - eapply (p_select m _ _ _ [_] [_; _]); auto.
  - eapply (p_select m _ _ _ [_] []); auto.
  - eapply (p_select m _ _ _ [] [_; _]); auto.
  - eapply (p_select m _ _ _ [] []); auto.
Qed.
Hint Resolve n_select : nts.
Lemma n_where : nt (POpt (g_where m)) (fun w => X (N_where (odef (Where None None) w))).
Proof.
  go ltac:(unfold g_where); try constructor.
Qed.
Lemma n_where_ng : nt (POpt g_where_no_geometry) (fun w => X (N_where (odef (Where None None) w))).
Proof. go ltac:(unfold g_where_no_geometry); constructor. Qed.
Lemma n_sfw w : nt (POpt w) (fun w => X (N_where (odef (Where None None) w))) -> nt (g_sfw_gen m w) (nX N_sfw).
Proof.
  intros Hw. unfold g_sfw_gen, g_from_clause. eapply nt_i; [eapply i_map, i_exp; [comb|eapply i_seq; [comb|eapply i_nt, Hw]]|].
  intros v l H. opn. rewrite (listed_commas (nX N_tref)). now apply p_sfw.
Qed.
Lemma n_addon w : nt (POpt w) (fun w => X (N_where (odef (Where None None) w))) -> nt (g_addon_gen m w) (nX N_addon).
Proof.
  intros Hw. unfold g_addon_gen. eapply nt_i; [eapply i_map, i_seq; [comb|eapply i_nt, (n_sfw _ Hw)]|].
  intros v l H. opn. constructor.
Qed.
Lemma n_gterm : nt (g_group_by_term m) (nX N_gterm).
Proof. go ltac:(unfold g_group_by_term); constructor. Qed.
Hint Resolve n_gterm : nts.
Lemma n_sort : nt (g_sort_specification m) (nX N_sort).
Proof.
  go ltac:(unfold g_sort_specification, g_sort_key).
  - eapply (p_sort m _ _ [_] [_]); eauto.
  - eapply (p_sort m _ _ [_] [_]); eauto.
  - eapply (p_sort m _ _ [_] []); eauto.
  - eapply (p_sort m _ _ [_] []); eauto.
Qed.
Hint Resolve n_sort : nts.
Lemma n_with : nt g_with (nX N_with).
Proof.
  go ltac:(unfold g_with); cbn [app].
  all: try match goal with H : ?x <> [] |- _ => destruct x as [|c0 cs]; [contradiction|] end; rewrite <- ?app_assoc; cbn [app].
  all: try (change (listed name (mark ",") (c0 :: cs)) with (names (c0 :: cs)));
    let n := lazymatch goal with |- production _ (X (N_with (With ?n _ _))) _ => n end in
    let c := lazymatch goal with |- production _ (X (N_with (With _ ?c _))) _ => c end in
    let q := lazymatch goal with |- production _ (X (N_with (With _ _ ?q))) _ => q end in
    first [pose proof (p_with m n c q true) as P; cbn [is_nil app] in P; rewrite <- ?app_assoc in P; exact P
          |pose proof (p_with m n c q false) as P; cbn [is_nil app] in P; rewrite <- ?app_assoc in P; exact P].
Qed.
Hint Resolve n_with : nts.
(** the three optional clauses at the end of a query *)
Definition tail_items (g : list gterm) (h : option sc) (o : list sort_spec) : list item :=
  (if is_nil g then [] else [keyb "GROUP"; keyb "BY"] ++ commas (map (fun x => X (N_gterm x)) g)) ++
  optional (fun s => [keyb "HAVING"; Pt (X (N_sc s))]) h ++
  (if is_nil o then [] else [keyb "ORDER"; keyb "BY"] ++ commas (map (fun x => X (N_sort x)) o)).
Lemma i_group : its (POpt (g_group_by m)) (fun g l => l = if is_nil (odef [] g) then [] else [keyb "GROUP"; keyb "BY"] ++ commas (map (fun x => X (N_gterm x)) (odef [] g))).
Proof.
  eapply i_weak; [unfold g_group_by; comb|]. intros v l H. opn; [|reflexivity].
  rewrite (listed_commas (nX N_gterm)). match goal with H : ?x <> [] |- _ => destruct x; [contradiction|] end. reflexivity.
Qed.
Lemma i_having : its (POpt g_having) (fun h l => l = optional (fun s => [keyb "HAVING"; Pt (X (N_sc s))]) h).
Proof. eapply i_weak; [unfold g_having; comb|]. intros v l H. opn; reflexivity. Qed.
Lemma i_order : its (POpt (g_order_by m)) (fun g l => l = if is_nil (odef [] g) then [] else [keyb "ORDER"; keyb "BY"] ++ commas (map (fun x => X (N_sort x)) (odef [] g))).
Proof.
  eapply i_weak; [unfold g_order_by; comb|]. intros v l H. opn; [|reflexivity].
  rewrite (listed_commas (nX N_sort)). match goal with H : ?x <> [] |- _ => destruct x; [contradiction|] end. reflexivity.
Qed.
Lemma n_query w : nt (POpt w) (fun w => X (N_where (odef (Where None None) w))) -> nt (g_query_gen m w) (nX N_qspec).
Proof.
  intros Hw. unfold g_query_gen. eapply nt_i.
  - eapply i_map, i_seq; [eapply i_seq; [eapply i_seq; [eapply i_seq; [comb|eapply i_seq; [eapply i_nt, (n_sfw _ Hw)|
      eapply i_star, i_nt, (n_addon _ Hw)]]|apply i_group]|apply i_having]|apply i_order].
  - intros v l H. opn; rewrite <- ?app_assoc; cbn [app]; [apply (p_query m (Some _))|apply (p_query m None)].
Qed.
Lemma n_subq : nt (g_subquery m) (nX N_subq).
Proof.
  unfold g_subquery. eapply nt_i; [eapply i_map, i_seq; [eapply i_seq; [comb|eapply i_alt; [eapply i_map, i_nt, n_query, n_where_ng|comb]]|comb]|].
  intros v l H. opn; constructor.
Qed.
Lemma spell_body r t k v : gen (SPr m) (g_body m r) t k v -> SPr m r t k v.
Proof.
  destruct r; cbn [g_body]; intros H; red; cbn [part_of];
    [now apply n_ve|now apply n_venb|now apply n_sc|now apply n_subq|now apply n_jt|now apply n_tref].
Qed.
End Rules.
