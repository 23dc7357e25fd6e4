(** Consequences of [query_nodes] for accepted queries (C15, C16, C22, C26, C30). *)
From Verif Require Import Query PegProps Totality Gen NonEmpty Spec SpecNodes Nodes SpecClauses PegSpec PegEquiv QueryProofs TextLemmas.

Section NP.
Variable m : text -> option text.
Variable T : text.

(** ** No geometry in subqueries *)
Lemma where_ng n i v r : grun m n g_where_no_geometry i = Ok v r -> exists s, v = Where None (Some s).
Proof. unfold g_where_no_geometry. intros H. apply inv_map in H as ((u & s) & -> & _). eauto. Qed.
Lemma sfw_ng n i v r : grun m n (g_sfw_gen m g_where_no_geometry) i = Ok v r -> exists s, where_of v = Where None s.
Proof.
  unfold g_sfw_gen. intros H. apply inv_map in H as ((s & (ts & w)) & -> & H).
  apply inv_seq in H as (va & vb & i1 & E & S & _ & H) || apply inv_exp in H as (va & vb & i1 & E & S & _ & H).
  injection E as <- <-. apply inv_seq in H as (vc & vd & i2 & E & S2 & _ & H). injection E as <- <-.
  apply inv_opt in H as [(y & -> & H)|(-> & _)]; cbn; [|eauto]. apply where_ng in H as (s' & ->). eauto.
Qed.
Lemma query_ng n i v r : grun m n (g_query_no_geometry m) i = Ok v r ->
  Forall (fun s => exists c, where_of s = Where None c) (components v).
Proof.
  unfold g_query_no_geometry, g_query_gen. intros H. apply inv_map in H as (x & -> & H).
  destruct x as ((((wi & (i0 & ad)) & g) & h) & o).
  apply inv_seq in H as (? & ? & i5 & E & S5 & H & _); injection E as <- <-.
  apply inv_seq in H as (? & ? & i4 & E & S4 & H & _); injection E as <- <-.
  apply inv_seq in H as (? & ? & i3 & E & S3 & H & _); injection E as <- <-.
  apply inv_seq in H as (? & ? & i2 & E & S2 & _ & Hi); injection E as <- <-.
  apply inv_seq in Hi as (? & ? & i1 & E & S1 & Hi & Ha); injection E as <- <-.
  cbn [components]. constructor; [eapply sfw_ng; exact Hi|].
  apply inv_star in Ha. apply Forall_map. eapply Forall_impl; [|exact Ha].
  intros a (j & r' & _ & Hj). unfold g_addon_gen in Hj. apply inv_map in Hj as ((o' & s) & -> & Hj).
  apply inv_seq in Hj as (? & ? & i6 & E & _ & _ & Hj); injection E as <- <-. eapply sfw_ng; exact Hj.
Qed.
Lemma subq_ng v q : from m T (N_subq v) -> v = SQ_q q ->
  Forall (fun s => exists c, where_of s = Where None c) (components q).
Proof.
  intros (n & i & r & _ & H) ->. unfold g_subquery in H.
  apply inv_map in H as (((u & v) & u') & E & H). subst v.
  apply inv_seq in H as (? & ? & i1 & E & _ & H & _); injection E as <- <-.
  apply inv_seq in H as (? & ? & i2 & E & _ & _ & H); injection E as <- <-.
  apply inv_alt in H as [H|(i3 & _ & _ & H)]; apply inv_map in H as (x & E & H); [|discriminate].
  injection E as <-. eapply query_ng; exact H.
Qed.

(** ** Clauses *)
Section Ne.
Hypothesis Hm : forall n t, n <> [] -> m n = Some t -> t <> [].
Notation GE := (gen ne_pr).

Lemma read_gen {A : Set} (e : PE A) v : read m T e v -> exists t k, GE e t k v.
Proof. intros (n & i & r & _ & H). eapply ne_run in H; [|exact Hm]. destruct H as (t & _ & G). eauto. Qed.

Lemma sc_from v : from m T (N_sc v) -> sc_empty v = false.
Proof. cbn. intros H. apply read_gen in H as (t & k & H). eapply sc_nz; eauto. Qed.
Lemma result_from v : from m T (N_result v) -> result_empty v = false.
Proof. cbn. intros H. apply read_gen in H as (t & k & H). eapply result_nz; eauto. Qed.
Lemma jspec_from v : from m T (N_jspec v) -> jspec_empty v = false.
Proof. cbn. intros H. apply read_gen in H as (t & k & H). eapply jspec_nz; eauto. Qed.
Lemma with_from v : from m T (N_with v) -> with_empty v = false.
Proof. cbn. intros H. apply read_gen in H as (t & k & H). eapply with_nz; eauto. Qed.
Lemma geom_from v : from m T (N_geom v) -> geom_empty v = false.
Proof. cbn. intros H. apply read_gen in H as (t & k & H). eapply geom_nz; eauto. Qed.


Definition opt_ne {A} (f : A -> bool) (o : option A) : Prop := match o with Some x => f x = false | None => True end.

Lemma qspec_parts w t k v : GE (g_query_gen m w) t k v ->
  match v with QS wi _ _ _ h _ => opt_ne with_empty wi /\ opt_ne sc_empty h end.
Proof.
  intros H. unfold g_query_gen in H. cbn [gen] in H. ginv.
  split; match goal with |- opt_ne _ ?o => destruct o; cbn [opt_ne]; [|trivial] end.
  - eapply with_nz; eauto.
  - eapply having_nz; eauto.
Qed.
Lemma sfw_parts t k v : (GE (g_sfw_gen m (g_where m)) t k v \/ GE (g_sfw_gen m g_where_no_geometry) t k v) ->
  match v with SFW _ _ (Where g c) => opt_ne geom_empty g /\ opt_ne sc_empty c end.
Proof.
  intros [H|H]; unfold g_sfw_gen in H; cbn [gen] in H; ginv;
    (match goal with o : option wherec |- _ => destruct o as [w|]; cbn [odef opt_ne]; [|auto] end).
  - match goal with H : gen _ (g_where m) _ _ _ |- _ => unfold g_where in H; gunf H end.
    ginv; cbn [snd fst opt_ne]; auto;
      repeat match goal with H : gen _ (g_geometry m) _ _ _ |- _ => apply geom_nz in H end; split; auto.
    match goal with |- opt_ne _ ?o => destruct o; cbn [opt_ne]; ginv; auto end.
  - match goal with H : gen _ g_where_no_geometry _ _ _ |- _ => unfold g_where_no_geometry in H; gunf H end.
    ginv; cbn [opt_ne]; auto.
Qed.
Lemma case_parts t k v idx : GE (g_value_expression_primary m) t k (VEP v idx) ->
  match v with VP_case _ _ e => opt_ne result_empty e | VP_scase _ e => opt_ne result_empty e | _ => True end.
Proof.
  intros H. unfold g_value_expression_primary in H. cbn [gen] in H.
  destruct H as ((v' & idx') & H & E). injection E as -> ->.
  destruct H as (t1 & t2 & -> & H & _). cbn [fst] in H.
  destruct v'; auto;
  repeat (match type of H with
         | gen _ g_case_expression _ _ _ => fail 1
         | _ \/ _ => destruct H as [H|H]
         | exists _, _ => destruct H as (? & H)
         | _ /\ _ => destruct H as (? & H)
         end);
  try (unfold g_array_constructor, g_set_function_specification, g_general_set_function, g_any_expression, g_value_subexpression in H;
       gunf H; ginv; discriminate).
  all: try discriminate.
  all: unfold g_case_expression, g_nullif, g_coalesce, g_case_specification, g_simple_case, g_searched_case in H; gunf H;
    ginv; try discriminate;
    match goal with H : _ = _ |- _ => injection H as -> -> -> || injection H as -> -> end;
    match goal with |- opt_ne _ ?o => destruct o; cbn [opt_ne]; [|trivial] end;
    match goal with H : gen _ g_else_clause _ _ _ |- _ => unfold g_else_clause in H; cbn [gen] in H end;
    ginv; eapply result_nz; eauto.
Qed.
Lemma jsuf_parts t k v : GE g_join_suffix t k v -> match v with JS _ _ _ sp => opt_ne jspec_empty sp end.
Proof.
  intros H. unfold g_join_suffix in H. cbn [gen] in H. ginv.
  match goal with |- opt_ne _ ?o => destruct o; cbn [opt_ne]; [|trivial] end. eapply jspec_nz; eauto.
Qed.

Lemma node_clauses fmt x : from m T x -> clauses_printed fmt x.
Proof.
  intros Hx. destruct x; cbn [clauses_printed]; auto.
  - destruct v; auto; destruct Hx as (idx & Hx & _); apply read_gen in Hx as (t & k & Hx); apply case_parts in Hx;
      destruct e as [e|]; cbn [opt_ne] in Hx; cbn [pr_vepv clause]; rewrite ?Hx, <- ?app_assoc; reflexivity.
  - apply sc_from in Hx. destruct v; cbn [pr_sc]; rewrite Hx; reflexivity.
  - destruct v as [nat ty t sp]. apply read_gen in Hx as (t' & k & Hx); apply jsuf_parts in Hx.
    cbn [pr_jsuf]. destruct sp as [sp|]; cbn [clause opt_ne] in *.
    + rewrite Hx, app_nil_r. reflexivity.
    + reflexivity.
  - destruct v as [w i ad g h o].
    assert (opt_ne with_empty w /\ opt_ne sc_empty h) as [Hw Hh].
    { destruct Hx as [Hx|Hx]; apply read_gen in Hx as (t & k & Hx); apply qspec_parts in Hx; exact Hx. }
    cbn [pr_qspec].
    f_equal; [destruct w; [cbn [opt_ne] in Hw; cbn [clause]; rewrite Hw|]; reflexivity|].
    f_equal. f_equal. f_equal; [destruct g; reflexivity|].
    f_equal; [destruct h; [cbn [opt_ne] in Hh; cbn [clause]; rewrite Hh, app_nil_r|]; reflexivity|].
    destruct o; reflexivity.
  - destruct v as [s ts [g c]].
    assert (opt_ne geom_empty g /\ opt_ne sc_empty c) as [Hg Hc].
    { destruct Hx as [Hx|Hx]; apply read_gen in Hx as (t & k & Hx);
        [apply (sfw_parts t k _ (or_introl Hx))|apply (sfw_parts t k _ (or_intror Hx))]. }
    cbn [pr_sfw]. f_equal. f_equal. f_equal. unfold where_empty.
    destruct g; cbn [opt_ne] in Hg; (destruct c; cbn [opt_ne] in Hc);
      cbn [opt_empty pr_where]; rewrite ?Hg, ?Hc; cbn [andb]; rewrite ?app_nil_r; reflexivity.
  - apply geom_from in Hx. destruct v; cbn [geom_empty pr_geom] in *; rewrite Hx; reflexivity.
Qed.
End Ne.

(** ** NOT in front of a condition *)
Lemma not_run j : srun (kws_soft ["NOT"]%string) [] j =
  match strip true (L "NOT") j with
  | Some (w, c :: r) => if is_space c then SOk w (c :: r) else SFail w
  | Some (w, []) => SFail w
  | None => SFail []
  end.
Proof.
  unfold kws_soft, strs_nc, alts, map, ahead_space. cbn [srun].
  destruct (strip true (L "NOT") j) as [[w [|c r]]|]; cbn [srun app].
  - reflexivity.
  - destruct (is_space c); reflexivity.
  - destruct j; reflexivity.
Qed.

Lemma bfac_not n i w p r : grun m n g_boolean_factor i = Ok (BF w p) r ->
  match strip true (L "NOT") (skip i) with
  | None => w = [] /\ grun m n g_boolean_primary (skip i) = Ok p r
  | Some (w', k) => w = w' /\
      grun m n g_boolean_primary (match k with c :: _ => if is_space c then k else skip i | [] => skip i end) = Ok p r
  end.
Proof.
  unfold g_boolean_factor. intros H. apply inv_map in H as ((w0 & p0) & E & H). injection E as -> ->.
  unfold grun in *. rewrite run_Seq, run_OptLex, not_run in H.
  destruct (strip true (L "NOT") (skip i)) as [[w' [|c k]]|].
  - destruct (run _ _ _ g_boolean_primary (skip i)) as [vb i2| | |] eqn:E; try discriminate. injection H as -> -> ->. auto.
  - destruct (is_space c);
      match type of H with context [run _ _ _ g_boolean_primary ?j] => destruct (run (g_body m) n _ g_boolean_primary j) as [vb i2| | |] eqn:E end; try discriminate; injection H as -> -> ->; auto.
  - destruct (run _ _ _ g_boolean_primary (skip i)) as [vb i2| | |] eqn:E; try discriminate. injection H as -> -> ->. auto.
Qed.


Definition is_union_op (o : text) : Prop :=
  upper o = L "UNION" \/ upper o = L "UNION ALL" \/ upper o = L "UNION DISTINCT".
Definition is_quantifier (o : text) : Prop := o = [] \/ upper o = L "ALL" \/ upper o = L "DISTINCT".

Lemma strs_nc_ok ws : forall acc j v r, srun (strs_nc ws) acc j = SOk v r ->
  exists w s, In s ws /\ v = acc ++ w /\ j = w ++ r /\ upper w = upper (L s).
Proof.
  induction ws as [|s ws IH]; intros acc j v r; cbn [strs_nc map alts srun].
  - destruct j; discriminate.
  - destruct (strip true (L s) j) as [[w r']|] eqn:E.
    + intros H; injection H as <- <-. apply strip_nc_iff in E as [-> U]. exists w, s. cbn; auto.
    + intros H. apply IH in H as (w & s' & Hi & -> & -> & U). exists w, s'. cbn; auto.
Qed.

Lemma union_run acc j v r : srun s_union acc j = SOk v r -> exists w, v = acc ++ w /\ is_union_op w.
Proof.
  unfold s_union, kws_soft. intros H. cbn [srun] in H.
  destruct (srun (strs_nc _) acc j) as [v' r'| | |] eqn:E; try discriminate.
  apply strs_nc_ok in E as (w & s & Hi & -> & -> & U). exists w. split.
  - unfold ahead_space in H. cbn [srun] in H. destruct r' as [|c r']; [discriminate|]. destruct (is_space c); [|discriminate]. now injection H as <- _.
  - cbn in Hi. unfold is_union_op. destruct Hi as [<-|[<-|[<-|[]]]]; rewrite U; auto.
Qed.
Lemma addon_from v : from m T (N_addon v) -> match v with Addon o _ => is_union_op o end.
Proof.
  assert (K : forall w, read m T (g_addon_gen m w) v -> match v with Addon o _ => is_union_op o end).
  { intros w (n & i & r & _ & H). unfold g_addon_gen in H. apply inv_map in H as ((o & s) & -> & H).
    apply inv_seq in H as (? & ? & i1 & E & _ & H & _); injection E as <- <-.
    unfold grun in H. rewrite run_Lex in H. unfold lex in H. destruct (srun s_union _ _) eqn:E; try discriminate.
    injection H as <- <-. apply union_run in E as (w' & -> & U). exact U. }
  intros [H|H]; eapply K; exact H.
Qed.

Lemma quant_run j : match srun s_set_quantifier [] j with SOk v _ | SFail v => is_quantifier v | _ => True end.
Proof.
  unfold s_set_quantifier. cbn [srun]. destruct (srun (strs_nc _) [] j) as [v' r'| | |] eqn:E; cbn; try (now left); auto.
  apply strs_nc_ok in E as (w & s & Hi & -> & -> & U).
  destruct r' as [|c r']; [now left|]. destruct (is_space c); [|now left]. cbn in Hi. unfold is_quantifier.
  destruct Hi as [<-|[<-|[]]]; cbn [app]; rewrite U; auto.
Qed.
Lemma select_from v : from m T (N_select v) -> match v with Select q _ _ => is_quantifier q end.
Proof.
  intros (n & i & r & _ & H). unfold g_select in H. apply inv_map in H as ((((u & q) & t) & c) & -> & H).
  apply inv_exp in H as (? & ? & i1 & E & _ & H & _); injection E as <- <-.
  apply inv_seq in H as (? & ? & i2 & E & _ & H & _); injection E as <- <-.
  apply inv_seq in H as (? & ? & i3 & E & _ & _ & H); injection E as <- <-.
  unfold grun in H. rewrite run_OptLex in H. pose proof (quant_run (skip i3)) as K.
  destruct (srun s_set_quantifier _ _); try discriminate; injection H as <- <-; exact K.
Qed.

Lemma sfw_from v : from m T (N_sfw v) -> tables_of v <> [].
Proof.
  assert (K : forall w, read m T (g_sfw_gen m w) v -> tables_of v <> []).
  { intros w (n & i & r & _ & H). unfold g_sfw_gen in H. apply inv_map in H as ((s & (ts & w')) & -> & H).
    apply inv_exp in H as (? & ? & i1 & E & _ & _ & H); injection E as <- <-.
    apply inv_seq in H as (? & ? & i2 & E & _ & H & _); injection E as <- <-.
    unfold g_from_clause in H. apply inv_map in H as ((u & l) & -> & H).
    apply inv_exp in H as (? & ? & i3 & E & _ & _ & H); injection E as <- <-. cbn.
    rewrite run_List in H. destruct (run _ _ _ p_tref i3) as [x j| | |]; try discriminate.
    destruct (plist _ _ _ _); try discriminate. injection H as <- <-. discriminate. }
  intros [H|H]; eapply K; exact H.
Qed.
Lemma columns_from v : from m T (N_columns v) -> match v with C_star s => s = L "*" | C_list l => l <> [] end.
Proof.
  intros (n & i & r & _ & H). unfold g_columns in H.
  apply inv_alt in H as [H|(i1 & _ & _ & H)]; apply inv_map in H as (x & -> & H); unfold grun in H.
  - rewrite run_Lex in H. unfold lex in H. unfold strs_cs in H; cbn [map alts srun] in H.
    destruct (strip false (L "*") (skip i)) as [[w k]|] eqn:E.
    + injection H as <- <-. apply strip_cs_iff in E as [-> _]. reflexivity.
    + destruct (skip i); discriminate.
  - rewrite run_List in H. destruct (run _ _ _ (g_select_item m) i1) as [y j| | |]; try discriminate.
    destruct (plist _ _ _ _); try discriminate. injection H as <- <-. discriminate.
Qed.
End NP.

(** ** The nodes of a query *)
Lemma nodes_components q s : In s (components q) -> In (N_sfw s) (nodes_qspec q).
Proof.
  destruct q as [w i ad g h o]; cbn [components nodes_qspec]. intros [<-|H].
  - right. apply in_or_app; right. apply in_or_app; left. destruct i; left; reflexivity.
  - apply in_map_iff in H as ([op s'] & <- & H). right. apply in_or_app; right. apply in_or_app; right. apply in_or_app; left.
    apply in_flat_map. exists (Addon op s'). split; auto. right. destruct s'; left; reflexivity.
Qed.
Lemma nodes_operators q o : In o (operators q) -> exists s, In (N_addon (Addon o s)) (nodes_qspec q).
Proof.
  destruct q as [w i ad g h or]; cbn [operators nodes_qspec]. intros H.
  apply in_map_iff in H as ([op s'] & <- & H). exists s'. right. apply in_or_app; right. apply in_or_app; right. apply in_or_app; left.
  apply in_flat_map. exists (Addon op s'). split; auto. left; reflexivity.
Qed.
Lemma nodes_selects q s : In s (components q) -> In (N_select (select_of s)) (nodes_qspec q).
Proof.
  destruct q as [w i ad g h o]; cbn [components nodes_qspec]. intros [<-|H].
  - right. apply in_or_app; right. apply in_or_app; left. destruct i as [s ts w0]; right. destruct s; left; reflexivity.
  - apply in_map_iff in H as ([op s'] & <- & H). right. apply in_or_app; right. apply in_or_app; right. apply in_or_app; left.
    apply in_flat_map. exists (Addon op s'). split; auto. right. destruct s' as [s ts w0]; right; destruct s; left; reflexivity.
Qed.

(** ** Accepted queries *)
Lemma query_accepted tm input q : query tm input = Q_ok q ->
  exists t, preprocess input = inr t /\ parse_it tm t = Q_ok q.
Proof. unfold query. destruct (preprocess input) as [e|t]; [discriminate|]. eauto. Qed.

Lemma accepted_nodes tm t q : parse_it tm t = Q_ok q -> Forall (from (lookup tm) t) (nodes_qspec q).
Proof.
  unfold parse_it. destruct (grun _ _ _ _) as [q' r|r|[p|t0]|] eqn:E; try discriminate.
  destruct (skip r); [|discriminate]. intros H; injection H as ->. eapply query_nodes; exact E.
Qed.
Lemma accepted_node tm t q x : parse_it tm t = Q_ok q -> In x (nodes_qspec q) -> from (lookup tm) t x.
Proof. intros H. apply accepted_nodes in H. rewrite Forall_forall in H. apply H. Qed.

(** Accepted by the constructor. *)
Lemma accepted_clauses tm input q fmt : (forall n t, n <> [] -> lookup tm n = Some t -> t <> []) ->
  query tm input = Q_ok q -> Forall (clauses_printed fmt) (nodes_qspec q).
Proof.
  intros Hm H. apply query_accepted in H as (t & _ & H). apply accepted_nodes in H.
  eapply Forall_impl; [|exact H]. intros x. now apply node_clauses.
Qed.
Lemma accepted_subqueries tm input q s : query tm input = Q_ok q -> In (N_subq (SQ_q s)) (nodes_qspec q) ->
  Forall (fun c => exists cond, where_of c = Where None cond) (components s).
Proof. intros H I. apply query_accepted in H as (t & _ & H). eapply subq_ng; [|reflexivity]. eapply accepted_node; eauto. Qed.
Lemma accepted_tables tm input q : query tm input = Q_ok q -> Forall (fun s => tables_of s <> []) (components q).
Proof.
  intros H. apply query_accepted in H as (t & _ & H). apply Forall_forall. intros s I.
  eapply sfw_from, accepted_node; [exact H|]. now apply nodes_components.
Qed.
Lemma accepted_ops tm input q : query tm input = Q_ok q -> Forall is_union_op (operators q).
Proof.
  intros H. apply query_accepted in H as (t & _ & H). apply Forall_forall. intros o I.
  apply nodes_operators in I as (s & I). apply (addon_from _ _ (Addon o s) (accepted_node _ _ _ _ H I)).
Qed.
Lemma accepted_not tm input q w p : query tm input = Q_ok q -> In (N_bfac (BF w p)) (nodes_qspec q) ->
  exists t j, preprocess input = inr t /\ is_suffix j t /\ skip j = j /\
    ((w = [] /\ (forall w' r, j = w' ++ r -> upper w' <> L "NOT") /\
      exists r, ev (g_body (lookup tm)) _ g_boolean_primary j (Ok p r)) \/
     (exists k, j = w ++ k /\ upper w = L "NOT" /\
      exists r, ev (g_body (lookup tm)) _ g_boolean_primary
                   (match k with c :: _ => if is_space c then k else j | [] => j end) (Ok p r))).
Proof.
  intros H I. apply query_accepted in H as (t & P & H). pose proof (accepted_node _ _ _ _ H I) as F. cbn in F.
  destruct F as (n & i & r & (pre & S) & F). apply bfac_not in F.
  destruct (skip_split i) as (sp & Ei & _).
  exists t, (skip i). split; [exact P|]. split; [exists (pre ++ sp); rewrite <- app_assoc, <- Ei; exact S|].
  split; [apply skip_skip|].
  destruct (strip true (L "NOT") (skip i)) as [[w' k]|] eqn:E.
  - right. destruct F as [-> F]. apply strip_nc_iff in E as [E U]. exists k. split; [exact E|]. split; [exact U|].
    exists r. unfold grun in F. rewrite <- F. apply run_ev. rewrite F. discriminate.
  - left. destruct F as [-> F]. split; [reflexivity|]. split.
    + pose proof (proj1 (strip_nc_none _ _) E) as N. exact N.
    + exists r. unfold grun in F. rewrite <- F. apply run_ev. rewrite F. discriminate.
Qed.
