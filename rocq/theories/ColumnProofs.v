(** simplified_columns (C29), simple_spatial_query (C30). *)
From Verif Require Import Query Spec SpecNodes SpecClauses Nodes NonEmpty NodeProps AccessProofs.

(** One select item and its (expression, alias) pair. *)
Definition describes (fmt : text -> text) (c : colv) (p : text * text) : Prop :=
  match c with
  | CV_as e a => p = (pr_ve fmt e, a)
  | _ => exists t, p = (t, t) /\ t = pr_colv fmt c
  end.
Definition describes_columns fmt (c : columns) (l : list (text * text)) : Prop :=
  match c with
  | C_star _ => l = [(L "*", [])]
  | C_list cs => Forall2 (describes fmt) cs l
  end.
Definition columns_of (s : sfw) : columns := match select_of s with Select _ _ c => c end.

Lemma simplified_list fmt cs : Forall2 (describes fmt) cs (map (simplified_column fmt) cs).
Proof. induction cs as [|c cs IH]; cbn; constructor; auto. destruct c; cbn; eauto. Qed.

Lemma nodes_columns_in q s : In s (components q) -> In (N_columns (columns_of s)) (nodes_qspec q).
Proof.
  destruct q as [w i ad g h o]; cbn [components nodes_qspec]. intros [<-|H].
  - right. apply in_or_app; right. apply in_or_app; left. destruct i as [[qt t c] ts w0].
    cbn. right. right. destruct c; left; reflexivity.
  - apply in_map_iff in H as ([op s'] & <- & H). right. apply in_or_app; right. apply in_or_app; right. apply in_or_app; left.
    apply in_flat_map. exists (Addon op s'). split; auto. destruct s' as [[qt t c] ts w0].
    cbn. right. right. right. destruct c; left; reflexivity.
Qed.

Lemma simplified_ok tm t q fmt i s : parse_it tm t = Q_ok q -> countable_query q ->
  nth_error (components q) i = Some s ->
  exists l, simplified_columns fmt q (N.of_nat i) = A_ok l /\ describes_columns fmt (columns_of s) l.
Proof.
  intros Hq Hc Hs.
  assert (Hne : tables_of (q_initial q) <> []).
  { eapply sfw_from, accepted_node; [exact Hq|]. apply nodes_components. rewrite components_eq. now left. }
  unfold simplified_columns. rewrite (get_sfw_in q Hne Hc i s Hs). cbn [abind]. eexists; split; [reflexivity|].
  assert (from (lookup tm) t (N_columns (columns_of s))) as F.
  { eapply accepted_node; [exact Hq|]. apply nodes_columns_in. eapply nth_error_In; exact Hs. }
  apply columns_from in F. destruct s as [[qt tp c] ts w]. cbn in *. destruct c; cbn.
  - now subst.
  - apply simplified_list.
Qed.

(** The simple spatial queries. *)
Definition simple_shape (q : qspec) : Prop :=
  exists s g, q = QS None s [] [] None [] /\ where_of s = Where g None.
Definition quantifier_of (q : qspec) : text :=
  match q with QS _ (SFW (Select q _ _) _ _) _ _ _ _ => q end.

Lemma text_eqb_eq a b : text_eqb a b = true <-> a = b.
Proof.
  revert b; induction a as [|x a IH]; intros [|y b]; cbn; split; try discriminate; auto.
  - intros H. apply andb_true_iff in H as [H1 H2]. apply Ascii.eqb_eq in H1. apply IH in H2. congruence.
  - intros H. injection H as -> ->. rewrite Ascii.eqb_refl. cbn. now apply IH.
Qed.

Lemma simple_iff tm t q : (forall n t, n <> [] -> lookup tm n = Some t -> t <> []) ->
  parse_it tm t = Q_ok q -> countable_query q ->
  simple_spatial_query q = true <-> simple_shape q /\ (quantifier_of q = [] \/ quantifier_of q = L "ALL").
Proof.
  intros Hm Hq Hc.
  assert (Hne : tables_of (q_initial q) <> []).
  { eapply sfw_from, accepted_node; [exact Hq|]. apply nodes_components. rewrite components_eq. now left. }
  unfold simple_spatial_query. rewrite (num_exact q Hne Hc).
  pose proof (accepted_nodes _ _ _ Hq) as N.
  assert (Hwith : opt_empty with_empty (q_with q) = is_nil (onodes (fun x => [N_with x]) (q_with q))).
  { destruct q as [[w|] i ad g h o]; cbn; [|reflexivity].
    assert (In (N_with w) (nodes_qspec (QS (Some w) i ad g h o))) as I by (cbn; right; destruct w; now left).
    rewrite Forall_forall in N. apply N in I. eapply with_from; eauto. }
  assert (Hhav : opt_empty sc_empty (q_having q) = is_nil (onodes (fun x => [N_sc x]) (q_having q))).
  { destruct q as [w i ad g [s|] o]; cbn; [|reflexivity].
    assert (In (N_sc s) (nodes_qspec (QS w i ad g (Some s) o))) as I.
    { cbn. right. apply in_or_app; right. apply in_or_app; right. apply in_or_app; right. apply in_or_app; right.
      apply in_or_app; left. destruct s; now left. }
    rewrite Forall_forall in N. apply N in I. eapply sc_from; eauto. }
  assert (Hwh : opt_empty sc_empty (where_sc (sfw_where (q_initial q))) = is_nil (onodes (fun x => [N_sc x]) (where_sc (sfw_where (q_initial q))))).
  { destruct q as [w [se ts [ge [s|]]] ad g h o]; cbn; [|reflexivity].
    assert (In (N_sc s) (nodes_qspec (QS w (SFW se ts (Where ge (Some s))) ad g h o))) as I.
    { cbn [nodes_qspec nodes_sfw nodes_where]. right. apply in_or_app; right. apply in_or_app; left. right.
      apply in_or_app; right. apply in_or_app; right. right. apply in_or_app; right. cbn. destruct s; now left. }
    rewrite Forall_forall in N. apply N in I. eapply sc_from; eauto. }
  rewrite Hwith, Hhav, Hwh. clear.
  rewrite !andb_true_iff, orb_true_iff, text_eqb_eq. rewrite N.eqb_eq.
  destruct q as [w [[qt tp c] ts [ge s]] ad g h o]; cbn [q_with q_having q_group q_order q_initial sfw_where sfw_select sel_quant where_sc quantifier_of].
  split.
  - intros [[[[[[H1 H2] H3] H4] H5] H6] H7]. split.
    + exists (SFW (Select qt tp c) ts (Where ge s)), ge. split.
      * destruct w; [discriminate|]. destruct h; [discriminate|]. destruct g; [|discriminate]. destruct o; [|discriminate].
        destruct ad; [reflexivity|]. cbn in H1. lia.
      * destruct s; [discriminate|reflexivity].
    + destruct H2 as [H2|H2]; [left; destruct qt; [reflexivity|discriminate]|now right].
  - intros [(s' & ge' & E & E') Hq]. injection E as -> <- -> -> -> ->. cbn in E'. injection E' as -> ->.
    cbn. repeat split; auto. destruct Hq as [ -> | -> ]; auto.
Qed.

(** * For accepted queries *)
Section Accepted.
Variables (tm : mapping) (input : text) (q : qspec).
Hypothesis Hq : query tm input = Q_ok q.
Hypothesis Hc : countable_query q.

Lemma acc_tables : tables_of (q_initial q) <> [].
Proof. apply accepted_tables in Hq. rewrite components_eq in Hq. now apply Forall_inv in Hq. Qed.

Lemma union_accessors :
    get_num_sfws q = N.of_nat (length (components q)) /\
    length (components q) = S (length (operators q)) /\
    (forall i s, nth_error (components q) i = Some s ->
       get_sfw q (N.of_nat i) = A_ok s /\ get_where q (N.of_nat i) = A_ok (where_of s) /\
       get_select q (N.of_nat i) = A_ok (select_of s)) /\
    (forall i o, nth_error (operators q) i = Some o -> get_union_op q (N.of_nat (S i)) = A_ok o) /\
    Forall is_union_op (operators q).
Proof.
  pose proof acc_tables as Hne. repeat split.
  - apply num_exact; auto.
  - rewrite components_len. destruct q; cbn. now rewrite map_length.
  - apply get_sfw_in; auto.
  - apply where_in; auto.
  - apply select_in; auto.
  - intros; apply get_op_in; auto.
  - eapply accepted_ops; eauto.
Qed.

Lemma table_lists_complete :
    get_table_lists_by_sfw q = A_ok (map tables_of (components q)) /\
    get_combined_table_list q = A_ok (concat (map tables_of (components q))) /\
    Forall (fun s => tables_of s <> []) (components q) /\
    (forall i s t ts, nth_error (components q) i = Some s -> tables_of s = t :: ts ->
       get_initial_table q (N.of_nat i) = A_ok t).
Proof.
  pose proof acc_tables as Hne. repeat split.
  - apply table_lists; auto.
  - apply combined_tables; auto.
  - eapply accepted_tables; eauto.
  - apply first_table; auto.
Qed.

Lemma simplified_columns_ok fmt i s : nth_error (components q) i = Some s ->
    exists l, simplified_columns fmt q (N.of_nat i) = A_ok l /\
      match select_of s with
      | Select _ _ (C_star _) => l = [(L "*", [])]
      | Select _ _ (C_list items) => Forall2 (describes fmt) items l
      end.
Proof.
  intros Hs. apply query_accepted in Hq as (t & _ & H). destruct (simplified_ok _ _ _ fmt i s H Hc Hs) as (l & E & D).
  exists l. split; auto. destruct s as [[qt tp c] ts w]; exact D.
Qed.

Lemma simple_spatial : (forall n t, n <> [] -> lookup tm n = Some t -> t <> []) ->
    (exists quant top cols tables geom,
       q = QS None (SFW (Select quant top cols) tables (Where geom None)) [] [] None [] /\
       (quant = [] \/ quant = L "ALL")) <->
    simple_spatial_query q = true.
Proof.
  intros Hm. apply query_accepted in Hq as (t & _ & H). rewrite (simple_iff tm t q Hm H Hc). split.
  - intros (qt & tp & c & ts & g & -> & Hqt). split; [|exact Hqt]. do 2 eexists; split; reflexivity.
  - intros [(s & g & -> & E) Hqt]. destruct s as [[qt tp c] ts [ge s]]. cbn in E. injection E as -> ->.
    do 5 eexists. split; [reflexivity|exact Hqt].
Qed.
End Accepted.

Lemma simplified_columns_acc tm input q fmt i s : query tm input = Q_ok q -> countable_query q -> nth_error (components q) i = Some s ->
    exists l, simplified_columns fmt q (N.of_nat i) = A_ok l /\
      match select_of s with
      | Select _ _ (C_star _) => l = [(L "*", [])]
      | Select _ _ (C_list items) => Forall2 (describes fmt) items l
      end.
Proof. intros; eapply simplified_columns_ok; eauto. Qed.
Lemma simple_spatial_acc tm input q : (forall n t, n <> [] -> lookup tm n = Some t -> t <> []) ->
    query tm input = Q_ok q -> countable_query q ->
    (exists quant top cols tables geom,
       q = QS None (SFW (Select quant top cols) tables (Where geom None)) [] [] None [] /\
       (quant = [] \/ quant = L "ALL")) <->
    simple_spatial_query q = true.
Proof. intros; eapply simple_spatial; eauto. Qed.

Lemma index_validation :
  (forall q i, get_sfw q i <> A_range /\ get_union_op q i <> A_range /\
               get_where q i <> A_range /\ get_select q i <> A_range) /\
  (forall tm input q, query tm input = Q_ok q -> countable_query q -> forall i,
     (i < length (components q) ->
        (exists s, get_sfw q (N.of_nat i) = A_ok s) /\ (exists w, get_where q (N.of_nat i) = A_ok w) /\
        (exists s, get_select q (N.of_nat i) = A_ok s) /\ (exists t, get_initial_table q (N.of_nat i) = A_ok t) /\
        (0 < i -> exists o, get_union_op q (N.of_nat i) = A_ok o)) /\
     (length (components q) <= i ->
        get_sfw q (N.of_nat i) = A_throw /\ get_where q (N.of_nat i) = A_throw /\
        get_select q (N.of_nat i) = A_throw /\ get_initial_table q (N.of_nat i) = A_throw /\
        get_union_op q (N.of_nat i) = A_throw) /\
     get_union_op q 0 = A_throw).
Proof.
  split; [repeat split; auto using get_sfw_no_range, get_union_op_no_range, get_where_no_range, get_select_no_range|].
  intros tm input q Hq Hc i. pose proof (acc_tables _ _ _ Hq) as Hne. split; [|split].
  - intros Hi. destruct (nth_error (components q) i) as [s|] eqn:E; [|apply nth_error_None in E; lia].
    split; [eexists; eapply get_sfw_in; eauto|]. split; [eexists; eapply where_in; eauto|].
    split; [eexists; eapply select_in; eauto|]. split.
    + pose proof (accepted_tables _ _ _ Hq) as F. rewrite Forall_forall in F. specialize (F s (nth_error_In _ _ E)).
      destruct (tables_of s) as [|t ts] eqn:Et; [congruence|]. exists t. eapply first_table; eauto.
    + intros Hp. destruct i as [|i]; [lia|]. rewrite components_len in Hi.
      destruct (nth_error (operators q) i) as [o|] eqn:Eo; [exists o; apply get_op_in; auto|].
      apply nth_error_None in Eo. rewrite (operators_eq q Hne Hc), map_length in Eo. lia.
  - intros Hi. split; [apply get_sfw_out; auto|]. destruct (all_out q Hne Hc i Hi) as (H1 & H2 & H3).
    split; [auto|]. split; [auto|]. split; [auto|]. apply get_op_out; auto.
  - apply (get_op_out q Hne Hc 0). auto.
Qed.
