(** C25 in queries; C26: is_union_query; C44: columns and quantifier. *)
From Verif Require Import Query Print Evaluate Spec SpecLexical SpecContent SpecNodes SpecCanon SpecNorm SpecUsual SpecSpelling SpecNumbers NumberProofs SpellUse PrintEq Api ApiProofs AccessProofs
  Properties2 Properties8 Properties10 Properties12 Properties25.
Local Open Scope list_scope.

(** ** C25: every coordinate and every size in an accepted query is a number, a column, or two numbers with one of the four
    operators between them, as they stand in the text; a number counts as itself, a column is refused, and a sum is evaluated
    (Properties5.v) or refused for the zero in its denominator, never for its operator. *)
Theorem C25_in_queries :
  forall tm input q n c value, query tm input = Q_ok q -> In n (nodes_qspec q) -> In c (node_numbers n) ->
  exists t before after, preprocess input = inr t /\
  match c with
  | CS_dbl d => t = before ++ d ++ after /\ real_number d /\ double_or_throw value c = Ev_ok (value d)
  | CS_col _ => double_or_throw value c = Ev_column
  | CS_bae a o b =>
      (exists w1 w2, t = before ++ a ++ w1 ++ o ++ w2 ++ b ++ after /\ white w1 /\ white w2) /\ real_number a /\ real_number b /\
      exists x, o = [x] /\ In x (L "+-*/") /\ double_or_throw value c = evaluate (value a) x (value b) /\
        (double_or_throw value c = Ev_zero <-> x = "/"%char /\ exists s, value b = S754_zero s) /\
        (double_or_throw value c <> Ev_zero -> exists r, double_or_throw value c = Ev_ok r)
  end.
Proof.
  intros tm input q n c value H I J. destruct (accepted_spelled _ _ _ _ H I) as (t & a & u & b & P & -> & S).
  destruct (node_csae _ _ _ _ _ S J) as (a1 & x & b1 & -> & S1). destruct c as [l o r|c|d].
  - destruct (bae_text _ _ _ _ _ _ S1) as (R1 & R2 & O & w1 & w2 & w3 & w4 & -> & W1 & W2 & W3 & W4). eexists. exists (a ++ a1 ++ w1), (w4 ++ b1 ++ b).
    split; [exact P|]. split; [exists w2, w3; split; [now rewrite <- !app_assoc|auto]|]. split; [exact R1|]. split; [exact R2|].
    assert (X : exists y, o = [y] /\ In y (L "+-*/")) by (cbn in O; destruct O as [<-|[<-|[<-|[<-|[]]]]]; eexists; (split; [reflexivity|cbn; tauto])).
    destruct X as (y & -> & Y). exists y. split; [reflexivity|]. split; [exact Y|]. split; [reflexivity|]. cbn [double_or_throw]. unfold evaluate.
    cbn in Y. destruct Y as [<-|[<-|[<-|[<-|[]]]]]; cbn [Ascii.eqb Bool.eqb]; (split; [|intros Z]); eauto; try (split; [discriminate|intros [E _]; discriminate]).
    + destruct (SFeqb (value r) dzero) eqn:E.
      * split; [|reflexivity]. intros _. split; [reflexivity|]. destruct (value r) as [s|s| |s p e]; [now exists s|..]; try (destruct s); discriminate.
      * split; [discriminate|]. intros [_ [s Z]]. rewrite Z in E. discriminate.
    + destruct (SFeqb (value r) dzero); [contradiction|eauto].
  - exists (a ++ (a1 ++ x ++ b1) ++ b), [], []. split; [exact P|reflexivity].
  - destruct (dbl_text _ _ _ _ S1) as (R & w1 & w2 & -> & W1 & W2). eexists. exists (a ++ a1 ++ w1), (w2 ++ b1 ++ b). split; [exact P|]. split; [now rewrite <- !app_assoc|]. split; [exact R|reflexivity].
Qed.
Print Assumptions C25_in_queries.
Example C25_in_queries_case : exists q, let n := N_soc (Soc_shape (Sh_point ICRS (Coord (CS_bae (L "1") (L "/") (L "3")) (CS_col (CR1 (L "y")))))) in
  query default_mapping (L "select * from t where contains(point(1 / 3,y),box(1,2,3,4))=1") = Q_ok q /\
  In n (nodes_qspec q) /\ In (CS_bae (L "1") (L "/") (L "3")) (node_numbers n).
Proof.
  eexists. cbv zeta. split; [vm_compute; reflexivity|]. split; [vm_compute; repeat first [left; reflexivity | right]|now left].
Qed.

(** ** C26: a union query is a query with an operator. *)
Theorem C26_is_union :
  forall tm input q, query tm input = Q_ok q -> countable_query q -> is_union_query q = true <-> operators q <> [].
Proof.
  intros tm input q H C. destruct (C26_union_accessors_agree tm input q H C) as (N & E & _). unfold is_union_query. rewrite N, E, N.ltb_lt.
  destruct (operators q) as [|o l]; cbn [length]; split; intros X; try discriminate; try lia. now contradiction X.
Qed.
Print Assumptions C26_is_union.
Example C26_is_union_case : exists q, query default_mapping (L "select a from t union select b from t") = Q_ok q /\ countable_query q /\ operators q <> [].
Proof. eexists. split; [vm_compute; reflexivity|]. split; [reflexivity|discriminate]. Qed.

(** ** C44: the columns may be replaced by those of any other accepted query with usual parts, and the quantifier by ALL, DISTINCT
    or nothing: what is read from the formatted text differs from the old query in this, and only in this. *)
Lemma select_written tm fmt input q i s (f g : select -> select) : (forall d, fmt (fmt d) = fmt d) ->
  (forall n v, n <> [] -> lookup tm n = Some v -> upload_name v = true) ->
  query tm input = Q_ok q -> countable_query q -> forallb (usual fmt) (nodes_qspec q) = true -> nth_error (components q) i = Some s ->
  n_sfw fmt (on_select f s) = on_select g (n_sfw fmt s) -> (c_sfw fmt true (n_sfw fmt s) = true -> c_sfw fmt true (on_select g (n_sfw fmt s)) = true) ->
  exists q' r r0 a b s0, write_select q (N.of_nat i) f = A_ok q' /\
    parse_it tm (to_string fmt q') = Q_ok r /\ to_string fmt r = to_string fmt q' /\ parse_it tm (to_string fmt q) = Q_ok r0 /\
    length a = i /\ components r0 = a ++ s0 :: b /\ components r = a ++ SFW (g (select_of s0)) (tables_of s0) (where_of s0) :: b.
Proof.
  intros I M H C U N Z G. pose proof (first_tables tm input q H) as T.
  assert (Hi : i < length (components q)) by (apply nth_error_Some; congruence).
  destruct (C13_accepted_partial tm fmt input q I M H U) as (K & _ & _).
  destruct (write_split q T C i s (on_select f) N) as (q' & a & b & W & La & E0 & E & _).
  assert (K' : canonical fmt (normal fmt q') = true).
  { apply (write_normal fmt q i s (on_select f) q' K N); [|exact W]. rewrite Z. apply G. apply (normal_component fmt q K s). now apply nth_error_In in N. }
  destruct (C13_normal_form tm fmt q' I K') as [P S]. destruct (C13_normal_form tm fmt q I K) as [P0 _].
  assert (X : forall q, components (normal fmt q) = map (n_sfw fmt) (components q)).
  { intros [w s0 ad g0 h o]. unfold normal. rewrite NormProofs.n_qspec_QS. cbn [components map]. f_equal. rewrite !map_map. apply map_ext. now intros [op x]. }
  pose proof (X q) as X0. pose proof (X q') as X1. rewrite E0, map_app in X0. rewrite E, map_app in X1. cbn [map] in X0, X1. rewrite Z in X1.
  exists q', (normal fmt q'), (normal fmt q), (map (n_sfw fmt) a), (map (n_sfw fmt) b), (n_sfw fmt s).
  split; [now rewrite (write_select_in q T C i _ Hi)|]. split; [exact P|]. split; [exact S|]. split; [exact P0|].
  split; [now rewrite map_length|]. split; [exact X0|]. rewrite X1. now destruct (n_sfw fmt s).
Qed.
Definition columns_of (s : select) : columns := match s with Select _ _ c => c end.
Theorem C44_members_partial :
  forall tm fmt input q, (forall d, fmt (fmt d) = fmt d) ->
  (forall n v, n <> [] -> lookup tm n = Some v -> upload_name v = true) ->
  query tm input = Q_ok q -> countable_query q -> forallb (usual fmt) (nodes_qspec q) = true ->
  forall i, i < length (components q) ->
  (forall input2 p rp j sp sp0, query tm input2 = Q_ok p -> forallb (usual fmt) (nodes_qspec p) = true -> nth_error (components p) j = Some sp ->
     parse_it tm (to_string fmt p) = Q_ok rp -> nth_error (components rp) j = Some sp0 ->
     exists q' r r0 a b d n c ts w, write_select q (N.of_nat i) (set_columns (columns_of (select_of sp))) = A_ok q' /\
       parse_it tm (to_string fmt q') = Q_ok r /\ to_string fmt r = to_string fmt q' /\ parse_it tm (to_string fmt q) = Q_ok r0 /\
       length a = i /\ components r0 = a ++ SFW (Select d n c) ts w :: b /\ components r = a ++ SFW (Select d n (columns_of (select_of sp0))) ts w :: b) /\
  (forall d', d' = [] \/ upper d' = L "ALL" \/ upper d' = L "DISTINCT" ->
     exists q' r r0 a b d n c ts w, write_select q (N.of_nat i) (set_quantifier d') = A_ok q' /\
       parse_it tm (to_string fmt q') = Q_ok r /\ to_string fmt r = to_string fmt q' /\ parse_it tm (to_string fmt q) = Q_ok r0 /\
       length a = i /\ components r0 = a ++ SFW (Select d n c) ts w :: b /\ components r = a ++ SFW (Select d' n c) ts w :: b).
Proof.
  intros tm fmt input q I M H C U i Hi. destruct (nth_error (components q) i) as [s|] eqn:N; [|apply nth_error_Some in Hi; congruence]. split.
  - intros input2 p rp j sp sp0 H2 U2 Hj R Hj0. destruct (C13_accepted_partial tm fmt input2 p I M H2 U2) as (K2 & P2 & _).
    rewrite P2 in R. injection R as <-.
    assert (E : sp0 = n_sfw fmt sp).
    { destruct p as [w s0 ad g0 h o]. unfold normal in Hj0. rewrite NormProofs.n_qspec_QS in Hj0. cbn [components] in *. destruct j as [|j]; cbn [nth_error] in *; [congruence|].
      rewrite nth_error_map in Hj, Hj0. rewrite nth_error_map in Hj0. destruct (nth_error ad j) as [[op x]|]; [|discriminate]. cbn [option_map] in *. rewrite NormProofs.n_addon_Addon in Hj0. congruence. }
    subst sp0. pose proof (normal_component fmt p K2 sp (nth_error_In _ _ Hj)) as B.
    destruct (select_written tm fmt input q i s (set_columns (columns_of (select_of sp))) (set_columns (columns_of (select_of (n_sfw fmt sp)))) I M H C U N) as (q' & r & r0 & a & b & s0 & X1 & X2 & X3 & X4 & X5 & X6 & X7).
    + destruct s as [[d n c] ts w], sp as [[d2 n2 c2] ts2 w2]. reflexivity.
    + intros A. destruct (n_sfw fmt s) as [[d n c] ts w], (n_sfw fmt sp) as [[d2 n2 c2] ts2 w2]. cbn [on_select select_of columns_of set_columns].
      rewrite c_sfw_SFW, c_select_Select in A, B |- *. rewrite !andb_true_iff in A, B |- *. tauto.
    + destruct s0 as [[d n c] ts w]. exists q', r, r0, a, b, d, n, c, ts, w. auto 8.
  - intros d' D.
    destruct (select_written tm fmt input q i s (set_quantifier d') (set_quantifier d') I M H C U N) as (q' & r & r0 & a & b & s0 & X1 & X2 & X3 & X4 & X5 & X6 & X7).
    + destruct s as [[d n c] ts w]. reflexivity.
    + intros A. destruct (n_sfw fmt s) as [[d n c] ts w]. cbn [on_select set_quantifier]. rewrite c_sfw_SFW, c_select_Select in A |- *. rewrite !andb_true_iff in A |- *.
      assert (Q : is_nil d' || one_of_nc d' ["ALL"; "DISTINCT"]%string = true) by (destruct D as [->|[E|E]]; [reflexivity| |]; unfold one_of_nc; rewrite E; apply orb_true_r).
      tauto.
    + destruct s0 as [[d n c] ts w]. exists q', r, r0, a, b, d, n, c, ts, w. auto 8.
Qed.
Print Assumptions C44_members_partial.
Example C44_members_case : exists q q', query default_mapping (L "select distinct a from t") = Q_ok q /\ countable_query q /\
  forallb (usual (fun x => x)) (nodes_qspec q) = true /\ write_select q 0 (set_quantifier (L "all")) = A_ok q' /\ to_string (fun x => x) q' = L "SELECT all a FROM t".
Proof.
  eexists. eexists. split; [vm_compute; reflexivity|]. split; [vm_compute; reflexivity|]. split; [vm_compute; reflexivity|].
  split; vm_compute; reflexivity.
Qed.
