(** C44: writing through the accessors; C45: empty queries. *)
From Verif Require Import Query Print Spec SpecNodes SpecCanon SpecNorm SpecUsual SpecBehind Api PrintEq ApiProofs AccessProofs Properties10 Properties12 Properties15.

Lemma first_tables tm input q : query tm input = Q_ok q -> tables_of (q_initial q) <> [].
Proof. intros H. pose proof (NodeProps.accepted_tables tm input q H) as F. rewrite components_eq in F. now inversion F. Qed.

(** get_select(i) with a valid i writes into component i of an accepted query; everything else stays as it is, and in the
    formatted text only the SELECT clause of this component changes.  With any other index it throws. *)
Theorem C44_written :
  forall tm fmt input q, query tm input = Q_ok q -> countable_query q -> forall i f,
  (forall s, nth_error (components q) i = Some s ->
     exists q' a b x y, write_select q (N.of_nat i) f = A_ok q' /\
       length a = i /\ components q = a ++ s :: b /\ components q' = a ++ SFW (f (select_of s)) (tables_of s) (where_of s) :: b /\
       operators q' = operators q /\ q_with q' = q_with q /\ q_group q' = q_group q /\ q_having q' = q_having q /\ q_order q' = q_order q /\
       to_string fmt q = x ++ pr_select fmt (select_of s) ++ y /\ to_string fmt q' = x ++ pr_select fmt (f (select_of s)) ++ y) /\
  (length (components q) <= i -> write_select q (N.of_nat i) f = A_throw).
Proof.
  intros tm fmt input q H C i f. pose proof (first_tables tm input q H) as T. split; [|now apply write_select_out].
  intros s N. assert (Hi : i < length (components q)) by (apply nth_error_Some; congruence). rewrite (write_select_in q T C i f Hi).
  destruct (write_split q T C i s (on_select f) N) as (q' & a & b & W & R). destruct (write_text fmt q i s (on_select f) q' N W) as (x & y & E & E').
  destruct s as [s ts w]. cbn [on_select] in *. rewrite PrintEq.pr_sfw_SFW in E, E'. rewrite <- !app_assoc in E, E'.
  exists q', a, b, x. eexists. split; [exact W|]. destruct R as (R1 & R2 & R3 & R4 & R5 & R6 & R7 & R8).
  do 8 (split; [assumption|]). split; [exact E|exact E'].
Qed.
Print Assumptions C44_written.

(** A limit that is set for a component of an accepted query with usual parts (SpecUsual.v) is the limit of this component in
    the query that is read from the formatted text, for every number of 64 bits; and nothing else changes in the components. *)
Theorem C44_top_partial :
  forall tm fmt input q, (forall d, fmt (fmt d) = fmt d) ->
  (forall n v, n <> [] -> lookup tm n = Some v -> upload_name v = true) ->
  query tm input = Q_ok q -> countable_query q -> forallb (usual fmt) (nodes_qspec q) = true ->
  forall i n, i < length (components q) -> (n < 2 ^ 64)%N ->
  exists q' r r0 a b qu n0 c ts w, write_select q (N.of_nat i) (set_top n) = A_ok q' /\
    parse_it tm (to_string fmt q') = Q_ok r /\ parse_it tm (to_string fmt q) = Q_ok r0 /\ to_string fmt r = to_string fmt q' /\
    length a = i /\ components r0 = a ++ SFW (Select qu n0 c) ts w :: b /\ components r = a ++ SFW (Select qu n c) ts w :: b.
Proof.
  intros tm fmt input q I M H C U i n Hi Hn. pose proof (first_tables tm input q H) as T.
  destruct (nth_error (components q) i) as [s|] eqn:N; [|apply nth_error_Some in Hi; congruence].
  destruct (C13_accepted_partial tm fmt input q I M H U) as (K & _ & _).
  destruct (write_split q T C i s (on_select (set_top n)) N) as (q' & a & b & W & La & E0 & E & _).
  assert (K' : canonical fmt (normal fmt q') = true).
  { apply (write_normal fmt q i s (on_select (set_top n)) q' K N); [|exact W]. rewrite n_top. apply top_ok; [|unfold top_none; lia].
    apply (normal_component fmt q K). now apply nth_error_In in N. }
  destruct (C13_normal_form tm fmt q' I K') as [P S]. destruct (C13_normal_form tm fmt q I K) as [P0 _].
  assert (X : forall q, components (normal fmt q) = map (n_sfw fmt) (components q)).
  { intros [w s0 ad g h o]. unfold normal. rewrite NormProofs.n_qspec_QS. cbn [components map]. f_equal. rewrite !map_map. apply map_ext. now intros [op x]. }
  destruct s as [[qu n0 c] ts w]. pose proof (X q) as X0. pose proof (X q') as X1. rewrite E0, map_app in X0. rewrite E, map_app in X1. cbn [map] in X0, X1. rewrite n_top in X1.
  destruct (n_sfw fmt (SFW (Select qu n0 c) ts w)) as [[qu' n0' c'] ts' w'].
  exists q', (normal fmt q'), (normal fmt q), (map (n_sfw fmt) a), (map (n_sfw fmt) b), qu', n0', c', ts', w'.
  split; [now rewrite (write_select_in q T C i (set_top n) Hi)|]. split; [exact P|]. split; [exact P0|]. split; [exact S|].
  split; [now rewrite map_length|]. split; [exact X0|exact X1].
Qed.
Print Assumptions C44_top_partial.

(** The whole SELECT (the public members limit, columns, quantifier) may be replaced by that of any other accepted query with
    usual parts: what is read from the formatted text differs from the old query in this SELECT, and only there. *)
Theorem C44_select_partial :
  forall tm fmt input1 input2 q p, (forall d, fmt (fmt d) = fmt d) ->
  (forall n v, n <> [] -> lookup tm n = Some v -> upload_name v = true) ->
  query tm input1 = Q_ok q -> countable_query q -> forallb (usual fmt) (nodes_qspec q) = true ->
  query tm input2 = Q_ok p -> forallb (usual fmt) (nodes_qspec p) = true ->
  forall i j sp, i < length (components q) -> nth_error (components p) j = Some sp ->
  exists q' r r0 rp a b s0 sp0, write_select q (N.of_nat i) (fun _ => select_of sp) = A_ok q' /\
    parse_it tm (to_string fmt q') = Q_ok r /\ to_string fmt r = to_string fmt q' /\
    parse_it tm (to_string fmt q) = Q_ok r0 /\ parse_it tm (to_string fmt p) = Q_ok rp /\ nth_error (components rp) j = Some sp0 /\
    length a = i /\ components r0 = a ++ s0 :: b /\ components r = a ++ SFW (select_of sp0) (tables_of s0) (where_of s0) :: b.
Proof.
  intros tm fmt input1 input2 q p I M H C U H2 U2 i j sp Hi Hj. pose proof (first_tables tm input1 q H) as T.
  destruct (nth_error (components q) i) as [s|] eqn:N; [|apply nth_error_Some in Hi; congruence].
  destruct (C13_accepted_partial tm fmt input1 q I M H U) as (K & _ & _).
  destruct (C13_accepted_partial tm fmt input2 p I M H2 U2) as (K2 & _ & _).
  destruct (write_split q T C i s (on_select (fun _ => select_of sp)) N) as (q' & a & b & W & La & E0 & E & _).
  assert (Z : n_sfw fmt (on_select (fun _ => select_of sp) s) = on_select (fun _ => select_of (n_sfw fmt sp)) (n_sfw fmt s)) by (now destruct s, sp).
  assert (K' : canonical fmt (normal fmt q') = true).
  { apply (write_normal fmt q i s (on_select (fun _ => select_of sp)) q' K N); [|exact W]. rewrite Z.
    pose proof (normal_component fmt q K s (nth_error_In _ _ N)) as A. pose proof (normal_component fmt p K2 sp (nth_error_In _ _ Hj)) as B.
    destruct (n_sfw fmt s) as [s1 t1 w1], (n_sfw fmt sp) as [s2 t2 w2]. cbn [on_select select_of]. rewrite c_sfw_SFW in A, B |- *. rewrite !andb_true_iff in A, B |- *. tauto. }
  destruct (C13_normal_form tm fmt q' I K') as [P S]. destruct (C13_normal_form tm fmt q I K) as [P0 _]. destruct (C13_normal_form tm fmt p I K2) as [P2 _].
  assert (X : forall q, components (normal fmt q) = map (n_sfw fmt) (components q)).
  { intros [w s0 ad g h o]. unfold normal. rewrite NormProofs.n_qspec_QS. cbn [components map]. f_equal. rewrite !map_map. apply map_ext. now intros [op x]. }
  pose proof (X q) as X0. pose proof (X q') as X1. rewrite E0, map_app in X0. rewrite E, map_app in X1. cbn [map] in X0, X1. rewrite Z in X1.
  exists q', (normal fmt q'), (normal fmt q), (normal fmt p), (map (n_sfw fmt) a), (map (n_sfw fmt) b), (n_sfw fmt s), (n_sfw fmt sp).
  split; [now rewrite (write_select_in q T C i _ Hi)|]. split; [exact P|]. split; [exact S|]. split; [exact P0|]. split; [exact P2|].
  split; [rewrite X; now apply map_nth_error|]. split; [now rewrite map_length|]. split; [exact X0|]. rewrite X1. now destruct (n_sfw fmt s).
Qed.
Print Assumptions C44_select_partial.

Section Case.
Let t : text := L "select a from t union select b from u".
Example C44_case : exists q q', query default_mapping t = Q_ok q /\ countable_query q /\ forallb (usual (fun x => x)) (nodes_qspec q) = true /\
  write_select q 1 (set_top 5) = A_ok q' /\ to_string (fun x => x) q' = L "SELECT a FROM t UNION SELECT TOP 5 b FROM u".
Proof.
  eexists. eexists. split; [vm_compute; reflexivity|]. split; [vm_compute; reflexivity|]. split; [vm_compute; reflexivity|].
  split; vm_compute; reflexivity.
Qed.
Let u : text := L "select distinct top 3 c,d as e from v".
Example C44_select_case : exists q p sp q', query default_mapping t = Q_ok q /\ query default_mapping u = Q_ok p /\
  forallb (usual (fun x => x)) (nodes_qspec p) = true /\ nth_error (components p) 0 = Some sp /\
  write_select q 1 (fun _ => select_of sp) = A_ok q' /\ to_string (fun x => x) q' = L "SELECT a FROM t UNION SELECT distinct TOP 3 c, d AS e FROM u".
Proof.
  do 4 eexists. split; [vm_compute; reflexivity|]. split; [vm_compute; reflexivity|]. split; [vm_compute; reflexivity|].
  split; [reflexivity|]. split; vm_compute; reflexivity.
Qed.
End Case.

(** ** C45: a query is empty exactly if it was not read from a text *)
Theorem C45_empty :
  query_empty default_query = true /\
  (forall i, get_select default_query i = A_throw /\ get_where default_query i = A_throw /\ get_initial_table default_query i = A_throw /\ get_union_op default_query i = A_throw) /\
  get_table_lists_by_sfw default_query = A_ok [] /\ get_combined_table_list default_query = A_ok [] /\ simple_spatial_query default_query = false /\
  (forall q, query_empty q = true <-> exists s r, components q = s :: r /\ tables_of s = []) /\
  (forall tm input q, query tm input = Q_ok q -> query_empty q = false).
Proof.
  split; [reflexivity|]. split.
  - intros i. unfold get_select, get_where, get_initial_table, get_union_op, validate_sfw_index. change (get_num_sfws default_query) with 0%N.
    replace (0 <=? i)%N with true by (symmetry; apply N.leb_le; lia). replace (i <? 0)%N with false by (symmetry; apply N.ltb_ge; lia). rewrite andb_false_r. now repeat split.
  - repeat (split; [reflexivity|]). split.
    { intros [w [s ts wh] ad g h o]. split.
      - intros E. exists (SFW s ts wh). eexists. split; [reflexivity|]. now destruct ts.
      - intros (x & r & E & Z). injection E as <- _. cbn in Z. now subst ts. }
    intros tm input q H. pose proof (first_tables tm input q H) as T. unfold query_empty.
    destruct (q_initial q) as [s [|x ts] w]; [now destruct T|reflexivity].
Qed.
Print Assumptions C45_empty.
(** The text of a query that was not read from a text is refused. *)
Theorem C45_default_text : forall tm fmt, to_string fmt default_query = L "SELECT  FROM " /\ exists e, query tm (to_string fmt default_query) = Q_err e.
Proof. intros tm fmt. split; [reflexivity|]. change (to_string fmt default_query) with (L "SELECT  FROM "). eexists. vm_compute. reflexivity. Qed.
Print Assumptions C45_default_text.
