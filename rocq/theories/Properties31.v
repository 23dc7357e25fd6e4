(** C51: a query can be put together again from what the accessors return. *)
From Verif Require Import Query Print Spec SpecNodes SpecCanon SpecNorm SpecUsual SpecRebuild PrintEq NormProofs ApiProofs AccessProofs RebuildProofs RewriteSound RewriteNot SpecRewrite SpecBehind RewriteNot Properties2 Properties10 Properties12.

(** Take the columns (simplified_columns), the tables (get_table_lists_by_sfw) and the condition (get_where) of a component of an
    accepted query and write them as a SELECT statement: the statement is accepted, is written as it was put together, has one
    component, the same columns, and the tables and the condition that are read from the text of the whole query.
    Missing for the full property: the queries with unusual parts (SpecUsual.v) and the rewriting of the text in front of the parser (see C51_constructed_partial). *)
Theorem C51_rebuilt_partial :
  forall tm fmt input q i s, (forall d, fmt (fmt d) = fmt d) ->
  (forall n v, n <> [] -> lookup tm n = Some v -> upload_name v = true) ->
  query tm input = Q_ok q -> countable_query q -> forallb (usual fmt) (nodes_qspec q) = true ->
  nth_error (components q) i = Some s ->
  exists l tss ts w q' s' r c,
    simplified_columns fmt q (N.of_nat i) = A_ok l /\
    get_table_lists_by_sfw q = A_ok tss /\ nth_error tss i = Some ts /\
    get_where q (N.of_nat i) = A_ok w /\
    parse_it tm (to_string fmt q) = Q_ok q' /\ nth_error (components q') i = Some s' /\
    parse_it tm (rebuilt l (map (pr_tref fmt) ts) (if where_empty w then None else Some (pr_where fmt w))) = Q_ok r /\
    to_string fmt r = rebuilt l (map (pr_tref fmt) ts) (if where_empty w then None else Some (pr_where fmt w)) /\
    components r = [c] /\ simplified_columns fmt r 0 = A_ok l /\ tables_of c = tables_of s' /\ where_of c = where_of s'.
Proof.
  intros tm fmt input q i s I M H N U E. destruct (C13_accepted_partial tm fmt input q I M H U) as (C & P & _).
  destruct (C26_union_accessors_agree tm input q H N) as (_ & _ & G & _). destruct (G i s E) as (Gs & Gw & _).
  destruct (C28_table_lists_are_complete tm input q H N) as (T & _).
  pose proof (normal_component fmt q C s (nth_error_In _ _ E)) as K. pose proof (alone_canonical fmt s K) as A.
  destruct (C13_normal_form tm fmt (alone fmt s) I A) as (R & RT).
  exists (described fmt (sel_columns (sfw_select s))), (map tables_of (components q)), (tables_of s), (where_of s), (normal fmt q), (n_sfw fmt s).
  exists (normal fmt (alone fmt s)), (n_sfw fmt (q_initial (alone fmt s))).
  assert (X : to_string fmt (alone fmt s) = rebuilt (described fmt (sel_columns (sfw_select s))) (map (pr_tref fmt) (tables_of s)) (if where_empty (where_of s) then None else Some (pr_where fmt (where_of s)))).
  { destruct s as [[a t c] ts w]. rewrite (alone_text fmt); [reflexivity|]. cbn [sfw_select sel_columns]. rewrite n_sfw_SFW, c_sfw_SFW, n_select_Select, c_select_Select, !andb_true_iff in K. tauto. }
  rewrite <- X.
  repeat apply conj.
  - unfold simplified_columns. rewrite Gs. reflexivity.
  - exact T.
  - now rewrite nth_error_map, E.
  - exact Gw.
  - exact P.
  - destruct q as [w0 s0 ad g h o]. unfold normal. rewrite n_qspec_QS. cbn [components] in *. destruct i as [|i]; cbn [nth_error] in *; [congruence|].
    rewrite nth_error_map in E |- *. rewrite nth_error_map. destruct (nth_error ad i) as [[op x]|]; [|discriminate]. cbn [option_map] in *. rewrite n_addon_Addon. congruence.
  - exact R.
  - exact RT.
  - destruct s as [[a t c] ts w]. cbn [alone]. unfold normal. rewrite n_qspec_QS. reflexivity.
  - destruct s as [[a t c] ts w]. cbn [alone sfw_select sel_columns]. unfold normal. rewrite n_qspec_QS, n_sfw_SFW, n_select_Select. rewrite <- (plain_columns_described fmt I). reflexivity.
  - destruct s as [[a t c] ts w]. cbn [alone q_initial]. rewrite !n_sfw_SFW. reflexivity.
  - destruct s as [[a t c] ts w]. cbn [alone q_initial]. rewrite !n_sfw_SFW. reflexivity.
Qed.
Print Assumptions C51_rebuilt_partial.
Example C51_rebuilt_case : exists q l ts w,
  query default_mapping (L "select distinct a as b,c as c,t.* from t,u union select x from v where x=1") = Q_ok q /\
  forallb (usual (fun x => x)) (nodes_qspec q) = true /\ countable_query q /\
  simplified_columns (fun x => x) q 0 = A_ok l /\ get_table_lists_by_sfw q = A_ok ts /\ get_where q 1 = A_ok w /\
  map (fun t => rebuilt l (map (pr_tref (fun x => x)) t) None) (firstn 1 ts) = [L "SELECT a AS b, c, t.* FROM t, u"] /\
  where_empty w = false.
Proof.
  do 4 eexists. split; [vm_compute; reflexivity|]. split; [vm_compute; reflexivity|]. split; [vm_compute; reflexivity|].
  split; [vm_compute; reflexivity|]. split; [vm_compute; reflexivity|]. split; [vm_compute; reflexivity|]. split; vm_compute; reflexivity.
Qed.

(** The same for the constructor, if the statement has no condition or no geometry behind AND.
    Missing: unusual parts, and statements with a geometry behind AND (e.g. in a string literal). *)
Theorem C51_constructed_partial :
  forall tm fmt input q i s, (forall d, fmt (fmt d) = fmt d) ->
  (forall n v, n <> [] -> lookup tm n = Some v -> upload_name v = true) ->
  query tm input = Q_ok q -> countable_query q -> forallb (usual fmt) (nodes_qspec q) = true ->
  nth_error (components q) i = Some s ->
  exists l tss ts w q' s',
    simplified_columns fmt q (N.of_nat i) = A_ok l /\
    get_table_lists_by_sfw q = A_ok tss /\ nth_error tss i = Some ts /\
    get_where q (N.of_nat i) = A_ok w /\
    parse_it tm (to_string fmt q) = Q_ok q' /\ nth_error (components q') i = Some s' /\
    let t := rebuilt l (map (pr_tref fmt) ts) (if where_empty w then None else Some (pr_where fmt w)) in
    ~ occurs_nc (L "WHERE") t \/ geometries_behind (fun a => ~ ends_with_and a) t ->
    exists r c, query tm t = Q_ok r /\ to_string fmt r = t /\
      components r = [c] /\ simplified_columns fmt r 0 = A_ok l /\ tables_of c = tables_of s' /\ where_of c = where_of s'.
Proof.
  intros tm fmt input q i s I M H N U E.
  destruct (C51_rebuilt_partial tm fmt input q i s I M H N U E) as (l & tss & ts & w & q' & s' & r & c & A1 & A2 & A3 & A4 & A5 & A6 & A7 & A8 & A9 & A10 & A11 & A12).
  exists l, tss, ts, w, q', s'. do 6 (split; [assumption|]). intros t R. exists r, c. split; [|tauto].
  unfold query. assert (P : preprocess t = inr t) by (destruct R as [R|R]; [now apply not_rewritten; left|now apply not_behind_and]). now rewrite P.
Qed.
Print Assumptions C51_constructed_partial.
Example C51_constructed_case : exists q, query default_mapping (L "select a as b from t where contains(p,q)=1 and c>2") = Q_ok q /\
  forallb (usual (fun x => x)) (nodes_qspec q) = true /\ countable_query q /\
  exists l ts w, simplified_columns (fun x => x) q 0 = A_ok l /\ get_table_lists_by_sfw q = A_ok [ts] /\ get_where q 0 = A_ok w /\
  rebuilt l (map (pr_tref (fun x => x)) ts) (if where_empty w then None else Some (pr_where (fun x => x) w)) = L "SELECT a AS b FROM t WHERE CONTAINS(p,q)=1 AND c > 2" /\
  geometries_behind (fun a => ~ ends_with_and a) (L "SELECT a AS b FROM t WHERE CONTAINS(p,q)=1 AND c > 2").
Proof.
  eexists. split; [vm_compute; reflexivity|]. split; [vm_compute; reflexivity|]. split; [vm_compute; reflexivity|].
  do 3 eexists. split; [vm_compute; reflexivity|]. split; [vm_compute; reflexivity|]. split; [vm_compute; reflexivity|]. split; [vm_compute; reflexivity|].
  intros a w b E W. apply where_not_and. revert a w b E W. apply behind_where_b_sound. vm_compute. reflexivity.
Qed.
