(** C44 for the constructor. *)
From Verif Require Import Query Print Spec SpecNodes SpecUsual SpecRewrite SpecBehind RewriteSound RewriteNot Api AccessProofs Properties12 Properties25.
Local Open Scope list_scope.

(** A limit that is set for a component is the limit of this component in the query that the constructor makes of the formatted text, if
    this text has no WHERE, or no geometry of it stands behind AND.  Missing: queries with unusual parts (SpecUsual.v), other texts. *)
Theorem C44_constructed_partial :
  forall tm fmt input q, (forall d, fmt (fmt d) = fmt d) ->
  (forall n v, n <> [] -> lookup tm n = Some v -> upload_name v = true) ->
  query tm input = Q_ok q -> countable_query q -> forallb (usual fmt) (nodes_qspec q) = true ->
  forall i n, i < length (components q) -> (n < 2 ^ 64)%N ->
  exists q', write_select q (N.of_nat i) (set_top n) = A_ok q' /\
    (~ occurs_nc (L "WHERE") (to_string fmt q') \/ geometries_behind (fun a => ~ ends_with_and a) (to_string fmt q') ->
     exists r d c ts w, query tm (to_string fmt q') = Q_ok r /\ to_string fmt r = to_string fmt q' /\
       nth_error (components r) i = Some (SFW (Select d n c) ts w)).
Proof.
  intros tm fmt input q I M H C U i n Hi Hn.
  destruct (C44_top_partial tm fmt input q I M H C U i n Hi Hn) as (q' & r & r0 & a & b & qu & n0 & c & ts & w & W & P & _ & S & La & _ & Er).
  exists q'. split; [exact W|]. intros R. exists r, qu, c, ts, w. split; [|split; [exact S|]].
  - unfold query. assert (X : preprocess (to_string fmt q') = inr (to_string fmt q')) by (destruct R as [R|R]; [now apply not_rewritten; left|now apply not_behind_and]). now rewrite X.
  - rewrite Er, <- La, nth_error_app2, Nat.sub_diag by apply Nat.le_refl. reflexivity.
Qed.
Print Assumptions C44_constructed_partial.
Example C44_constructed_case : exists q q', query default_mapping (L "select a from t where contains(p,q)=1 and b=c") = Q_ok q /\ countable_query q /\
  forallb (usual (fun x => x)) (nodes_qspec q) = true /\ write_select q 0 (set_top 5) = A_ok q' /\
  to_string (fun x => x) q' = L "SELECT TOP 5 a FROM t WHERE CONTAINS(p,q)=1 AND b = c" /\
  geometries_behind (fun a => ~ ends_with_and a) (L "SELECT TOP 5 a FROM t WHERE CONTAINS(p,q)=1 AND b = c").
Proof.
  eexists. eexists. split; [vm_compute; reflexivity|]. split; [vm_compute; reflexivity|]. split; [vm_compute; reflexivity|]. split; [vm_compute; reflexivity|].
  split; [vm_compute; reflexivity|]. intros a w b E W. apply where_not_and. revert a w b E W. apply behind_where_b_sound. vm_compute. reflexivity.
Qed.
