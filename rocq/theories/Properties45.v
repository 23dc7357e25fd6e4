(** C58: a geometry stays in the SELECT, and in the clause, in which it was written. *)
From Verif Require Import Query Print Spec SpecNodes SpecRewrite ParenProofs RewriteMain RewriteTwice SpecBehind SpecSpelling RewriteNot Properties3 Properties8 Properties15 Properties42.
Local Open Scope list_scope.

(** It does not: a geometry behind AND is moved to the first WHERE of the text, whatever stands in between.  Here [u] is everything from the
    end of the first condition [c1] to the WHERE (or HAVING) to which the geometry belongs, in particular UNION and another SELECT. *)
Theorem C58_first_where :
  forall pre w c1 u c2 m g, last_geometry (pre ++ w ++ (c1 ++ u ++ c2) ++ m ++ g) pre (c1 ++ u ++ c2) g [] [] -> ~ In "$"%char (c1 ++ u ++ c2 ++ g) ->
    shallow (peak 0 ((c1 ++ u ++ c2) ++ g)) -> balanced (c1 ++ u ++ c2) -> well_closed g ->
    ~ occurs_nc (L "CONTAINS") pre -> ~ occurs_nc (L "INTERSECTS") pre ->
    ~ occurs_nc (L "CONTAINS") (c1 ++ u ++ c2) -> ~ occurs_nc (L "INTERSECTS") (c1 ++ u ++ c2) ->
    forall tm, query tm (pre ++ w ++ (c1 ++ u ++ c2) ++ m ++ g) = query tm (pre ++ L "WHERE " ++ g ++ L " AND " ++ c1 ++ u ++ c2).
Proof.
  intros pre w c1 u c2 m g H D Sh Bl Wg C1 I1 C2 I2 tm. rewrite <- (C57_moved_partial _ pre (c1 ++ u ++ c2) g [] [] H); try assumption.
  - unfold moved. now rewrite app_nil_r.
  - rewrite app_nil_r, <- !app_assoc. exact D.
Qed.
Print Assumptions C58_first_where.
Section Case.
Let l : text := L "x=1 union select b from u where c=1".
Example C58_first_where_case :
  l = L "x=1" ++ L " union select b from u where " ++ L "c=1" /\
  last_geometry (L "select a from t " ++ L "where " ++ l ++ L " and " ++ L "contains(p,q)") (L "select a from t ") l (L "contains(p,q)") [] [] /\
  ~ In "$"%char (l ++ L "contains(p,q)") /\ shallow (peak 0 (l ++ L "contains(p,q)")) /\ balanced l /\ well_closed (L "contains(p,q)") /\
  ~ occurs_nc (L "CONTAINS") (L "select a from t ") /\ ~ occurs_nc (L "INTERSECTS") (L "select a from t ") /\ ~ occurs_nc (L "CONTAINS") l /\ ~ occurs_nc (L "INTERSECTS") l.
Proof.
  split; [reflexivity|]. split; [|split; [vm_compute; intuition discriminate|split; [reflexivity|split; [reflexivity|split; [discriminate|repeat split; apply find_nc_false; reflexivity]]]]].
  apply (last_geometry_intro _ _ _ _ _ _ (L "where ") (L " and ") [] [] (L "contains") (L "(p,q)")); try reflexivity; try (apply find_nc_false; reflexivity).
  - exists "x"%char. eexists. split; [reflexivity|discriminate].
  - exists (L "x=1 union select b from u where c="), "1"%char. split; [reflexivity|discriminate].
  - cbn. repeat constructor.
  - repeat constructor; discriminate.
  - exists (L " "), (L "and"), (L " "). repeat split; repeat constructor.
  - constructor.
  - now left.
  - exists (L "contains(p,q"), ")"%char. split; [reflexivity|discriminate].
  - now left.
  - left. constructor.
Qed.
End Case.

(** The geometries of the components. *)
Definition has_geometry (s : sfw) : bool := match s with SFW _ _ (Where (Some _) _) => true | _ => false end.
(** An accepted union: written behind AND in the second SELECT, the geometry is one of the first; written in front, one of the second. *)
Theorem C58_union_refuted :
  exists first second cond geo q q',
    query default_mapping (first ++ second ++ cond ++ L " AND " ++ geo) = Q_ok q /\ query default_mapping (first ++ second ++ geo ++ L " AND " ++ cond) = Q_ok q' /\
    map has_geometry (components q) = [true; false] /\ map has_geometry (components q') = [false; true].
Proof.
  exists (L "SELECT a FROM t WHERE x=1"), (L " UNION SELECT b FROM u WHERE "), (L "c=1"), (L "CONTAINS(p,q)"). do 2 eexists.
  split; [vm_compute; reflexivity|]. split; [vm_compute; reflexivity|]. split; reflexivity.
Qed.
Print Assumptions C58_union_refuted.
(** A geometry behind AND in HAVING becomes a condition of WHERE; without WHERE it is refused. *)
Theorem C58_having_refuted :
  exists rest, (exists q, query default_mapping (L "select a from t where x=1" ++ rest) = Q_ok q /\ map has_geometry (components q) = [true]) /\
    occurs_nc (L " HAVING b=1 AND CONTAINS(p,q)") rest /\ ~ occurs_nc (L "WHERE") rest /\
    exists e, query default_mapping (L "select a from t" ++ rest) = Q_err e.
Proof.
  exists (L " group by a having b=1 and contains(p,q)"). split; [eexists; split; [vm_compute; reflexivity|reflexivity]|].
  split; [exists (L " group by a"), (L " having b=1 and contains(p,q)"), []; split; reflexivity|]. split; [apply find_nc_false; reflexivity|].
  destruct (query default_mapping (L "select a from t" ++ L " group by a having b=1 and contains(p,q)")) as [q|e] eqn:Q; [vm_compute in Q; discriminate|now exists e].
Qed.
Print Assumptions C58_having_refuted.

(** A text without a geometry behind AND is read as it is: every part of the query, and every geometry, is spelled by the part of the text at its
    place ([written], SpecSpelling.v). *)
Theorem C58_in_place_partial :
  forall tm input q, geometries_behind (fun a => ~ ends_with_and a) input -> query tm input = Q_ok q -> written (lookup tm) input q.
Proof. intros tm input q G Q. apply C35_text in Q as (t & P & W). rewrite (not_behind_and _ G) in P. injection P as <-. exact W. Qed.
Print Assumptions C58_in_place_partial.
Example C58_in_place_case : geometries_behind (fun a => ~ ends_with_and a) two_geometries /\
  exists q, query default_mapping two_geometries = Q_ok q /\ map has_geometry (components q) = [true; true].
Proof. split; [apply C34_behind_where_case|]. eexists. split; [vm_compute; reflexivity|reflexivity]. Qed.

(** The conditions in front of the geometry leave their SELECT as well, if a UNION with a WHERE follows: [l] is written behind the condition of the
    second SELECT, which is the end of [u]. *)
Theorem C58_condition_moved :
  forall pre w l m g u, last_geometry (pre ++ w ++ l ++ m ++ g ++ u) pre l (g ++ u) [] [] -> ~ In "$"%char (l ++ g ++ u) ->
    shallow (peak 0 (l ++ g ++ u)) -> balanced l -> well_closed (g ++ u) ->
    ~ occurs_nc (L "CONTAINS") pre -> ~ occurs_nc (L "INTERSECTS") pre -> ~ occurs_nc (L "CONTAINS") l -> ~ occurs_nc (L "INTERSECTS") l ->
    forall tm, query tm (pre ++ w ++ l ++ m ++ g ++ u) = query tm (pre ++ L "WHERE " ++ g ++ u ++ L " AND " ++ l).
Proof.
  intros pre w l m g u H D Sh Bl Wg C1 I1 C2 I2 tm. rewrite <- (C57_moved_partial _ pre l (g ++ u) [] [] H); try assumption.
  - unfold moved. now rewrite app_nil_r, <- !app_assoc.
  - rewrite app_nil_r. exact D.
Qed.
Print Assumptions C58_condition_moved.
Section Condition.
Let u : text := L " union select b from v where x=1".
Example C58_condition_case :
  last_geometry (L "select a from t " ++ L "where " ++ L "a=b" ++ L " and " ++ L "contains(p,q)" ++ u) (L "select a from t ") (L "a=b") (L "contains(p,q)" ++ u) [] [] /\
  ~ In "$"%char (L "a=b" ++ L "contains(p,q)" ++ u) /\ shallow (peak 0 (L "a=b" ++ L "contains(p,q)" ++ u)) /\ balanced (L "a=b") /\ well_closed (L "contains(p,q)" ++ u) /\
  ~ occurs_nc (L "CONTAINS") (L "select a from t ") /\ ~ occurs_nc (L "INTERSECTS") (L "select a from t ") /\ ~ occurs_nc (L "CONTAINS") (L "a=b") /\ ~ occurs_nc (L "INTERSECTS") (L "a=b").
Proof.
  split; [|split; [vm_compute; intuition discriminate|split; [reflexivity|split; [reflexivity|split; [discriminate|repeat split; apply find_nc_false; reflexivity]]]]].
  apply (last_geometry_intro _ _ _ _ _ _ (L "where ") (L " and ") [] [] (L "contains") (L "(p,q) union select b from v where x=1")); try reflexivity; try (apply find_nc_false; reflexivity).
  - exists "a"%char. eexists. split; [reflexivity|discriminate].
  - exists (L "a="), "b"%char. split; [reflexivity|discriminate].
  - cbn. repeat constructor.
  - repeat constructor; discriminate.
  - exists (L " "), (L "and"), (L " "). repeat split; repeat constructor.
  - constructor.
  - now left.
  - exists (L "contains(p,q) union select b from v where x="), "1"%char. split; [reflexivity|discriminate].
  - now left.
  - left. constructor.
Qed.
End Condition.
Definition has_condition (s : sfw) : bool := match s with SFW _ _ (Where _ (Some _)) => true | _ => false end.
Theorem C58_condition_refuted :
  exists first cond geo second q q',
    query default_mapping (first ++ cond ++ L " AND " ++ geo ++ second) = Q_ok q /\ query default_mapping (first ++ geo ++ L " AND " ++ cond ++ second) = Q_ok q' /\
    map has_condition (components q) = [false; true] /\ map has_condition (components q') = [true; true] /\
    forall fmt, occurs (L "x = 1 AND a = b") (to_string fmt q).
Proof.
  exists (L "SELECT a FROM t WHERE "), (L "a=b"), (L "CONTAINS(p,q)"), (L " UNION SELECT b FROM u WHERE x=1"). do 2 eexists.
  split; [vm_compute; reflexivity|]. split; [vm_compute; reflexivity|]. split; [reflexivity|]. split; [reflexivity|].
  intros fmt. exists (L "SELECT a FROM t WHERE CONTAINS(p,q)=1 UNION SELECT b FROM u WHERE "), []. vm_compute. reflexivity.
Qed.
Print Assumptions C58_condition_refuted.

(** If another condition [c] follows the geometry, the text behind it ([u], for instance a UNION) stays behind [l] and [c]: in contrast to [C58_condition_moved],
    [l] is not carried over a UNION in [u].  This is a statement on texts: the query is that of the text with the geometry in front of [l].  It does not say
    that the geometry stays in its SELECT if [l] itself contains a UNION; then it does not ([C58_first_where]).  The number of geometries per component is only
    computed in the example. *)
Theorem C58_right_partial :
  forall pre w l m1 g m2 c u, last_geometry (pre ++ w ++ l ++ m1 ++ g ++ m2 ++ c ++ u) pre l g (c ++ u) [] -> c <> [] -> ~ In "$"%char (l ++ g ++ c ++ u) ->
    shallow (peak 0 (l ++ g)) -> balanced l -> well_closed g ->
    ~ occurs_nc (L "CONTAINS") pre -> ~ occurs_nc (L "INTERSECTS") pre -> ~ occurs_nc (L "CONTAINS") l -> ~ occurs_nc (L "INTERSECTS") l ->
    forall tm, query tm (pre ++ w ++ l ++ m1 ++ g ++ m2 ++ c ++ u) = query tm (pre ++ L "WHERE " ++ g ++ L " AND " ++ l ++ L " AND " ++ c ++ u).
Proof.
  intros pre w l m1 g m2 c u H N D Sh Bl Wg C1 I1 C2 I2 tm. rewrite <- (C57_moved_partial _ pre l g (c ++ u) [] H); try assumption.
  unfold moved. destruct c as [|x c]; [easy|]. reflexivity.
Qed.
Print Assumptions C58_right_partial.
Section Right.
Let u : text := L " union select b from v where x=1".
Example C58_right_case :
  last_geometry (L "select a from t " ++ L "where " ++ L "a=b" ++ L " and " ++ L "contains(p,q)" ++ L " and " ++ L "c=d" ++ u) (L "select a from t ") (L "a=b") (L "contains(p,q)") (L "c=d" ++ u) [] /\
  ~ In "$"%char (L "a=b" ++ L "contains(p,q)" ++ L "c=d" ++ u) /\ shallow (peak 0 (L "a=b" ++ L "contains(p,q)")) /\ balanced (L "a=b") /\ well_closed (L "contains(p,q)") /\
  ~ occurs_nc (L "CONTAINS") (L "select a from t ") /\ ~ occurs_nc (L "INTERSECTS") (L "select a from t ") /\ ~ occurs_nc (L "CONTAINS") (L "a=b") /\ ~ occurs_nc (L "INTERSECTS") (L "a=b") /\
  exists q, query default_mapping (L "select a from t " ++ L "where " ++ L "a=b" ++ L " and " ++ L "contains(p,q)" ++ L " and " ++ L "c=d" ++ u) = Q_ok q /\
    map has_geometry (components q) = [true; false].
Proof.
  split; [|split; [vm_compute; intuition discriminate|split; [reflexivity|split; [reflexivity|split; [discriminate|do 4 (split; [apply find_nc_false; reflexivity|]); eexists; split; [vm_compute; reflexivity|reflexivity]]]]]].
  apply (last_geometry_intro _ _ _ _ _ _ (L "where ") (L " and ") (L " and ") [] (L "contains") (L "(p,q)")); try reflexivity; try (apply find_nc_false; reflexivity).
  - exists "a"%char. eexists. split; [reflexivity|discriminate].
  - exists (L "a="), "b"%char. split; [reflexivity|discriminate].
  - cbn. repeat constructor.
  - repeat constructor; discriminate.
  - exists (L " "), (L "and"), (L " "). repeat split; repeat constructor.
  - constructor.
  - now left.
  - exists (L "contains(p,q"), ")"%char. split; [reflexivity|discriminate].
  - right. split; [exists (L " "), (L "and"), (L " "); repeat split; repeat constructor|]. split; [right; now eexists|].
    split; [exists "c"%char; eexists; split; [reflexivity|discriminate]|]. split; [exists (L "c=d union select b from v where x="), "1"%char; split; [reflexivity|discriminate]|].
    split; [cbn; repeat constructor|]. repeat split; apply find_nc_false; reflexivity.
  - left. constructor.
Qed.
End Right.

(** What an accepted text of the intended form means: every part of the query is spelled by the part at its place of the text with the geometry behind
    its first WHERE ([moved]).  It does not say that another text could not spell it too.  Missing: texts of another form, conditions with '$', unbalanced parentheses. *)
Theorem C58_read_partial :
  forall tm input pre l g r tl q, last_geometry input pre l g r tl -> ~ In "$"%char (l ++ g ++ r) -> shallow (peak 0 (l ++ g)) -> balanced l -> well_closed g ->
    query tm input = Q_ok q -> written (lookup tm) (moved pre l g r) q.
Proof.
  intros tm input pre l g r tl q H D Sh Bl Wg Q. destruct (rewrite_intended _ _ _ _ _ _ H D Sh) as [_ P].
  apply C35_text in Q as (t & P' & W). rewrite (P Bl Wg) in P'. injection P' as <-. exact W.
Qed.
Print Assumptions C58_read_partial.
Example C58_read_case : exists pre l g r tl q,
  last_geometry sample3 pre l g r tl /\ ~ In "$"%char (l ++ g ++ r) /\ shallow (peak 0 (l ++ g)) /\ balanced l /\ well_closed g /\ query default_mapping sample3 = Q_ok q.
Proof.
  destruct C57_case as (H & D & Sh & _ & _ & _ & _ & Bl & Wg & q & Q). do 5 eexists. exists q. exact (conj H (conj D (conj Sh (conj Bl (conj Wg Q))))).
Qed.
