(** C17, C18, C39: queries without a geometry that are rewritten, and a UNION behind a geometry. *)
From Verif Require Import Query Print Spec SpecRewrite ParenProofs RewriteMain Properties3.

(** ** C17: the last clause of a query without any geometry is lost, because the name of a column starts with CONTAINS. *)
Theorem C17_column_refuted :
  exists input name name' q q',
    query default_mapping (input ++ name ++ L "=2 order by b") = Q_ok q /\ query default_mapping (input ++ name' ++ L "=2 order by b") = Q_ok q' /\
    match q with QS _ (SFW _ _ (Where g _)) _ _ _ _ => g = None end /\ q_order q = [] /\ q_order q' <> [].
Proof.
  exists (L "select * from t where a=1 and "), (L "containsx"), (L "cantainsx"). do 2 eexists.
  split; [vm_compute; reflexivity|]. split; [vm_compute; reflexivity|]. split; [reflexivity|]. split; [reflexivity|discriminate].
Qed.
Print Assumptions C17_column_refuted.

(** ** C18: the meaning of a condition without any geometry is changed: c and the condition behind it are read, and written, as c', which is
    false where c is true. *)
Theorem C18_column_refuted :
  exists pre c c' q v, query default_mapping (pre ++ L "WHERE " ++ c) = Q_ok q /\
    match q with QS _ (SFW _ _ (Where g _)) _ _ _ _ => g = None end /\
    (forall fmt, to_string fmt q = pre ++ L "WHERE " ++ c') /\ truth v c = true /\ truth v c' = false.
Proof.
  exists (L "SELECT * FROM t "), (L "a = 1 OR b = 2 AND containsx = 2"), (L "containsx = 2 AND a = 1 OR b = 2").
  eexists. exists (fun ws => match ws with w :: _ => text_eqb w (L "a") | [] => false end).
  split; [vm_compute; reflexivity|]. split; [reflexivity|]. split; [intros fmt; vm_compute; reflexivity|]. split; vm_compute; reflexivity.
Qed.
Print Assumptions C18_column_refuted.

(** ** C39: a UNION behind a geometry that stands behind a condition is refused; it is accepted if the geometry is in front. *)
Theorem C39_union_refuted :
  exists pre a g u, forall tm,
    (exists q, query tm (pre ++ L "WHERE " ++ g ++ L " AND " ++ a ++ u) = Q_ok q) /\
    (exists q, query tm (pre ++ L "WHERE " ++ a ++ L " AND " ++ g) = Q_ok q) /\
    exists x, query tm (pre ++ L "WHERE " ++ a ++ L " AND " ++ g ++ u) = Q_err x.
Proof.
  exists (L "SELECT a FROM t "), (L "a=b"), (L "CONTAINS(p,q)"), (L " UNION SELECT b FROM u"). intros tm.
  assert (T : forall r, match r with Q_ok _ => true | Q_err _ => false end = true -> exists q, r = Q_ok q) by (intros [q|e]; [eauto|discriminate]).
  assert (F : forall r, match r with Q_ok _ => true | Q_err _ => false end = false -> exists x, r = Q_err x) by (intros [q|e]; [discriminate|eauto]).
  split; [|split]; (apply T || apply F); vm_compute; reflexivity.
Qed.
Print Assumptions C39_union_refuted.

(** ** C39: the first WHERE counts, also that of a subquery.  A text in which a bracket is closed between the first WHERE and the last geometry
    that is opened in front is refused. *)
Theorem C39_inner_where_refused :
  forall input pre l g r tl, last_geometry input pre l g r tl -> shallow (peak 0 (l ++ g)) -> ~ well_closed l ->
    forall tm, query tm input = Q_err (E_paren Premature_I).
Proof.
  intros input pre l g r tl H Sh N tm. pose proof (rewrite_exact _ _ _ _ _ _ H) as K. apply (check_premature_I l g Sh) in N. rewrite N in K. unfold query. now rewrite K.
Qed.
Print Assumptions C39_inner_where_refused.
Section Inner.
Let input : text := L "select * from (select a from t where b=1) as u where c=1 and contains(p,q)".
Example C39_inner_case : last_geometry input (L "select * from (select a from t ") (L "b=1) as u where c=1") (L "contains(p,q)") [] [] /\
  shallow (peak 0 (L "b=1) as u where c=1" ++ L "contains(p,q)")) /\ ~ well_closed (L "b=1) as u where c=1").
Proof.
  split; [|split; [reflexivity|intros K; now apply K]].
  apply (last_geometry_intro _ _ _ _ _ _ (L "where ") (L " and ") [] [] (L "contains") (L "(p,q)")); try reflexivity; try (apply find_nc_false; reflexivity).
  - exists "b"%char. eexists. split; [reflexivity|discriminate].
  - exists (L "b=1) as u where c="), "1"%char. split; [reflexivity|discriminate].
  - cbn. repeat constructor.
  - repeat constructor; discriminate.
  - exists (L " "), (L "and"), (L " "). repeat split; repeat constructor.
  - constructor.
  - now left.
  - exists (L "contains(p,q"), ")"%char. split; [reflexivity|discriminate].
  - now left.
  - left. constructor.
Qed.
(** The same query is accepted with the geometry in front, or without the condition in the subquery. *)
Theorem C39_inner_where_refuted :
  exists pre w a g, forall tm,
    (exists q, query tm (pre ++ w ++ L ") AS u WHERE " ++ g ++ L " AND " ++ a) = Q_ok q) /\
    (exists q, query tm (pre ++ L ") AS u WHERE " ++ a ++ L " AND " ++ g) = Q_ok q) /\
    exists x, query tm (pre ++ w ++ L ") AS u WHERE " ++ a ++ L " AND " ++ g) = Q_err x.
Proof.
  exists (L "SELECT * FROM (SELECT a FROM t"), (L " WHERE b=1"), (L "c=1"), (L "CONTAINS(p,q)"). intros tm.
  assert (T : forall r, match r with Q_ok _ => true | Q_err _ => false end = true -> exists q, r = Q_ok q) by (intros [q|e]; [eauto|discriminate]).
  assert (F : forall r, match r with Q_ok _ => true | Q_err _ => false end = false -> exists x, r = Q_err x) by (intros [q|e]; [discriminate|eauto]).
  split; [|split]; (apply T || apply F); vm_compute; reflexivity.
Qed.
Print Assumptions C39_inner_where_refuted.
(** A name that ends with WHERE counts, too. *)
Theorem C39_nowhere_refuted :
  exists name name' rest, forall tm,
    (exists q, query tm (L "SELECT " ++ name ++ L " FROM t") = Q_ok q) /\ (exists q, query tm (L "SELECT " ++ name' ++ rest) = Q_ok q) /\
    exists x, query tm (L "SELECT " ++ name ++ rest) = Q_err x.
Proof.
  exists (L "nowhere"), (L "nowhen"), (L " FROM t WHERE a=1 AND CONTAINS(p,q)"). intros tm.
  assert (T : forall r, match r with Q_ok _ => true | Q_err _ => false end = true -> exists q, r = Q_ok q) by (intros [q|e]; [eauto|discriminate]).
  assert (F : forall r, match r with Q_ok _ => true | Q_err _ => false end = false -> exists x, r = Q_err x) by (intros [q|e]; [discriminate|eauto]).
  split; [|split]; (apply T || apply F); vm_compute; reflexivity.
Qed.
Print Assumptions C39_nowhere_refuted.
End Inner.
