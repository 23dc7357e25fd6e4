(** C18, C39, C04: conditions of one or two characters, and names with a keyword in them, next to a geometry. *)
From Verif Require Import Query Print Spec SpecRewrite SpecShort Properties3 RewriteShort.

(** ** C18: AND and a condition of one character behind the last geometry are dropped, whatever stands in front; AND without a
    condition behind it, too. *)
Theorem C18_short_condition_dropped :
  forall kept pre l g m s, short_end kept pre l g m s -> ~ In "$"%char (l ++ g) ->
    forall tm, query tm (kept ++ m ++ s) = query tm kept.
Proof. intros kept pre l g m s H D tm. unfold query. now rewrite (short_dropped _ _ _ _ _ _ H D). Qed.
Print Assumptions C18_short_condition_dropped.
Local Definition kept : text := L "select * from t where a=1 and contains(p,q)=1".
Example C18_short_case : forall s, s = [] \/ s = L "b" -> short_end kept (L "select * from t ") (L "a=1") (L "contains(p,q)=1") (L " and ") s.
Proof.
  intros s S. apply (short_end_intro _ _ _ _ _ _ (L "where ") (L " and ") [] (L "contains") (L "(p,q)=1")).
  - reflexivity.
  - reflexivity.
  - apply find_nc_false. reflexivity.
  - exists "a"%char. eexists. split; [reflexivity|discriminate].
  - exists (L "a="), "1"%char. split; [reflexivity|discriminate].
  - cbn. auto.
  - destruct S as [ -> | -> ]; repeat constructor; discriminate.
  - exists (L " "), (L "and"), (L " "). repeat split; repeat constructor.
  - reflexivity.
  - constructor.
  - now left.
  - exists (L "contains(p,q)="), "1"%char. split; [reflexivity|discriminate].
  - apply find_nc_false. reflexivity.
  - apply find_nc_false. reflexivity.
  - apply find_nc_false. reflexivity.
  - apply find_nc_false. reflexivity.
  - exists (L " "), (L "and"), (L " "). repeat split; repeat constructor.
  - right. now eexists.
  - destruct S as [ -> | -> ]; [now left|right; exists "b"%char; split; [reflexivity|discriminate]].
  - destruct S as [ -> | -> ]; apply find_nc_false; reflexivity.
  - destruct S as [ -> | -> ]; apply find_nc_false; reflexivity.
Qed.

(** The meaning of an accepted query is lost: the condition on b does not reach the query. *)
Theorem C18_short_refuted :
  exists input q, query default_mapping input = Q_ok q /\ query default_mapping (input ++ L " and b") = Q_ok q /\
    exists q', query default_mapping (input ++ L " and bb") = Q_ok q' /\ q' <> q.
Proof.
  exists kept. edestruct (query default_mapping kept) as [q|e] eqn:Q; [|vm_compute in Q; discriminate]. exists q. split; [reflexivity|]. split.
  - rewrite <- Q. apply (C18_short_condition_dropped _ _ _ _ (L " and ") (L "b") (C18_short_case (L "b") (or_intror eq_refl))). vm_compute. intuition discriminate.
  - destruct (query default_mapping (kept ++ L " and bb")) as [q'|e] eqn:Q'; [|vm_compute in Q'; discriminate]. exists q'. split; [reflexivity|].
    intros ->. rewrite <- Q in Q'. vm_compute in Q'. discriminate Q'.
Qed.
Print Assumptions C18_short_refuted.

(** ** C18: HAVING in the middle of a word behind the last geometry: it and everything behind it are dropped. *)
Theorem C18_having_dropped :
  forall kept pre l g m r k u, cut_end kept pre l g m r k u -> ~ In "$"%char (l ++ g ++ r) ->
    forall tm, query tm (kept ++ m ++ r ++ k ++ u) = query tm (kept ++ m ++ r).
Proof. intros kept pre l g m r k u H D tm. unfold query. now rewrite (cut_dropped _ _ _ _ _ _ _ _ H D). Qed.
Print Assumptions C18_having_dropped.
Example C18_having_case : cut_end kept (L "select * from t ") (L "a=1") (L "contains(p,q)=1") (L " and ") (L "c=d and s") (L "having") (L ">2").
Proof.
  apply (cut_end_intro _ _ _ _ _ _ _ _ (L "where ") (L " and ") [] (L "contains") (L "(p,q)=1")).
  all: try reflexivity.
  all: try (apply find_nc_false; reflexivity).
  - exists "a"%char. eexists. split; [reflexivity|discriminate].
  - exists (L "a="), "1"%char. split; [reflexivity|discriminate].
  - cbn. auto.
  - repeat constructor; discriminate.
  - exists (L " "), (L "and"), (L " "). repeat split; repeat constructor.
  - constructor.
  - now left.
  - exists (L "contains(p,q)="), "1"%char. split; [reflexivity|discriminate].
  - exists (L " "), (L "and"), (L " "). repeat split; repeat constructor.
  - right. now eexists.
  - exists "c"%char. eexists. split; [reflexivity|discriminate].
  - exists (L "c=d and "), "s"%char. split; [reflexivity|discriminate].
  - cbn. repeat constructor.
Qed.

Section Witness.
Let T : forall r, match r with Q_ok _ => true | Q_err _ => false end = true -> exists q, r = Q_ok q.
Proof. intros [q|e]; [eauto|discriminate]. Qed.
Let F : forall r, match r with Q_ok _ => true | Q_err _ => false end = false -> exists x, r = Q_err x.
Proof. intros [q|e]; [discriminate|eauto]. Qed.

(** ** C39: a condition of one or two characters in front of the geometry is refused, although it is accepted behind it. *)
Theorem C39_short_refuted :
  exists pre a g, forall tm,
    (exists q, query tm (pre ++ L "WHERE " ++ g ++ L " AND " ++ a) = Q_ok q) /\
    (exists q, query tm (pre ++ L "WHERE " ++ a ++ a ++ L " AND " ++ g) = Q_ok q) /\
    exists x, query tm (pre ++ L "WHERE " ++ a ++ L " AND " ++ g) = Q_err x.
Proof.
  exists (L "SELECT * FROM t "), (L "bb"), (L "CONTAINS(p,q)"). intros tm.
  split; [|split]; (apply T || apply F); vm_compute; reflexivity.
Qed.
Print Assumptions C39_short_refuted.

(** ** C18: HAVING inside of a name behind the geometry ends the condition; the rest of the name and what follows are dropped. *)
Theorem C18_having_refuted :
  exists input q, query default_mapping (input ++ L " and c=d and shaving>2") = Q_ok q /\ query default_mapping (input ++ L " and c=d and s") = Q_ok q /\
    exists q', query default_mapping (input ++ L " and c=d and shoving>2") = Q_ok q' /\ q' <> q.
Proof.
  exists kept. destruct (query default_mapping (kept ++ L " and c=d and s")) as [q|e] eqn:Q; [|vm_compute in Q; discriminate]. exists q.
  split; [rewrite <- Q; vm_compute; reflexivity|]. split; [reflexivity|].
  destruct (query default_mapping (kept ++ L " and c=d and shoving>2")) as [q'|e] eqn:Q'; [|vm_compute in Q'; discriminate]. exists q'. split; [reflexivity|].
  intros ->. rewrite <- Q in Q'. vm_compute in Q'. discriminate Q'.
Qed.
Print Assumptions C18_having_refuted.

(** ** C39: AND inside of a name in the geometry ends the geometry: the query is refused, although it is accepted with another
    name, or with the geometry in front. *)
Theorem C39_name_refuted :
  exists pre a g g', forall tm,
    (exists q, query tm (pre ++ L "WHERE " ++ g ++ L " AND " ++ a) = Q_ok q) /\
    (exists q, query tm (pre ++ L "WHERE " ++ a ++ L " AND " ++ g') = Q_ok q) /\
    exists x, query tm (pre ++ L "WHERE " ++ a ++ L " AND " ++ g) = Q_err x.
Proof.
  exists (L "SELECT * FROM t "), (L "a=b"), (L "CONTAINS(p,band)"), (L "CONTAINS(p,bend)"). intros tm.
  split; [|split]; (apply T || apply F); vm_compute; reflexivity.
Qed.
Print Assumptions C39_name_refuted.
(** The same with a name that starts with GROUP or ORDER in the condition behind the geometry. *)
Theorem C39_order_refuted :
  exists pre a g b b', forall tm,
    (exists q, query tm (pre ++ L "WHERE " ++ g ++ L " AND " ++ b) = Q_ok q) /\
    (exists q, query tm (pre ++ L "WHERE " ++ a ++ L " AND " ++ g ++ L " AND " ++ b') = Q_ok q) /\
    exists x, query tm (pre ++ L "WHERE " ++ a ++ L " AND " ++ g ++ L " AND " ++ b) = Q_err x.
Proof.
  exists (L "SELECT * FROM t "), (L "a=b"), (L "CONTAINS(p,q)"), (L "c = groups"), (L "c = troups"). intros tm.
  split; [|split]; (apply T || apply F); vm_compute; reflexivity.
Qed.
Print Assumptions C39_order_refuted.

(** ** C04: a blank behind the text brings the dropped condition back. *)
Theorem C04_short_refuted :
  exists input q q', query default_mapping input = Q_ok q /\ query default_mapping (input ++ L " ") = Q_ok q' /\ q <> q'.
Proof.
  exists (kept ++ L " and b").
  destruct (query default_mapping (kept ++ L " and b")) as [q|e] eqn:Q; [|vm_compute in Q; discriminate].
  destruct (query default_mapping ((kept ++ L " and b") ++ L " ")) as [q'|e] eqn:Q'; [|vm_compute in Q'; discriminate].
  exists q, q'. split; [reflexivity|]. split; [reflexivity|]. intros <-. rewrite <- Q in Q'. vm_compute in Q'. discriminate Q'.
Qed.
Print Assumptions C04_short_refuted.
End Witness.
