(** C04: white space behind a text. *)
From Verif Require Import Query Spec SpecRewrite SpecBehind SpecSystem SpecTrail RewriteNot Properties3 Properties13 Properties27 TrailProofs.

(** Texts without WHERE, or in which no geometry stands behind AND, that do not end with one of the words behind which the grammar looks for
    a byte of another kind (names that merely end with such letters are allowed, like [atlas]): accepted
    with white space behind, too, with the same result.
    Missing: texts that end with such a word, or with such letters behind a digit or behind another word
    (like [t2on] or [maxon]); texts that are rewritten are below. *)
Theorem C04_white_behind_partial :
  forall tm i w q, ~ occurs_nc (L "WHERE") i \/ geometries_behind (fun a => ~ ends_with_and a) i -> ~ open_end i -> white w ->
    query tm i = Q_ok q -> query tm (i ++ w) = Q_ok q.
Proof.
  intros tm i w q H N W. destruct (left_alone_behind i w H W) as [E E']. unfold query. rewrite E, E'. pose proof (parse_behind tm i w N W) as X. intros K. now rewrite K in X.
Qed.
Print Assumptions C04_white_behind_partial.
Definition t1 : text := L "select a from t WHERE contains(p,q) and b=1".
Example C04_white_behind_case : geometries_behind (fun a => ~ ends_with_and a) t1 /\ ~ open_end t1 /\ exists q, query default_mapping t1 = Q_ok q.
Proof.
  split; [intros a w b E W; apply where_not_and; revert a w b E W; apply behind_where_b_sound; vm_compute; reflexivity|]. split; [apply open_endb_false; vm_compute; reflexivity|]. eexists. vm_compute. reflexivity.
Qed.

(** a name that ends with the letters of AND, of AS and of ON *)
Definition t2 : text := L "select sand,atlas from moon".
Example C04_white_behind_name : (~ occurs_nc (L "WHERE") t2) /\ ~ open_end t2 /\ exists q, query default_mapping t2 = Q_ok q.
Proof.
  split; [apply find_nc_false; vm_compute; reflexivity|]. split; [apply open_endb_false; vm_compute; reflexivity|]. eexists. vm_compute. reflexivity.
Qed.

(** The other way round: with the white space taken away the text is accepted with the same result, or the
    constructor complains about a missing part.  (So nothing but the words is lost.) *)
Theorem C04_white_behind_removed_partial :
  forall tm i w q, ~ occurs_nc (L "WHERE") i \/ geometries_behind (fun a => ~ ends_with_and a) i -> ~ open_end i -> white w ->
    query tm (i ++ w) = Q_ok q -> query tm i = Q_ok q \/ (exists t, query tm i = Q_err (E_expect t)) \/ (exists n, query tm i = Q_err (E_table n)).
Proof.
  intros tm i w q H N W. destruct (left_alone_behind i w H W) as [E E']. unfold query. rewrite E, E'. pose proof (parse_behind tm i w N W) as X. intros K. rewrite K in X.
  pose proof (parse_errors tm i) as F. destruct (parse_it tm i) as [q'|e]; [left; congruence|]. specialize (F e eq_refl).
  destruct e; try contradiction; eauto; [now destruct X|destruct X as (w' & _ & X); discriminate].
Qed.
Print Assumptions C04_white_behind_removed_partial.

Example C04_white_behind_removed_case : geometries_behind (fun a => ~ ends_with_and a) t1 /\ ~ open_end t1 /\ exists q, query default_mapping (t1 ++ L "  ") = Q_ok q.
Proof. destruct C04_white_behind_case as (H & N & q & Q). split; [exact H|]. split; [exact N|]. exists q. apply C04_white_behind_partial; [right; exact H|exact N|repeat constructor|exact Q]. Qed.

(** Texts of the form that is rewritten: blanks behind are irrelevant, accepted or not. *)
Theorem C04_blanks_behind_rewritten_partial :
  forall tm i pre l g r tl b, behind_conditions i pre l g r tl -> blank b -> query tm (i ++ b) = query tm i.
Proof.
  intros tm i pre l g r tl b (G & D) B. unfold query. rewrite (is_moved _ _ _ _ _ _ (conj G D)).
  now rewrite (is_moved _ _ _ _ _ _ (conj (last_geometry_behind _ _ _ _ _ _ _ G B) D)).
Qed.
Print Assumptions C04_blanks_behind_rewritten_partial.
Example C04_blanks_behind_rewritten_case : exists i pre l g, behind_conditions i pre l g [] [] /\ exists q, query default_mapping i = Q_ok q.
Proof. pose proof C24_rewritten_case as (H & _ & _ & Q). do 4 eexists. split; [exact H|exact Q]. Qed.
