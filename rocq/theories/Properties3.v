(** C17-C21, C34: the rewriting of WHERE clauses in front of the parser. *)
From Verif Require Import Query TextLemmas Spec SpecRewrite ParenProofs RewriteSound RewriteMain MeaningProofs.

(** Deciding [occurs_nc], for the examples. *)
Fixpoint find_nc (w t : text) : bool :=
  match strip true w t with Some _ => true | None => match t with [] => false | _ :: t' => find_nc w t' end end.
Lemma find_nc_false w t : find_nc w t = false -> ~ occurs_nc w t.
Proof.
  induction t as [|c t IH]; cbn [find_nc]; (destruct (strip true w _) as [[a b]|] eqn:E; [discriminate|]); intros F (a & m & b & Eq & U);
    rewrite strip_nc_none in E.
  - symmetry in Eq. apply app_eq_nil in Eq as [-> Eq]. apply (E m b); auto.
  - destruct a as [|x a]; [apply (E m b); auto|]. injection Eq as <- Eq. apply IH; [exact F|]. exists a, m, b. auto.
Qed.

(** A text of the intended form, used as the non-trivial case below. *)
Definition sample3 : text := L "select * from t where a=1 and (b=2 or c=3) AND 1=contains(p,q) and d=4 order by e".
Example sample3_form :
  last_geometry sample3 (L "select * from t ") (L "a=1 and (b=2 or c=3)") (L "1=contains(p,q)") (L "d=4") (L " order by e").
Proof.
  apply (last_geometry_intro _ _ _ _ _ _ (L "where ") (L " AND ") (L " and ") (L "1=") (L "contains") (L "(p,q)"));
    try reflexivity; try (apply find_nc_false; reflexivity).
  - exists "a"%char. eexists. split; [reflexivity|discriminate].
  - exists (L "a=1 and (b=2 or c=3"), ")"%char. split; [reflexivity|discriminate].
  - cbn. lia.
  - repeat constructor; discriminate.
  - exists [" "%char], (L "AND"), [" "%char]. repeat split; repeat constructor.
  - apply (flag_some "1" [] []); [now right|constructor|constructor].
  - now left.
  - exists (L "1=contains(p,q"), ")"%char. split; [reflexivity|discriminate].
  - right. split; [exists [" "%char], (L "and"), [" "%char]; repeat split; repeat constructor|].
    split; [right; eexists; reflexivity|]. split; [exists "d"%char; eexists; split; [reflexivity|discriminate]|].
    split; [exists (L "d="), "4"%char; split; [reflexivity|discriminate]|]. split; [cbn; lia|].
    repeat split; apply find_nc_false; reflexivity.
  - right. exists [], (L "order"), (L " by e"). repeat split; [constructor|now right; right].
Qed.

(** ** C34: without WHERE or without a geometry nothing is rewritten. *)
Theorem C34_not_rewritten :
  forall input,
    ~ occurs_nc (L "WHERE") input \/ (~ occurs_nc (L "CONTAINS") input /\ ~ occurs_nc (L "INTERSECTS") input) ->
    preprocess input = inr input.
Proof. exact not_rewritten. Qed.
Print Assumptions C34_not_rewritten.
Example C34_case : ~ occurs_nc (L "CONTAINS") (L "select a from t where b=1 and c=2") /\ ~ occurs_nc (L "INTERSECTS") (L "select a from t where b=1 and c=2").
Proof. split; apply find_nc_false; reflexivity. Qed.

(** ** C19: the rewriting moves text and changes nothing else -- for texts without a dollar sign.
    [wpart] says what the pieces are; the check of the parentheses is characterised by C20. *)
Theorem C19_text_is_moved_partial :
  forall input t, ~ In "$"%char input -> preprocess input = inr t ->
    t = input \/
    exists pre l g r tl l' g', wpart input pre l g r tl /\
      ((l' = l /\ g' = g) \/ (l = "("%char :: l' /\ g = g' ++ [")"%char])) /\
      t = moved pre l' g' r.
Proof.
  intros input t Nd H. destruct (preprocess_exact input t Nd H) as [E|(pre & l & g & r & tl & l' & g' & W & C & E)]; [now left|right].
  exists pre, l, g, r, tl, l', g'. split; [exact W|]. split; [exact (check_shape l g l' g' C)|exact E].
Qed.
Print Assumptions C19_text_is_moved_partial.
(** For texts of the intended form the result is determined. *)
Theorem C19_intended_form_partial :
  forall input pre l g r tl, last_geometry input pre l g r tl -> ~ In "$"%char (l ++ g ++ r) ->
    shallow (peak 0 (l ++ g)) ->
    (forall l' g', enclosed l g l' g' -> preprocess input = inr (moved pre l' g' r)) /\
    (balanced l -> well_closed g -> preprocess input = inr (moved pre l g r)).
Proof. exact rewrite_intended. Qed.
Print Assumptions C19_intended_form_partial.
Example C19_case : preprocess sample3 = inr (moved (L "select * from t ") (L "a=1 and (b=2 or c=3)") (L "1=contains(p,q)") (L "d=4")).
Proof.
  apply (C19_intended_form_partial _ _ _ _ _ _ sample3_form); try reflexivity.
  - cbn. intuition discriminate.
  - discriminate.
Qed.
(** With a dollar sign the copied text is altered: the literal '$2' is replaced by the geometry. *)
Theorem C19_dollar_refuted :
  exists input pre l g t,
    last_geometry input pre l g [] [] /\ balanced l /\ balanced g /\
    preprocess input = inr t /\ t <> moved pre l g [] /\ occurs (L "'$2'") input /\ ~ occurs_nc (L "'$2'") t.
Proof.
  exists (L "select * from t where a='$2' and contains(p,q)"), (L "select * from t "), (L "a='$2'"), (L "contains(p,q)").
  exists (L "select * from t WHERE contains(p,q) AND a='contains(p,q)'").
  split; [|split; [reflexivity|split; [reflexivity|split; [vm_compute; reflexivity|split; [discriminate|split]]]]].
  - apply (last_geometry_intro _ _ _ _ _ _ (L "where ") (L " and ") [] [] (L "contains") (L "(p,q)"));
      try reflexivity; try (apply find_nc_false; reflexivity).
    + exists "a"%char. eexists. split; [reflexivity|discriminate].
    + exists (L "a='$2"), "'"%char. split; [reflexivity|discriminate].
    + cbn. lia.
    + repeat constructor; discriminate.
    + exists [" "%char], (L "and"), [" "%char]. repeat split; repeat constructor.
    + constructor.
    + now left.
    + exists (L "contains(p,q"), ")"%char. split; [reflexivity|discriminate].
    + left. auto.
    + left. constructor.
  - exists (L "select * from t where a="), (L " and contains(p,q)"). reflexivity.
  - apply find_nc_false. reflexivity.
Qed.
Print Assumptions C19_dollar_refuted.

(** ** C17: what follows the WHERE clause is lost, always. *)
Theorem C17_clauses_behind_refuted :
  exists input q, query default_mapping input = Q_ok q /\
    occurs_nc (L "ORDER BY b") input /\ q_order q = [] /\
    exists t, preprocess input = inr t /\ ~ occurs_nc (L "ORDER") t.
Proof.
  exists (L "select * from t where a=1 and contains(p,q) order by b"). eexists. split; [vm_compute; reflexivity|].
  split; [exists (L "select * from t where a=1 and contains(p,q) "), (L "order by b"), []; auto|]. split; [reflexivity|].
  eexists. split; [vm_compute; reflexivity|]. apply find_nc_false. reflexivity.
Qed.
Print Assumptions C17_clauses_behind_refuted.
(** It holds if nothing but blanks follows: then every piece is in the new text, in full. *)
Theorem C17_nothing_behind_partial :
  forall input pre l g r tl, last_geometry input pre l g r tl -> blank tl -> ~ In "$"%char (l ++ g ++ r) ->
    shallow (peak 0 (l ++ g)) -> balanced l -> well_closed g ->
    exists t, preprocess input = inr t /\ occurs pre t /\ occurs l t /\ occurs g t /\ occurs r t.
Proof. exact pieces_kept. Qed.
Print Assumptions C17_nothing_behind_partial.
(** What is dropped is exactly the rest behind the conditions, whatever it is: two texts that
    differ only in it give the same result. *)
Theorem C17_rest_is_ignored :
  forall input input' pre l g r tl tl', last_geometry input pre l g r tl -> last_geometry input' pre l g r tl' ->
    ~ In "$"%char (l ++ g ++ r) -> preprocess input = preprocess input'.
Proof. exact rest_ignored. Qed.
Print Assumptions C17_rest_is_ignored.

(** ** C18: the meaning of the WHERE clause.  It is kept if there is no OR on the left outside of
    parentheses ... *)
Theorem C18_meaning_kept_partial :
  forall input pre l m1 g m2 r tl w v,
    last_geometry input pre l g r tl -> input = pre ++ w ++ (l ++ m1 ++ g ++ m2 ++ r) ++ tl -> spelt "WHERE " w ->
    spaced_and m1 -> (m2 = [] /\ r = []) \/ (spaced_and m2 /\ r <> []) ->
    ~ In "$"%char (l ++ g ++ r) -> shallow (peak 0 (l ++ g)) ->
    (balanced l /\ or_free l /\ balanced g /\ or_free g) \/
    (exists l' g', enclosed l g l' g' /\ or_free l' /\ or_free g' /\ groups v) ->
    exists c', preprocess input = inr (pre ++ L "WHERE " ++ c') /\ truth v c' = truth v (l ++ m1 ++ g ++ m2 ++ r).
Proof. exact meaning_kept. Qed.
Print Assumptions C18_meaning_kept_partial.
Example C18_case : balanced (L "a=1 and (b=2 or c=3)") /\ or_free (L "a=1 and (b=2 or c=3)") /\
  balanced (L "1=contains(p,q)") /\ or_free (L "1=contains(p,q)") /\ spaced_and (L " AND ").
Proof. repeat split. exact spaced_AND. Qed.
(** ... and is not kept with one. *)
Theorem C18_or_refuted :
  exists input pre l g c' v,
    last_geometry input pre l g [] [] /\ balanced l /\ balanced g /\
    input = pre ++ L "where " ++ (l ++ L " and " ++ g) /\
    preprocess input = inr (pre ++ L "WHERE " ++ c') /\ truth v c' = false /\ truth v (l ++ L " and " ++ g) = true.
Proof.
  exists (L "select * from t where a=1 or b=2 and contains(p,q)"), (L "select * from t "), (L "a=1 or b=2"), (L "contains(p,q)").
  exists (L "contains(p,q) AND a=1 or b=2"), (fun ws => match ws with [w] => text_eqb w (L "a=1") | _ => false end).
  split; [|repeat split; try (vm_compute; reflexivity)].
  apply (last_geometry_intro _ _ _ _ _ _ (L "where ") (L " and ") [] [] (L "contains") (L "(p,q)"));
    try reflexivity; try (apply find_nc_false; reflexivity).
  - exists "a"%char. eexists. split; [reflexivity|discriminate].
  - exists (L "a=1 or b="), "2"%char. split; [reflexivity|discriminate].
  - cbn. lia.
  - repeat constructor; discriminate.
  - exists [" "%char], (L "and"), [" "%char]. repeat split; repeat constructor.
  - constructor.
  - now left.
  - exists (L "contains(p,q"), ")"%char. split; [reflexivity|discriminate].
  - left. auto.
  - left. constructor.
Qed.
Print Assumptions C18_or_refuted.

(** ** C20: exactly what check_and_adjust_parens lets through and what it changes. *)
Theorem C20_parenthesis_adjustment_partial :
  forall l g l' g', shallow (peak 0 (l ++ g)) ->
    (check_and_adjust_parens l g = inr (l', g') <->
     enclosed l g l' g' \/
     (l' = l /\ g' = g /\ well_closed g /\ (balanced l \/ exists l0, l = "("%char :: l0 /\ balanced l0))).
Proof. exact check_iff. Qed.
Print Assumptions C20_parenthesis_adjustment_partial.
Example C20_case : shallow (peak 0 (L "(a and (b)" ++ L "contains((p))=1)")) /\
  enclosed (L "(a and (b)") (L "contains((p))=1)") (L "a and (b)") (L "contains((p))=1").
Proof. repeat split. Qed.
(** An opening parenthesis on the left that is never closed is let through; the statement
    "unbalanced conditions are rejected" is false for it. *)
Theorem C20_unclosed_refuted :
  exists l g, check_and_adjust_parens l g = inr (l, g) /\ ~ balanced (l ++ g).
Proof. exists (L "(a"), (L "contains(p,q)"). split; [reflexivity|discriminate]. Qed.
Print Assumptions C20_unclosed_refuted.

(** ** C21: 16 bits. A balanced condition is rejected ... *)
Theorem C21_depth_wraps_refuted :
  exists input pre l g, last_geometry input pre l g [] [] /\ balanced l /\ balanced g /\
    preprocess input = inl Premature_I.
Proof. exact deep_input. Qed.
Print Assumptions C21_depth_wraps_refuted.
(** ... and an unbalanced one accepted. *)
Theorem C21_unbalanced_accepted_refuted :
  exists l g, nest 0 l = Some (N.to_nat 65536) /\ balanced g /\ check_and_adjust_parens l g = inr (l, g).
Proof. exact deep_unbalanced. Qed.
Print Assumptions C21_unbalanced_accepted_refuted.
(** Below 65536 the classification is by the true depth: premature closing is found exactly. *)
Theorem C21_true_depth_partial :
  forall l g, shallow (peak 0 (l ++ g)) ->
    (check_and_adjust_parens l g = inl Premature_I <-> ~ well_closed l) /\
    (forall n, nest 0 l = Some (S (S n)) -> check_and_adjust_parens l g = inl Inappropriate_I).
Proof. exact true_depth. Qed.
Print Assumptions C21_true_depth_partial.
Example C21_case : shallow (peak 0 (L "((a" ++ L "contains(p,q)")) /\ nest 0 (L "((a") = Some 2.
Proof. repeat split. Qed.
