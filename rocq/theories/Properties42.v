(** C57: a text that was rewritten is not rewritten again. *)
From Verif Require Import Query Spec SpecRewrite ParenProofs RewriteMain RewriteTwice Properties3.

(** If the last geometry is the only one, the text with the geometry moved to the front is left alone, and the
    constructor gives the same answer for it.  Missing: texts in which CONTAINS or INTERSECTS stands in front of the last
    geometry, for which it is false (below), and conditions with '$' (C19_dollar_refuted). *)
Theorem C57_once_partial :
  forall input pre l g r tl t, last_geometry input pre l g r tl -> ~ In "$"%char (l ++ g ++ r) ->
    ~ occurs_nc (L "CONTAINS") pre -> ~ occurs_nc (L "INTERSECTS") pre -> ~ occurs_nc (L "CONTAINS") l -> ~ occurs_nc (L "INTERSECTS") l ->
    preprocess input = inr t -> preprocess t = inr t /\ forall tm, query tm t = query tm input.
Proof.
  intros input pre l g r tl t H D C1 I1 C2 I2 P. assert (E : preprocess t = inr t) by (apply (moved_once input pre l g r tl t); try rewrite mentions_nc; tauto).
  split; [exact E|]. intros tm. unfold query. now rewrite E, P.
Qed.
Print Assumptions C57_once_partial.
(** In terms of the pieces of the text. *)
Theorem C57_moved_partial :
  forall input pre l g r tl, last_geometry input pre l g r tl -> ~ In "$"%char (l ++ g ++ r) -> shallow (peak 0 (l ++ g)) ->
    ~ occurs_nc (L "CONTAINS") pre -> ~ occurs_nc (L "INTERSECTS") pre -> ~ occurs_nc (L "CONTAINS") l -> ~ occurs_nc (L "INTERSECTS") l ->
    balanced l -> well_closed g -> forall tm, query tm (moved pre l g r) = query tm input.
Proof.
  intros input pre l g r tl H D Sh C1 I1 C2 I2 Bl Wg. destruct (rewrite_intended _ _ _ _ _ _ H D Sh) as [_ P].
  apply (C57_once_partial input pre l g r tl _ H D C1 I1 C2 I2 (P Bl Wg)).
Qed.
Print Assumptions C57_moved_partial.
Example C57_case :
  last_geometry sample3 (L "select * from t ") (L "a=1 and (b=2 or c=3)") (L "1=contains(p,q)") (L "d=4") (L " order by e") /\
  ~ In "$"%char (L "a=1 and (b=2 or c=3)" ++ L "1=contains(p,q)" ++ L "d=4") /\ shallow (peak 0 (L "a=1 and (b=2 or c=3)" ++ L "1=contains(p,q)")) /\
  ~ occurs_nc (L "CONTAINS") (L "select * from t ") /\ ~ occurs_nc (L "INTERSECTS") (L "select * from t ") /\
  ~ occurs_nc (L "CONTAINS") (L "a=1 and (b=2 or c=3)") /\ ~ occurs_nc (L "INTERSECTS") (L "a=1 and (b=2 or c=3)") /\
  balanced (L "a=1 and (b=2 or c=3)") /\ well_closed (L "1=contains(p,q)") /\
  exists q, query default_mapping sample3 = Q_ok q.
Proof.
  split; [exact sample3_form|]. split; [vm_compute; intuition discriminate|]. split; [reflexivity|]. do 4 (split; [apply find_nc_false; reflexivity|]). split; [reflexivity|]. split; [discriminate|].
  destruct (query default_mapping sample3) as [q|e] eqn:Q; [now exists q|vm_compute in Q; discriminate].
Qed.

(** The same without an assumption on the form: for every text without '$' in which at most one CONTAINS or INTERSECTS occurs. *)
Theorem C57_single_partial :
  forall input t, ~ In "$"%char input ->
    (forall a w b a' w' b', input = a ++ w ++ b -> geometry_word w -> input = a' ++ w' ++ b' -> geometry_word w' -> a = a') ->
    preprocess input = inr t -> preprocess t = inr t /\ forall tm, query tm t = query tm input.
Proof.
  intros input t D U P. pose proof (single_again input t D U P) as E. split; [exact E|]. intros tm. unfold query. now rewrite E, P.
Qed.
Print Assumptions C57_single_partial.
Example C57_single_case : let input := L "select * from t where a=1 and contains(p,q)" in
  (forall a w b a' w' b', input = a ++ w ++ b -> geometry_word w -> input = a' ++ w' ++ b' -> geometry_word w' -> a = a') /\
  preprocess input = inr (L "select * from t WHERE contains(p,q) AND a=1").
Proof.
  intros input. split; [|vm_compute; reflexivity].
  assert (X : forall a w b, input = a ++ w ++ b -> geometry_word w -> a = L "select * from t where a=1 and ").
  { intros a w b E W. assert (S : exists w', w = w' ++ skipn (length w') w /\ length w' = 4 /\ (upper w' = L "CONT" \/ upper w' = L "INTE")).
    { exists (firstn 4 w). destruct W as [W|W]; (assert (Ln : length w = length (upper w)) by (unfold upper; now rewrite map_length)); rewrite W in Ln; cbn in Ln;
      (split; [rewrite firstn_length_le by (rewrite Ln; repeat constructor); now rewrite firstn_skipn|]); (split; [apply firstn_length_le; rewrite Ln; repeat constructor|]);
      [left|right]; unfold upper; rewrite <- firstn_map; unfold spelt, upper in W; rewrite W; reflexivity. }
    destruct S as (w' & Ew & _ & S). rewrite Ew in E. rewrite <- app_assoc in E. remember (skipn (length w') w ++ b) as z. clear -E S.
    destruct w' as [|c1 [|c2 [|c3 [|c4 [|c5 w']]]]]; try (destruct S; discriminate).
    unfold input in E. cbn [L list_ascii_of_string app] in E.
    do 44 (destruct a as [|? a]; [cbn [app] in E; try discriminate E; injection E as <- <- <- <- _; destruct S as [S|S]; try discriminate S; reflexivity
      |cbn [app] in E; try discriminate E; injection E as <- E]).
    all: try discriminate E. }
  intros a w b a' w' b' E W E' W'. now rewrite (X a w b E W), (X a' w' b' E' W').
Qed.

(** With a column whose name starts with CONTAINS in front of the geometry the rewritten text is rewritten again, to a text that is
    refused: the text is accepted, the one that was handed to the grammar is not. *)
Theorem C57_again_refuted :
  exists input t, preprocess input = inr t /\ forall tm, (exists q, query tm input = Q_ok q) /\ exists e, query tm t = Q_err e.
Proof.
  exists (L "select * from t where b=1 and containsx=2 and contains(p,q)"), (L "select * from t WHERE contains(p,q) AND b=1 and containsx=2").
  split; [vm_compute; reflexivity|]. intros tm.
  assert (T : forall r, match r with Q_ok _ => true | Q_err _ => false end = true -> exists q, r = Q_ok q) by (intros [q|e]; [eauto|discriminate]).
  assert (F : forall r, match r with Q_ok _ => true | Q_err _ => false end = false -> exists x, r = Q_err x) by (intros [q|e]; [discriminate|eauto]).
  split; (apply T || apply F); vm_compute; reflexivity.
Qed.
Print Assumptions C57_again_refuted.
