(** C39: a geometry written behind other conditions. *)
From Verif Require Import Query Print Spec SpecLexical SpecRewrite SpecSpelling SpecSystem SpecFlags SpecCanon SpecNorm SpecNodes SpecUsual SpecBehind SpecMoved RewriteNot RewriteSound FlagProofs MovedProofs Properties3 Properties12.

(** A text whose last geometry [g] stands behind AND and another condition [l] ([last_geometry],
    SpecRewrite.v) gets the answer of the text with the geometry first, followed by [l] and by the
    conditions [r] that stood behind it; also if one pair of parentheses encloses [l] and [g].  (What
    stood behind the WHERE clause is lost: C17.) *)
Theorem C39_same_answer_partial :
  forall tm input pre l g r tl, last_geometry input pre l g r tl -> ~ In "$"%char (l ++ g ++ r) -> shallow (peak 0 (l ++ g)) ->
    (balanced l -> well_closed g -> geometries_behind (fun a => ~ ends_with_and a) (moved pre l g r) ->
     query tm input = query tm (moved pre l g r)) /\
    (forall l' g', enclosed l g l' g' -> geometries_behind (fun a => ~ ends_with_and a) (moved pre l' g' r) ->
     query tm input = query tm (moved pre l' g' r)).
Proof.
  intros tm input pre l g r tl G D S. destruct (C19_intended_form_partial input pre l g r tl G D S) as [P Q]. split.
  - intros B W N. unfold query. now rewrite (Q B W), (not_behind_and _ N).
  - intros l' g' E N. unfold query. now rewrite (P l' g' E), (not_behind_and _ N).
Qed.
Print Assumptions C39_same_answer_partial.

(** Canonical conditions [c1], [c2] around a geometry in any spelling, in any canonical query: the text
    is accepted, the geometry is recorded as such and [c1 AND c2] as the other condition. *)
Theorem C39_behind_conditions_partial :
  forall tm fmt q q' input pre c1 g c2 tl,
    last_geometry input pre (pr_sc fmt c1) g (pr_osc fmt c2) tl -> ~ In "$"%char (pr_sc fmt c1 ++ g ++ pr_osc fmt c2) ->
    shallow (peak 0 (pr_sc fmt c1 ++ g)) -> balanced (pr_sc fmt c1) -> well_closed g ->
    c_sc fmt c1 = true -> match c2 with Some c => c_sc fmt c = true | None => True end -> canonical fmt q = true ->
    query_spelt fmt q (pre ++ L "WHERE " ++ g ++ L " AND " ++ pr_sc fmt (joined c1 c2)) q' ->
    query tm input = Q_ok q' /\ to_string fmt q' = to_string fmt q.
Proof.
  intros tm fmt q q' input pre c1 g c2 tl G D S B W C1 C2 C Q.
  rewrite <- moved_joined in Q by assumption. unfold query.
  rewrite (proj2 (C19_intended_form_partial _ _ _ _ _ _ G D S) B W). split; [now apply (parse_spelt tm fmt q)|exact (query_print fmt _ _ _ Q)].
Qed.
Print Assumptions C39_behind_conditions_partial.
(** For one SELECT: the text determines the structure. *)
Theorem C39_one_select_partial :
  forall tm fmt s ts p f g gm c1 c2 tl,
    let pre := pr_select fmt s ++ L " FROM " ++ join (L ", ") (map (pr_tref fmt) ts) ++ L " " in
    let input := pre ++ L "WHERE " ++ pr_sc fmt c1 ++ L " AND " ++ g ++ match c2 with Some c => L " AND " ++ pr_sc fmt c | None => [] end ++ tl in
    last_geometry input pre (pr_sc fmt c1) g (pr_osc fmt c2) tl -> ~ In "$"%char (pr_sc fmt c1 ++ g ++ pr_osc fmt c2) ->
    shallow (peak 0 (pr_sc fmt c1 ++ g)) -> balanced (pr_sc fmt c1) -> well_closed g ->
    c_sc fmt c1 = true -> match c2 with Some c => c_sc fmt c = true | None => True end ->
    canonical fmt (QS None (SFW s ts (Where (Some (G_right p f)) (Some (joined c1 c2)))) [] [] None []) = true ->
    geometry_spelt fmt p f g gm ->
    query tm input = Q_ok (QS None (SFW s ts (Where (Some gm) (Some (joined c1 c2)))) [] [] None []).
Proof.
  intros tm fmt s ts p f g gm c1 c2 tl pre input G D S B W C1 C2 C Q.
  eapply (C39_behind_conditions_partial tm fmt _ _ input pre c1 g c2 tl G D S B W C1 C2 C).
  pose proof (qs_query fmt None _ _ _ _ _ _ [] None [] (ss_sfw fmt s ts _ _ _ (ws_both fmt p f g gm (joined c1 c2) Q)) (as_nil fmt)) as R.
  cbn [app is_nil] in R. rewrite !app_nil_r in R. unfold pre. rewrite <- !app_assoc. exact R.
Qed.
Print Assumptions C39_one_select_partial.
Section Case.
Let fmt : text -> text := fun x => x.
Let col (c : string) : venb := VENB (Factor [] (NP_vep (VEP (VP_col (CR1 (L c))) []))) [].
Let eq (a b : string) : bfac := BF [] (BP_pred (P_cmp (col a) (L "=") (VE_nb (col b)))).
Let star : select := Select [] top_none (C_star (L "*")).
Let p : gpred := GP_contains (Soc_col (CR1 (L "p"))) (Soc_col (CR1 (L "q"))).
Let c1 : sc := SC_t (eq "a" "b") (L "AND") (SC_f (BF [] (BP_sc (SC_t (eq "c" "d") (L "OR") (SC_f (eq "e" "f")))))).
Let c2 : sc := SC_f (eq "g" "h").
Let pre : text := L "SELECT * FROM t ".
Let g : text := L "0 = CONTAINS(p,q)".
Let input : text := L "SELECT * FROM t WHERE a = b AND (c = d OR e = f) AND 0 = CONTAINS(p,q) AND g = h".
Example C39_case_form : last_geometry input pre (pr_sc fmt c1) g (pr_osc fmt (Some c2)) [].
Proof.
  change (last_geometry input pre (L "a = b AND (c = d OR e = f)") g (L "g = h") []).
  apply (last_geometry_intro _ _ _ _ _ _ (L "WHERE ") (L " AND ") (L " AND ") (L "0 = ") (L "CONTAINS") (L "(p,q)"));
    try reflexivity; try (apply find_nc_false; reflexivity).
  - exists "a"%char. eexists. split; [reflexivity|discriminate].
  - exists (L "a = b AND (c = d OR e = f"), ")"%char. split; [reflexivity|discriminate].
  - cbn. lia.
  - repeat constructor; discriminate.
  - exists [" "%char], (L "AND"), [" "%char]. repeat split; repeat constructor.
  - apply (flag_some "0" (L " ") (L " ")); [now left|repeat constructor|repeat constructor].
  - now left.
  - exists (L "0 = CONTAINS(p,q"), ")"%char. split; [reflexivity|discriminate].
  - right. split; [exists [" "%char], (L "AND"), [" "%char]; repeat split; repeat constructor|].
    split; [right; eexists; reflexivity|]. split; [exists "g"%char; eexists; split; [reflexivity|discriminate]|].
    split; [exists (L "g = "), "h"%char; split; [reflexivity|discriminate]|]. split; [cbn; lia|].
    repeat split; apply find_nc_false; reflexivity.
  - left. constructor.
Qed.
Example C39_case : forall tm,
  query tm input = Q_ok (QS None (SFW star [TR_tc (L "t") []] (Where (Some (G_left (L "0") p)) (Some (joined c1 (Some c2))))) [] [] None []).
Proof.
  intros tm. apply (C39_one_select_partial tm fmt star [TR_tc (L "t") []] p (L "0") g (G_left (L "0") p) c1 (Some c2) []).
  - exact C39_case_form.
  - cbn. intuition discriminate.
  - reflexivity.
  - reflexivity.
  - discriminate.
  - reflexivity.
  - reflexivity.
  - reflexivity.
  - apply (gs_front fmt p (L "CONTAINS(p,q)") (L "0") (L " ") (L " ")); [exists (L "p"), (L "q"); repeat split|repeat constructor|repeat constructor].
Qed.
Example C39_case_same : geometries_behind (fun a => ~ ends_with_and a) (moved (L "SELECT * FROM t ") (L "a=b") (L "CONTAINS(p,q)") []).
Proof. intros a w b E G. apply where_not_and. exact (behind_where_b_sound (moved (L "SELECT * FROM t ") (L "a=b") (L "CONTAINS(p,q)") []) eq_refl a w b E G). Qed.
End Case.

(** As stated the property is false: with a new line inside the conditions in front nothing is moved and
    the query is refused, although it is accepted with a blank instead, or with the geometry in front. *)
Theorem C39_new_line_refuted :
  exists pre a b g, forall tm, let nl := [ascii_of_nat 10] in
    (exists q, query tm (pre ++ L "WHERE " ++ a ++ L " AND " ++ b ++ L " AND " ++ g) = Q_ok q) /\
    (exists q, query tm (pre ++ L "WHERE " ++ g ++ nl ++ L "AND " ++ a ++ nl ++ L "AND " ++ b) = Q_ok q) /\
    exists x, query tm (pre ++ L "WHERE " ++ a ++ nl ++ L "AND " ++ b ++ L " AND " ++ g) = Q_err x.
Proof.
  exists (L "SELECT * FROM t "), (L "a=b"), (L "c=d"), (L "CONTAINS(p,q)"). intros tm nl.
  assert (T : forall r, match r with Q_ok _ => true | Q_err _ => false end = true -> exists q, r = Q_ok q) by (intros []; [eauto|discriminate]).
  assert (F : forall r, match r with Q_ok _ => true | Q_err _ => false end = false -> exists x, r = Q_err x) by (intros []; [discriminate|eauto]).
  split; [|split]; (apply T || apply F); vm_compute; reflexivity.
Qed.
Print Assumptions C39_new_line_refuted.
