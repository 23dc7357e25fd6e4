(** The rewriting in general: what is rewritten has a WHERE, a condition, AND and a geometry. *)
From Verif Require Import Preprocess RegexProps RegexPrio TextLemmas Spec SpecRewrite ParenProofs RewriteProofs RewriteBest.

Lemma format_plain m n s : ~ In "$"%char s -> format m n s = s.
Proof.
  induction s as [|c s IH]; intros H; cbn [format]; [reflexivity|].
  destruct (Ascii.eqb_spec c "$") as [->|N]; [exfalso; apply H; now left|]. rewrite IH; [reflexivity|]. intros K; apply H; now right.
Qed.

Lemma search_best input mm : search the_regex input = Some mm ->
  input = m_pre mm ++ m_all mm /\ m_suf mm = [] /\ best (m_all mm) (m_caps mm) /\
  (forall p1 p2, m_pre mm = p1 ++ p2 -> p2 <> [] -> forall c i' c', ~ rm the_regex (p2 ++ m_all mm) c i' c').
Proof.
  unfold search. intros H.
  enough (G : forall i pre, search_from the_regex pre i = Some mm ->
    exists p, m_pre mm = pre ++ p /\ i = p ++ m_all mm /\ m_suf mm = [] /\ best (m_all mm) (m_caps mm) /\
    forall p1 p2, p = p1 ++ p2 -> p2 <> [] -> forall c i' c', ~ rm the_regex (p2 ++ m_all mm) c i' c').
  { destruct (G _ _ H) as (p & -> & E & S & B & N). cbn. auto. }
  induction i as [|a i IH]; intros pre; cbn [search_from]; fold kf;
    (destruct (mt the_regex _ [] kf) as [[i' c']|] eqn:E;
     [apply the_best in E as [-> B]; intros K; injection K as <-; cbn; exists []; rewrite app_nil_r|]).
  - split; [auto|]. split; [reflexivity|]. split; [auto|]. split; [exact B|]. intros p1 p2 Hp N. destruct p1; [cbn in Hp; congruence|discriminate].
  - discriminate.
  - rewrite firstn_all.
    split; [auto|]. split; [reflexivity|]. split; [auto|]. split; [exact B|]. intros p1 p2 Hp N. destruct p1; [cbn in Hp; congruence|discriminate].
  - intros K. apply IH in K as (p & Hp & Hi & Hs & B & N). exists (a :: p). rewrite Hp, <- app_assoc. cbn. repeat split; auto; [congruence|].
    intros p1 p2 Ep Np c i' c' R. destruct p1 as [|b p1].
    + cbn in Ep. subst p2. cbn in R. rewrite <- Hi in R. revert R. refine (mt_none the_regex _ _ kf eq_refl eq_refl _ E _ _ _). discriminate.
    + injection Ep as <- Ep. eapply N; eauto.
Qed.
Lemma search_none input : search the_regex input = None -> forall p j, input = p ++ j -> forall c i' c', ~ rm the_regex j c i' c'.
Proof.
  intros H p j E c i' c' R. destruct (rm_caps _ _ _ _ _ R eq_refl []) as (e & R'). revert R'. unfold search in H.
  eapply (search_from_none the_regex eq_refl); eauto.
Qed.

Lemma best_wpart pre i c : best i c -> wpart (pre ++ i) pre (cap_str 1 c) (cap_str 2 c) (cap_str 3 c) (cap_str 4 c).
Proof.
  intros [w a m b m1 f gw d m2 r tl l Ei W Na Nb Nm Om M1 F G Od A Hmax Hmin Hr Ot C1 C2 C3 C4].
  rewrite C1, C2, C3, C4. apply (wpart_intro _ _ _ _ _ _ w m1 m2).
  - rewrite Ei. now rewrite <- !app_assoc.
  - exact W.
  - exists a, (m ++ [b]). auto.
  - exists (a :: m), b. auto.
  - unfold l. cbn. rewrite app_length. cbn. destruct m; [congruence|cbn; lia].
  - exact M1.
  - exists f, gw, d. auto.
  - destruct Hr as [(-> & -> & _)|(M2 & A2 & x & y & r1 & -> & Nx & O1 & _)]; [now left|right]. split; [exact M2|]. split; [exists x, (y :: r1); auto|cbn; lia].
Qed.

Lemma wpart_input input pre l g r tl c : wpart input pre l g r tl -> In c (l ++ g ++ r) -> In c input.
Proof.
  intros [w m1 m2 -> _ _ _ _ _ _ _] H. rewrite !in_app_iff in *. tauto.
Qed.

(** Every outcome of the preprocessing. *)
Lemma preprocess_cases input :
  preprocess input = inr input \/
  exists pre l g r tl, wpart input pre l g r tl /\
    match check_and_adjust_parens l g with
    | inl e => preprocess input = inl e
    | inr (l', g') => exists mm, preprocess input = inr (pre ++ format mm the_ngroups (replacement l' g' r))
    end.
Proof.
  unfold preprocess. destruct (search the_regex input) as [mm|] eqn:E; [right|now left].
  pose proof E as E'. apply search_best in E as (Ei & Es & B & N). apply (best_wpart (m_pre mm)) in B. rewrite <- Ei in B.
  do 5 eexists. split; [exact B|]. unfold tweak_input_string.
  destruct (check_and_adjust_parens _ _) as [e|[l' g']]; [reflexivity|]. exists mm. unfold replace. rewrite E', Es, app_nil_r. reflexivity.
Qed.

Lemma check_chars l g l' g' c : check_and_adjust_parens l g = inr (l', g') -> In c (l' ++ g') -> In c (l ++ g).
Proof.
  unfold check_and_adjust_parens. destruct (left_loop _ _ _) as [e|[dd ww]]; [discriminate|]. destruct (_ || _); [discriminate|].
  destruct (geom_loop _ _ _ _) as [e|[]]; [discriminate| |]; intros H; injection H as <- <-; [|auto].
  rewrite !in_app_iff. intros [H|H].
  - left. destruct l; [destruct H|now right].
  - right. destruct g as [|x g] using rev_ind; [destruct H|]. rewrite removelast_last in H. apply in_or_app. now left.
Qed.
Lemma replacement_chars l g r c : In c (replacement l g r) -> In c (L "WHERE ") \/ In c (L " AND ") \/ In c (l ++ g ++ r).
Proof.
  unfold replacement. rewrite !in_app_iff. destruct (is_nil r); cbn [In]; [|rewrite in_app_iff]; tauto.
Qed.
Lemma replacement_moved pre l g r : pre ++ replacement l g r = moved pre l g r.
Proof. unfold moved, replacement. destruct r; reflexivity. Qed.

Lemma preprocess_exact input t : ~ In "$"%char input -> preprocess input = inr t ->
  t = input \/ exists pre l g r tl l' g', wpart input pre l g r tl /\ check_and_adjust_parens l g = inr (l', g') /\ t = moved pre l' g' r.
Proof.
  intros Nd H. destruct (preprocess_cases input) as [E|(pre & l & g & r & tl & W & C)]; [left; congruence|right].
  destruct (check_and_adjust_parens l g) as [e|[l' g']] eqn:Ec; [congruence|]. destruct C as (mm & C).
  exists pre, l, g, r, tl, l', g'. split; [exact W|]. split; [exact Ec|]. assert (t = pre ++ format mm the_ngroups (replacement l' g' r)) as -> by congruence.
  rewrite format_plain; [apply replacement_moved|]. intros K. apply replacement_chars in K as [K|[K|K]].
  - cbn in K. intuition discriminate.
  - cbn in K. intuition discriminate.
  - apply Nd. eapply wpart_input; [exact W|]. rewrite !in_app_iff in *.
    pose proof (fun c => check_chars _ _ _ _ c Ec) as Hc. setoid_rewrite in_app_iff in Hc.
    destruct K as [K|[K|K]]; [destruct (Hc _ (or_introl K))|destruct (Hc _ (or_intror K))|]; auto.
Qed.

Lemma wpart_words input pre l g r tl : wpart input pre l g r tl ->
  occurs_nc (L "WHERE") input /\ (occurs_nc (L "CONTAINS") input \/ occurs_nc (L "INTERSECTS") input).
Proof.
  intros [w m1 m2 E W _ _ _ _ (f & gw & d & -> & _ & G) _]. split.
  - exists pre. unfold spelt in W. destruct w as [|c0 [|c1 [|c2 [|c3 [|c4 w]]]]]; try discriminate.
    exists [c0; c1; c2; c3; c4]. eexists. split; [rewrite E; cbn; reflexivity|]. cbn in W |- *. congruence.
  - destruct G as [G|G]; [left|right]; (exists (pre ++ w ++ l ++ m1 ++ f), gw; eexists; split; [rewrite E, <- !app_assoc; reflexivity|exact G]).
Qed.
Lemma not_rewritten input :
  ~ occurs_nc (L "WHERE") input \/ (~ occurs_nc (L "CONTAINS") input /\ ~ occurs_nc (L "INTERSECTS") input) ->
  preprocess input = inr input.
Proof.
  intros H. destruct (preprocess_cases input) as [E|(pre & l & g & r & tl & W & _)]; [exact E|]. apply wpart_words in W. tauto.
Qed.

(** Whatever the parentheses are (and however deep): the pieces are unchanged, or one pair is removed. *)
Lemma geom_loop_end w g : forall d, geom_loop w g d false = inr true -> exists g', g = g' ++ [")"%char].
Proof.
  induction g as [|c g IH]; intros d; cbn [geom_loop]; [discriminate|].
  destruct (Ascii.eqb c "("); [intros H; apply IH in H as (g' & ->); now exists (c :: g')|].
  destruct (Ascii.eqb_spec c ")") as [->|N]; [|intros H; apply IH in H as (g' & ->); now exists (c :: g')].
  destruct (d =? 0)%N; [discriminate|]. destruct (_ && w).
  - destruct g; [intros _; now exists []|discriminate].
  - intros H; apply IH in H as (g' & ->); now exists (")"%char :: g').
Qed.
Lemma geom_loop_within g : forall d, geom_loop false g d false <> inr true.
Proof.
  induction g as [|c g IH]; intros d; cbn [geom_loop]; [discriminate|].
  destruct (Ascii.eqb c "("); [apply IH|]. destruct (Ascii.eqb c ")"); [|apply IH]. destruct (d =? 0)%N; [discriminate|]. rewrite andb_false_r. apply IH.
Qed.
Lemma left_loop_within s : forall d w d', left_loop s d w = inr (d', true) -> w = true.
Proof.
  induction s as [|c s IH]; intros d w d'; cbn [left_loop]; [congruence|].
  destruct (Ascii.eqb c "("); [apply IH|]. destruct (Ascii.eqb c ")"); [|apply IH]. destruct (d =? 0)%N; [discriminate|].
  intros H. apply IH in H. destruct (_ =? 0)%N; [discriminate|exact H].
Qed.
Lemma check_shape l g l' g' : check_and_adjust_parens l g = inr (l', g') ->
  (l' = l /\ g' = g) \/ (l = "("%char :: l' /\ g = g' ++ [")"%char]).
Proof.
  unfold check_and_adjust_parens. destruct (left_loop _ _ _) as [e|[dd ww]] eqn:E; [discriminate|]. destruct (_ || _); [discriminate|].
  destruct (geom_loop _ _ _ _) as [e|[]] eqn:G; [discriminate| |]; intros H; injection H as <- <-; [right|now left].
  destruct ww; [|now apply geom_loop_within in G]. apply left_loop_within in E. destruct l as [|c l]; [discriminate|]. apply Ascii.eqb_eq in E. subst c.
  split; [reflexivity|]. apply geom_loop_end in G as (g' & ->). now rewrite removelast_last.
Qed.
