(** Meta-theory of the interpreter of Peg.v: consumption, suffixes, fuel. *)
From Verif Require Import Peg.

Arguments Nat.ltb : simpl never.

(** * Suffixes *)
Definition suffix (r i : text) : Prop := exists p, i = p ++ r.

Lemma suffix_refl i : suffix i i.
Proof. exists []; reflexivity. Qed.
Lemma suffix_trans a b c : suffix a b -> suffix b c -> suffix a c.
Proof. intros [p ->] [q ->]. exists (q ++ p). now rewrite app_assoc. Qed.
Lemma suffix_cons c i : suffix i (c :: i).
Proof. exists [c]; reflexivity. Qed.
Lemma suffix_len r i : suffix r i -> length r <= length i.
Proof. intros [p ->]. rewrite app_length. lia. Qed.
Lemma suffix_app p i : suffix i (p ++ i).
Proof. now exists p. Qed.
Global Hint Resolve suffix_refl suffix_cons suffix_app : core.

(** * skip, strip, span *)
Lemma skip_suffix i : suffix (skip i) i.
Proof.
  induction i as [|c i IH]; cbn; auto.
  destruct (is_space c); auto. eapply suffix_trans; eauto.
Qed.
Global Hint Resolve skip_suffix : core.
Lemma skip_len i : length (skip i) <= length i.
Proof. apply suffix_len; auto. Qed.
Lemma skip_skip i : skip (skip i) = skip i.
Proof.
  induction i as [|c i IH]; cbn; auto.
  destruct (is_space c) eqn:E; auto. cbn. now rewrite E.
Qed.
Lemma skip_head i c r : skip i = c :: r -> is_space c = false.
Proof.
  induction i as [|d i IH]; cbn; [discriminate|].
  destruct (is_space d) eqn:E; auto. intros H; injection H as <- <-. exact E.
Qed.
Lemma skip_nonspace c i : is_space c = false -> skip (c :: i) = c :: i.
Proof. intros H; cbn; now rewrite H. Qed.
Lemma skip_split i : exists p, i = p ++ skip i /\ forallb is_space p = true.
Proof.
  induction i as [|c i (p & E & F)]; cbn.
  - exists []; auto.
  - destruct (is_space c) eqn:Ec.
    + exists (c :: p). cbn. rewrite Ec, F. split; auto. now rewrite E at 1.
    + exists []; auto.
Qed.
Lemma skip_app_spaces p i : forallb is_space p = true -> skip (p ++ i) = skip i.
Proof.
  induction p as [|c p IH]; cbn; auto.
  intros H; apply andb_prop in H as [Hc Hp]. rewrite Hc. auto.
Qed.

Lemma strip_app nc s i m r : strip nc s i = Some (m, r) -> i = m ++ r.
Proof.
  revert i m r; induction s as [|a s IH]; intros i m r; cbn.
  - intros H; injection H as <- <-; reflexivity.
  - destruct i as [|b i]; [discriminate|]. destruct (eq_ch nc a b); [|discriminate].
    destruct (strip nc s i) as [[m' r']|] eqn:E; [|discriminate].
    intros H; injection H as <- <-. cbn. f_equal; eauto.
Qed.
Lemma strip_len nc s i m r : strip nc s i = Some (m, r) -> length m = length s.
Proof.
  revert i m r; induction s as [|a s IH]; intros i m r; cbn.
  - intros H; injection H as <- <-; reflexivity.
  - destruct i as [|b i]; [discriminate|]. destruct (eq_ch nc a b); [|discriminate].
    destruct (strip nc s i) as [[m' r']|] eqn:E; [|discriminate].
    intros H; injection H as <- <-. cbn. f_equal; eauto.
Qed.
Lemma span_app f i a b : span f i = (a, b) -> i = a ++ b.
Proof.
  revert a b; induction i as [|c i IH]; intros a b; cbn.
  - intros H; injection H as <- <-; reflexivity.
  - destruct (f c).
    + destruct (span f i) as [x y] eqn:E. intros H; injection H as <- <-. cbn. f_equal; auto.
    + intros H; injection H as <- <-; reflexivity.
Qed.
Lemma span_all f i a b : span f i = (a, b) -> forallb f a = true.
Proof.
  revert a b; induction i as [|c i IH]; intros a b; cbn.
  - intros H; injection H as <- <-; reflexivity.
  - destruct (f c) eqn:Ec.
    + destruct (span f i) as [x y] eqn:E. intros H; injection H as <- <-. cbn. rewrite Ec. eauto.
    + intros H; injection H as <- <-; reflexivity.
Qed.
Lemma span_stop f i a c b : span f i = (a, c :: b) -> f c = false.
Proof.
  revert a; induction i as [|d i IH]; intros a; cbn.
  - discriminate.
  - destruct (f d) eqn:Ed.
    + destruct (span f i) as [x y] eqn:E. intros H; injection H as <- ->. eauto.
    + intros H; injection H as <- <- <-; exact Ed.
Qed.

(** * Character-level expressions *)
Definition ext (p a : text) : Prop := exists x, a = p ++ x.
Lemma ext_refl p : ext p p. Proof. exists []; now rewrite app_nil_r. Qed.
Lemma ext_app p x : ext p (p ++ x). Proof. now exists x. Qed.
Lemma ext_trans a b c : ext a b -> ext b c -> ext a c.
Proof. intros [p ->] [q ->]. exists (p ++ q). now rewrite app_assoc. Qed.
Global Hint Resolve ext_refl ext_app : core.

(** Position reported by an expectation failure. *)
Definition exn_in (i : text) (e : exn) : Prop :=
  match e with ExExpect p => suffix p i | ExTable _ => True end.
Lemma exn_in_mono i j e : suffix i j -> exn_in i e -> exn_in j e.
Proof. destruct e; cbn; auto. intros. eapply suffix_trans; eauto. Qed.

Definition s_ok (acc i : text) (o : sout) : Prop :=
  match o with
  | SOk a r => ext acc a /\ suffix r i
  | SFail a => ext acc a
  | SThrow e => exn_in i e
  | SLoop => True
  end.

Lemma sstar_ok body n :
  (forall acc i, s_ok acc i (body acc i)) ->
  forall acc i, s_ok acc i (sstar body n acc i).
Proof.
  intros Hb. induction n as [|n IH]; intros acc i; cbn; specialize (Hb acc i);
    destruct (body acc i) as [a r|a|e|] eqn:E; cbn in *; auto.
  destruct Hb as [Hx Hs]. destruct (length r <? length i)%nat; cbn; auto.
  specialize (IH a r). destruct (sstar body n a r) as [a' r'|a'|e'|]; cbn in *; auto.
  - destruct IH. split; [eapply ext_trans|eapply suffix_trans]; eauto.
  - eapply ext_trans; eauto.
  - eapply exn_in_mono; eauto.
Qed.

Ltac s_fin := cbn in *; repeat match goal with H : _ /\ _ |- _ => destruct H end;
  auto; try (split; auto); eauto using ext_trans, suffix_trans, exn_in_mono.

Lemma srun_ok e : forall acc i, s_ok acc i (srun e acc i).
Proof.
  induction e as [f|nc s|nc s|a IHa b IHb|a IHa b IHb|a IHa|a IHa|a IHa|a IHa|a IHa|a IHa|a IHa b IHb|a IHa b IHb|m a IHa];
    intros acc i; cbn.
  - destruct i as [|c i]; cbn; auto. destruct (f c); cbn; auto.
  - destruct (strip nc s i) as [[m r]|] eqn:E; cbn; auto. apply strip_app in E as ->. auto.
  - destruct (strip nc s i) as [[m r]|] eqn:E; cbn; auto. apply strip_app in E as ->. auto.
  - specialize (IHa acc i). destruct (srun a acc i) as [a' r|a'|x|]; try (s_fin; fail).
    specialize (IHb a' r). destruct (srun b a' r) as [a2 r2|a2|x|]; s_fin.
  - specialize (IHa acc i). destruct (srun a acc i) as [a' r|a'|x|]; try (s_fin; fail).
    specialize (IHb a' i). destruct (srun b a' i) as [a2 r2|a2|x|]; s_fin.
  - apply sstar_ok; auto.
  - specialize (IHa acc i) as Ha. destruct (srun a acc i) as [a' r|a'|x|]; try (s_fin; fail).
    pose proof (sstar_ok (srun a) (length r) IHa a' r) as Hs.
    destruct (sstar (srun a) (length r) a' r) as [a2 r2|a2|x|]; s_fin.
  - specialize (IHa acc i). destruct (srun a acc i); s_fin.
  - specialize (IHa acc i). destruct (srun a acc i); s_fin.
  - specialize (IHa [] i). destruct (srun a [] i); s_fin.
  - specialize (IHa [] i). destruct (srun a [] i); s_fin.
  - specialize (IHb [] i). destruct (srun b [] i) as [a' r|a'|x|]; try (s_fin; fail).
  - specialize (IHa acc i). destruct (srun a acc i) as [a' r|a'|x|]; try (s_fin; fail).
    specialize (IHb a' r). destruct (srun b a' r) as [a2 r2|a2|x|]; s_fin.
  - specialize (IHa [] i). destruct (srun a [] i) as [a' r|a'|x|]; try (s_fin; fail).
    destruct (m a'); s_fin.
Qed.

(** The attribute is only ever appended to. *)
Definition s_pre (p : text) (o : sout) : sout :=
  match o with
  | SOk a r => SOk (p ++ a) r
  | SFail a => SFail (p ++ a)
  | o => o
  end.

Lemma sstar_frame body n p :
  (forall acc i, body (p ++ acc) i = s_pre p (body acc i)) ->
  forall acc i, sstar body n (p ++ acc) i = s_pre p (sstar body n acc i).
Proof.
  intros Hb. induction n as [|n IH]; intros acc i; cbn; rewrite Hb; destruct (body acc i); cbn; auto.
  destruct (length rest <? length i)%nat; auto.
Qed.

Lemma srun_frame e : forall p acc i, srun e (p ++ acc) i = s_pre p (srun e acc i).
Proof.
  induction e as [f|nc s|nc s|a IHa b IHb|a IHa b IHb|a IHa|a IHa|a IHa|a IHa|a IHa|a IHa|a IHa b IHb|a IHa b IHb|m a IHa];
    intros p acc i; cbn.
  - destruct i as [|c i]; cbn; auto. destruct (f c); cbn; now rewrite ?app_assoc.
  - destruct (strip nc s i) as [[m r]|]; cbn; auto.
  - destruct (strip nc s i) as [[m r]|]; cbn; now rewrite ?app_assoc.
  - rewrite IHa. destruct (srun a acc i); cbn; auto.
  - rewrite IHa. destruct (srun a acc i); cbn; auto.
  - apply sstar_frame; auto.
  - rewrite IHa. destruct (srun a acc i); cbn; auto. apply sstar_frame; auto.
  - rewrite IHa. destruct (srun a acc i); cbn; auto.
  - rewrite IHa. destruct (srun a acc i); cbn; auto.
  - destruct (srun a [] i); cbn; auto.
  - destruct (srun a [] i); cbn; auto.
  - destruct (srun b [] i); cbn; auto.
  - rewrite IHa. destruct (srun a acc i) as [a' r|a'|x|]; cbn; auto.
    rewrite IHb. destruct (srun b a' r); cbn; auto.
  - destruct (srun a [] i); cbn; auto. destruct (m acc0); cbn; now rewrite ?app_assoc.
Qed.

Lemma srun_acc e acc i : srun e acc i = s_pre acc (srun e [] i).
Proof. rewrite <- (srun_frame e acc [] i). now rewrite app_nil_r. Qed.

(** Can the expression succeed without consuming?  (conservative) *)
Fixpoint snull (e : se) : bool :=
  match e with
  | SChr _ => false
  | SLit _ s | SStr _ s => is_nil s
  | SSeq a b | SExp a b => snull a && snull b
  | SAlt a b => snull a || snull b
  | SStar _ | SOpt _ | SAnd _ | SNot _ => true
  | SPlus a | SHold a | SMap _ a => snull a
  | SDiff a _ => snull a
  end.

Lemma sstar_suffix body n acc i a r :
  (forall acc i, s_ok acc i (body acc i)) -> sstar body n acc i = SOk a r -> suffix r i.
Proof. intros Hb H. pose proof (sstar_ok body n Hb acc i) as K. rewrite H in K. apply K. Qed.

Lemma srun_suffix e acc i a r : srun e acc i = SOk a r -> suffix r i.
Proof. intros H. pose proof (srun_ok e acc i) as K. rewrite H in K. apply K. Qed.
Lemma srun_len e acc i a r : srun e acc i = SOk a r -> length r <= length i.
Proof. intros H. apply suffix_len. eapply srun_suffix; eauto. Qed.
Lemma srun_throw e acc i x : srun e acc i = SThrow x -> exn_in i x.
Proof. intros H. pose proof (srun_ok e acc i) as K. now rewrite H in K. Qed.

Lemma srun_consumes e : forall acc i a r,
  snull e = false -> srun e acc i = SOk a r -> length r < length i.
Proof.
  induction e as [f|nc s|nc s|a IHa b IHb|a IHa b IHb|a IHa|a IHa|a IHa|a IHa|a IHa|a IHa|a IHa b IHb|a IHa b IHb|m a IHa];
    intros acc i v r; cbn; intros Hn; try discriminate.
  - destruct i as [|c i]; [discriminate|]. destruct (f c); [|discriminate].
    intros H; injection H as <- <-. cbn; lia.
  - destruct (strip nc s i) as [[m r']|] eqn:E; [|discriminate].
    intros H; injection H as <- <-. pose proof (strip_len _ _ _ _ _ E).
    apply strip_app in E as ->. rewrite app_length. destruct s; [discriminate|]. cbn in *; lia.
  - destruct (strip nc s i) as [[m r']|] eqn:E; [|discriminate].
    intros H; injection H as <- <-. pose proof (strip_len _ _ _ _ _ E).
    apply strip_app in E as ->. rewrite app_length. destruct s; [discriminate|]. cbn in *; lia.
  - destruct (srun a acc i) as [a' i'|a'|x|] eqn:Ea; try discriminate. intros Hb.
    apply andb_false_iff in Hn as [Hn|Hn].
    + pose proof (IHa _ _ _ _ Hn Ea). apply srun_len in Hb. lia.
    + pose proof (IHb _ _ _ _ Hn Hb). apply srun_len in Ea. lia.
  - apply orb_false_iff in Hn as [H1 H2].
    destruct (srun a acc i) as [a' i'|a'|x|] eqn:Ea; try discriminate.
    + intros H; injection H as <- <-. eauto.
    + intros Hb. eauto.
  - destruct (srun a acc i) as [a' i'|a'|x|] eqn:Ea; try discriminate. intros H.
    apply sstar_suffix in H; [|apply srun_ok]. apply suffix_len in H.
    pose proof (IHa _ _ _ _ Hn Ea). lia.
  - destruct (srun a acc i) as [a' i'|a'|x|] eqn:Ea; try discriminate.
    intros H; injection H as <- <-. eauto.
  - destruct (srun b [] i); try discriminate. eauto.
  - destruct (srun a acc i) as [a' i'|a'|x|] eqn:Ea; try discriminate.
    destruct (srun b a' i') as [a2 i2|a2|x|] eqn:Eb; try discriminate.
    intros H; injection H as <- <-.
    apply andb_false_iff in Hn as [Hn|Hn].
    + pose proof (IHa _ _ _ _ Hn Ea). apply srun_len in Eb. lia.
    + pose proof (IHb _ _ _ _ Hn Eb). apply srun_len in Ea. lia.
  - destruct (srun a [] i) as [a' i'|a'|x|] eqn:Ea; try discriminate.
    destruct (m a'); [|discriminate]. intros H; injection H as <- <-. eauto.
Qed.

(** No repetition of something that can succeed without consuming. *)
Fixpoint swf (e : se) : bool :=
  match e with
  | SChr _ | SLit _ _ | SStr _ _ => true
  | SSeq a b | SExp a b | SAlt a b | SDiff a b => swf a && swf b
  | SStar a | SPlus a => negb (snull a) && swf a
  | SOpt a | SHold a | SAnd a | SNot a | SMap _ a => swf a
  end.

Lemma sstar_noloop body n :
  (forall acc i, body acc i <> SLoop) ->
  (forall acc i a r, body acc i = SOk a r -> length r < length i) ->
  forall acc i, length i <= n -> sstar body n acc i <> SLoop.
Proof.
  intros Hb Hc. induction n as [|n IH]; intros acc i Hl; cbn; specialize (Hb acc i);
    destruct (body acc i) as [a r|a|e|] eqn:E; try discriminate; try congruence.
  - apply Hc in E. lia.
  - apply Hc in E. destruct (Nat.ltb_spec (length r) (length i)); [|lia]. apply IH. lia.
Qed.

Lemma srun_noloop e : forall acc i, swf e = true -> srun e acc i <> SLoop.
Proof.
  induction e as [f|nc s|nc s|a IHa b IHb|a IHa b IHb|a IHa|a IHa|a IHa|a IHa|a IHa|a IHa|a IHa b IHb|a IHa b IHb|m a IHa];
    intros acc i; cbn; intros Hw.
  - destruct i as [|c i]; [discriminate|]. destruct (f c); discriminate.
  - destruct (strip nc s i) as [[m r]|]; discriminate.
  - destruct (strip nc s i) as [[m r]|]; discriminate.
  - apply andb_prop in Hw as [H1 H2]. specialize (IHa acc i H1).
    destruct (srun a acc i); try congruence; auto.
  - apply andb_prop in Hw as [H1 H2]. specialize (IHa acc i H1).
    destruct (srun a acc i); try congruence; auto.
  - apply andb_prop in Hw as [H1 H2]. apply negb_true_iff in H1.
    apply sstar_noloop; auto. intros. eapply srun_consumes; eauto.
  - apply andb_prop in Hw as [H1 H2]. apply negb_true_iff in H1. specialize (IHa acc i H2) as Ha.
    destruct (srun a acc i); try congruence.
    apply sstar_noloop; auto. intros. eapply srun_consumes; eauto.
  - specialize (IHa acc i Hw). destruct (srun a acc i); congruence.
  - specialize (IHa acc i Hw). destruct (srun a acc i); congruence.
  - specialize (IHa [] i Hw). destruct (srun a [] i); congruence.
  - specialize (IHa [] i Hw). destruct (srun a [] i); congruence.
  - apply andb_prop in Hw as [H1 H2]. specialize (IHb [] i H2).
    destruct (srun b [] i); try congruence; auto.
  - apply andb_prop in Hw as [H1 H2]. specialize (IHa acc i H1).
    destruct (srun a acc i) as [a' i'| | |]; try congruence; auto.
    specialize (IHb a' i' H2). destruct (srun b a' i'); congruence.
  - specialize (IHa [] i Hw). destruct (srun a [] i) as [a' i'| | |]; try congruence.
    destruct (m a'); congruence.
Qed.

(** * double_, ulong_long *)
Lemma dbl_exp_app i m r : dbl_exp i = (m, r) -> i = m ++ r.
Proof.
  unfold dbl_exp. destruct i as [|c i1]; [intros H; injection H as <- <-; auto|].
  destruct (Ascii.eqb c "e" || Ascii.eqb c "E"); [|intros H; injection H as <- <-; auto].
  assert (forall i1 sg i2,
    match i1 with
    | s :: i' => if Ascii.eqb s "+" || Ascii.eqb s "-" then ([s], i') else ([], i1)
    | [] => ([], i1) end = (sg, i2) -> i1 = sg ++ i2) as Hs.
  { intros j sg i2. destruct j as [|s j]; [intros H; injection H as <- <-; auto|].
    destruct (Ascii.eqb s "+" || Ascii.eqb s "-"); intros H; injection H as <- <-; auto. }
  destruct (match i1 with
    | s :: i' => if Ascii.eqb s "+" || Ascii.eqb s "-" then ([s], i') else ([], i1)
    | [] => ([], i1) end) as [sg i2] eqn:E. apply Hs in E. subst i1.
  destruct (span is_digit i2) as [ds i3] eqn:E2. apply span_app in E2. subst i2.
  destruct (is_nil ds); intros H; injection H as <- <-; auto.
  cbn. now rewrite <- app_assoc.
Qed.

Lemma dbl_unsigned_app i m r : dbl_unsigned i = Some (m, r) -> i = m ++ r /\ m <> [].
Proof.
  unfold dbl_unsigned. destruct (span is_digit i) as [ds i1] eqn:E1.
  set (special := match strip true (L "nan") i with Some _ => _ | None => _ end).
  assert (Hsp : forall m r, special = Some (m, r) -> i = m ++ r /\ m <> []).
  { subst special. intros m' r'.
    assert (Hne : forall s a b, strip true (L s) i = Some (a, b) -> L s <> [] -> a <> []).
    { intros s a b Hs Hn ->. apply strip_len in Hs. destruct (L s); cbn in *; congruence. }
    destruct (strip true (L "nan") i) as [[mm rr]|] eqn:En.
    - pose proof (Hne _ _ _ En ltac:(discriminate)) as Hm. apply strip_app in En.
      assert (Some (mm, rr) = Some (m', r') -> i = m' ++ r' /\ m' <> []) as Hd.
      { intros H; injection H as <- <-. auto. }
      destruct rr as [|c rr]; auto.
      destruct c as [[] [] [] [] [] [] [] []]; auto.
      destruct (span (fun c => negb (Ascii.eqb c ")")) rr) as [body r2] eqn:Es.
      destruct r2 as [|c2 r2]; [discriminate|]. intros H; injection H as <- <-.
      pose proof (span_stop _ _ _ _ _ Es) as Hc. apply negb_false_iff, Ascii.eqb_eq in Hc. subst c2.
      apply span_app in Es. subst i rr. split.
      + now rewrite <- !app_assoc; cbn; rewrite <- app_assoc.
      + destruct mm; discriminate.
    - destruct (strip true (L "inf") i) as [[mm rr]|] eqn:Ei; [|discriminate].
      pose proof (Hne _ _ _ Ei ltac:(discriminate)) as Hm. apply strip_app in Ei.
      destruct (strip true (L "inity") rr) as [[m2 r2]|] eqn:E2; intros H; injection H as <- <-; auto.
      apply strip_app in E2. subst i rr. split; [now rewrite app_assoc|]. destruct mm; [congruence|discriminate]. }
  pose proof (span_app _ _ _ _ E1) as Hi.
  destruct (if is_nil ds then special else None) as [[m' r']|] eqn:Es.
  { intros H; injection H as <- <-. destruct (is_nil ds); [auto|discriminate]. }
  clear Hsp Es special.
  assert (Hd : (if is_nil ds then None else let (ex, i4) := dbl_exp i1 in Some (ds ++ ex, i4)) = Some (m, r)
               -> i = m ++ r /\ m <> []).
  { destruct ds as [|d ds]; [discriminate|]. cbn [is_nil]. destruct (dbl_exp i1) as [ex i4] eqn:E.
    apply dbl_exp_app in E. intros H; injection H as <- <-. subst. split; [|discriminate].
    cbn; now rewrite <- app_assoc. }
  destruct i1 as [|c i2]; auto.
  destruct c as [[] [] [] [] [] [] [] []]; auto.
  destruct (span is_digit i2) as [fs i3] eqn:E3. destruct (is_nil ds && is_nil fs); [discriminate|].
  destruct (dbl_exp i3) as [ex i4] eqn:E. intros H; injection H as <- <-.
  apply dbl_exp_app in E. apply span_app in E3. subst. split.
  - rewrite <- !app_assoc. cbn. now rewrite <- !app_assoc.
  - destruct ds; discriminate.
Qed.

Lemma dbl_app i m r : dbl i = Some (m, r) -> i = m ++ r /\ m <> [].
Proof.
  unfold dbl. destruct i as [|c i]; [discriminate|].
  destruct (Ascii.eqb c "+" || Ascii.eqb c "-"); [|apply dbl_unsigned_app].
  destruct (dbl_unsigned i) as [[m' r']|] eqn:E; [|discriminate].
  intros H; injection H as <- <-. apply dbl_unsigned_app in E as [-> _]. split; [auto|discriminate].
Qed.

Lemma ulong_app i v r : ulong i = Some (v, r) -> exists ds, i = ds ++ r /\ ds <> [].
Proof.
  unfold ulong. destruct (span is_digit i) as [ds r'] eqn:E.
  destruct ds as [|d ds]; [discriminate|]. cbn [is_nil].
  destruct (dec_value (d :: ds) <? ull_mod)%N; [|discriminate].
  intros H; injection H as <- <-. exists (d :: ds). split; [eapply span_app; eauto|discriminate].
Qed.
Arguments dbl : simpl never.
Arguments ulong : simpl never.

(** * Token-level expressions *)
Section Pe.
Context {rule : Set} {attr : rule -> Set} (body : forall r, pe rule attr (attr r)).
Notation PE := (pe rule attr).
Notation R := (run body).

Definition p_ok {A} (i : text) (o : out A) : Prop :=
  match o with
  | Ok _ r | Fail r => suffix r i
  | Throw e => exn_in i e
  | OOF => True
  end.

Lemma p_ok_mono {A} i j (o : out A) : suffix i j -> p_ok i o -> p_ok j o.
Proof. destruct o; cbn; intros; auto; try (eapply suffix_trans; eauto). eapply exn_in_mono; eauto. Qed.

Lemma pstar_ok {A} (b : text -> out A) n :
  (forall i, p_ok i (b i)) -> forall i, p_ok i (pstar b n i).
Proof.
  intros Hb. induction n as [|n IH]; intros i; cbn; specialize (Hb i); destruct (b i) as [v r|r|e|]; cbn in *; auto.
  specialize (IH r). destruct (pstar b n r); cbn in *; auto; try (eapply suffix_trans; eauto).
  eapply exn_in_mono; eauto.
Qed.
Lemma plist_ok {A} (b : text -> out A) s n :
  (forall i, p_ok i (b i)) -> (forall i, p_ok i (s i)) -> forall i, p_ok i (plist b s n i).
Proof.
  intros Hb Hs. induction n as [|n IH]; intros i; cbn; specialize (Hs i);
    destruct (s i) as [v r|r|e|]; cbn in *; auto;
    specialize (Hb r); destruct (b r) as [v' r'|r'|e|]; cbn in *; auto;
    try (eapply exn_in_mono; eauto; fail).
  assert (suffix r' i) by (eapply suffix_trans; eauto).
  specialize (IH r'). destruct (plist b s n r'); cbn in *; auto; try (eapply suffix_trans; eauto).
  eapply exn_in_mono; eauto.
Qed.

Lemma lex_ok e i : p_ok i (lex e i).
Proof.
  unfold lex. pose proof (srun_ok e [] (skip i)) as H.
  destruct (srun e [] (skip i)); cbn in *; auto.
  - destruct H. eapply suffix_trans; eauto.
  - eapply exn_in_mono; eauto.
Qed.

(** One-step equations. *)
Lemma run_Lit n nc s i : R n _ (PLit nc s) i =
  match strip nc s (skip i) with Some (_, r) => Ok tt r | None => Fail (skip i) end.
Proof. destruct n; reflexivity. Qed.
Lemma run_Lex n e i : R n _ (PLex e) i = lex e i.
Proof. destruct n; reflexivity. Qed.
Lemma run_OptLex n e i : R n _ (POptLex e) i =
  match srun e [] (skip i) with
  | SOk v r => Ok v r | SFail v => Ok v (skip i) | SThrow x => Throw x | SLoop => OOF end.
Proof. destruct n; reflexivity. Qed.
Lemma run_Space n i : R n _ PSpace i =
  match i with c :: _ => if is_space c then Ok tt i else Fail i | [] => Fail i end.
Proof. destruct n; reflexivity. Qed.
Lemma run_Dbl n i : R n _ PDbl i =
  match dbl (skip i) with Some (m, r) => Ok m r | None => Fail (skip i) end.
Proof. destruct n; reflexivity. Qed.
Lemma run_Top n i : R n _ PTop i =
  match ulong (skip i) with
  | Some (v, r) =>
      match r with
      | c :: _ => if is_space c then Ok v r else Throw (ExExpect r)
      | [] => Throw (ExExpect r)
      end
  | None => Fail (skip i)
  end.
Proof. destruct n; reflexivity. Qed.
Lemma run_Ret n {A : Set} (v : A) i : R n _ (PRet v) i = Ok v i.
Proof. destruct n; reflexivity. Qed.
Lemma run_Seq n {A B : Set} (a : PE A) (b : PE B) i : R n _ (PSeq a b) i =
  match R n _ a i with
  | Ok va i1 =>
      match R n _ b i1 with
      | Ok vb i2 => Ok (va, vb) i2 | Fail _ => Fail i | Throw x => Throw x | OOF => OOF end
  | Fail _ => Fail i | Throw x => Throw x | OOF => OOF end.
Proof. destruct n; reflexivity. Qed.
Lemma run_Exp n {A B : Set} (a : PE A) (b : PE B) i : R n _ (PExp a b) i =
  match R n _ a i with
  | Ok va i1 =>
      match R n _ b i1 with
      | Ok vb i2 => Ok (va, vb) i2 | Fail r => Throw (ExExpect r) | Throw x => Throw x | OOF => OOF end
  | Fail _ => Fail i | Throw x => Throw x | OOF => OOF end.
Proof. destruct n; reflexivity. Qed.
Lemma run_Alt n {A : Set} (a b : PE A) i : R n _ (PAlt a b) i =
  match R n _ a i with Fail r => R n _ b r | o => o end.
Proof. destruct n; reflexivity. Qed.
Lemma run_Opt n {A : Set} (a : PE A) i : R n _ (POpt a) i =
  match R n _ a i with
  | Ok v r => Ok (Some v) r | Fail r => Ok None r | Throw x => Throw x | OOF => OOF end.
Proof. destruct n; reflexivity. Qed.
Lemma run_Star n {A : Set} (a : PE A) i : R n _ (PStar a) i = pstar (R n _ a) (length i) i.
Proof. destruct n; reflexivity. Qed.
Lemma run_Plus n {A : Set} (a : PE A) i : R n _ (PPlus a) i =
  match R n _ a i with
  | Ok v i1 =>
      match pstar (R n _ a) (length i1) i1 with
      | Ok vs r => Ok (v :: vs) r | Fail r => Fail r | Throw x => Throw x | OOF => OOF end
  | Fail _ => Fail i | Throw x => Throw x | OOF => OOF end.
Proof. destruct n; reflexivity. Qed.
Lemma run_List n {A : Set} (a : PE A) s i : R n _ (PList a s) i =
  match R n _ a i with
  | Ok v i1 =>
      match plist (R n _ a) (R n _ s) (length i1) i1 with
      | Ok vs r => Ok (v :: vs) r | Fail r => Fail r | Throw x => Throw x | OOF => OOF end
  | Fail _ => Fail i | Throw x => Throw x | OOF => OOF end.
Proof. destruct n; reflexivity. Qed.
Lemma run_Map n {A B : Set} (f : A -> B) (a : PE A) i : R n _ (PMap f a) i =
  match R n _ a i with
  | Ok v r => Ok (f v) r | Fail r => Fail r | Throw x => Throw x | OOF => OOF end.
Proof. destruct n; reflexivity. Qed.
Lemma run_Rule_0 r i : R 0 _ (PRule r) i = OOF.
Proof. reflexivity. Qed.
Lemma run_Rule n r i : R (S n) _ (PRule r) i = R n _ (body r) i.
Proof. reflexivity. Qed.

Ltac eqs := rewrite ?run_Lit, ?run_Lex, ?run_OptLex, ?run_Space, ?run_Dbl, ?run_Top, ?run_Ret,
  ?run_Seq, ?run_Exp, ?run_Alt, ?run_Opt, ?run_Star, ?run_Plus, ?run_List, ?run_Map.

Lemma run_ok n : forall (A : Set) (e : PE A) i, p_ok i (R n _ e i).
Proof.
  induction n as [n IHn] using lt_wf_ind.
  intros A e; induction e as [nc s|e|e| | | |A v|A B a IHa b IHb|A B a IHa b IHb|A a IHa b IHb|A a IHa|A a IHa|A a IHa|A a IHa s IHs|A B f a IHa|r];
    intros i; eqs.
  - destruct (strip nc s (skip i)) as [[m r]|] eqn:E; cbn; auto.
    apply strip_app in E. eapply suffix_trans; [|apply skip_suffix]. rewrite E. auto.
  - apply lex_ok.
  - pose proof (srun_ok e [] (skip i)) as H. destruct (srun e [] (skip i)); cbn in *; auto.
    + destruct H. eapply suffix_trans; eauto.
    + eapply exn_in_mono; eauto.
  - destruct i as [|c i]; cbn; auto. destruct (is_space c); cbn; auto.
  - destruct (dbl (skip i)) as [[m r]|] eqn:E; cbn; auto.
    apply dbl_app in E as [E _]. eapply suffix_trans; [|apply skip_suffix]. rewrite E. auto.
  - destruct (ulong (skip i)) as [[m r]|] eqn:E; cbn; auto.
    apply ulong_app in E as (ds & E & _).
    assert (suffix r i) by (eapply suffix_trans; [|apply skip_suffix]; rewrite E; auto).
    destruct r as [|c r]; cbn; auto. destruct (is_space c); cbn; auto.
  - cbn; auto.
  - specialize (IHa i). destruct (R n _ a i) as [va i1|r|x|]; cbn in *; auto.
    specialize (IHb i1). destruct (R n _ b i1); cbn in *; auto.
    + eapply suffix_trans; eauto.
    + eapply exn_in_mono; eauto.
  - specialize (IHa i). destruct (R n _ a i) as [va i1|r|x|]; cbn in *; auto.
    specialize (IHb i1). destruct (R n _ b i1); cbn in *; auto; try (eapply suffix_trans; eauto; fail).
    eapply exn_in_mono; eauto.
  - specialize (IHa i). destruct (R n _ a i) as [va i1|r|x|]; cbn in *; auto.
    eapply p_ok_mono; eauto.
  - specialize (IHa i). destruct (R n _ a i); cbn in *; auto.
  - apply pstar_ok; auto.
  - specialize (IHa i) as H. destruct (R n _ a i) as [va i1|r|x|]; cbn in *; auto.
    pose proof (pstar_ok (R n _ a) (length i1) IHa i1) as K.
    destruct (pstar _ _ _); cbn in *; auto; try (eapply suffix_trans; eauto; fail).
    eapply exn_in_mono; eauto.
  - specialize (IHa i) as H. destruct (R n _ a i) as [va i1|r|x|]; cbn in *; auto.
    pose proof (plist_ok (R n _ a) (R n _ s) (length i1) IHa IHs i1) as K.
    destruct (plist _ _ _ _); cbn in *; auto; try (eapply suffix_trans; eauto; fail).
    eapply exn_in_mono; eauto.
  - specialize (IHa i). destruct (R n _ a i); cbn in *; auto.
  - destruct n as [|n]; [cbn; auto|]. rewrite run_Rule. apply IHn. lia.
Qed.

Lemma run_suffix n A (e : PE A) i v r : R n _ e i = Ok v r -> suffix r i.
Proof. intros H. pose proof (run_ok n A e i) as K. now rewrite H in K. Qed.
Lemma run_len n A (e : PE A) i v r : R n _ e i = Ok v r -> length r <= length i.
Proof. intros H. eapply suffix_len, run_suffix; eauto. Qed.

(** ** Nullability and termination *)
Fixpoint pnull {A} (e : PE A) : bool :=
  match e with
  | PLit _ s => is_nil s
  | PLex e => snull e
  | POptLex _ | PSpace | PRet _ | POpt _ | PStar _ => true
  | PDbl | PTop | PRule _ => false
  | PSeq a b | PExp a b => pnull a && pnull b
  | PAlt a b => pnull a || pnull b
  | PPlus a | PList a _ => pnull a
  | PMap _ a => pnull a
  end.

Hypothesis body_nonnull : forall r, pnull (body r) = false.

Lemma run_consumes n : forall (A : Set) (e : PE A) i v r,
  pnull e = false -> R n _ e i = Ok v r -> length r < length i.
Proof.
  induction n as [n IHn] using lt_wf_ind.
  intros A e; induction e as [nc s|e|e| | | |A w|A B a IHa b IHb|A B a IHa b IHb|A a IHa b IHb|A a IHa|A a IHa|A a IHa|A a IHa s IHs|A B f a IHa|q];
    intros i v r; eqs; cbn [pnull]; intros Hn; try discriminate.
  - pose proof (skip_len i). destruct (strip nc s (skip i)) as [[m r']|] eqn:E; [|discriminate].
    intros H'; injection H' as <- <-. pose proof (strip_len _ _ _ _ _ E). apply strip_app in E.
    rewrite E, app_length in H. destruct s; [discriminate|]. cbn in *. lia.
  - unfold lex. pose proof (skip_len i). destruct (srun e [] (skip i)) eqn:E; try discriminate.
    intros H'; injection H' as <- <-. apply srun_consumes in E; auto. lia.
  - pose proof (skip_len i). destruct (dbl (skip i)) as [[m r']|] eqn:E; [|discriminate].
    intros H'; injection H' as <- <-. apply dbl_app in E as [E E2]. rewrite E, app_length in H.
    destruct m; cbn in *; [congruence|lia].
  - pose proof (skip_len i). destruct (ulong (skip i)) as [[m r']|] eqn:E; [|discriminate].
    apply ulong_app in E as (ds & E & E2). rewrite E, app_length in H.
    destruct r' as [|c r']; [discriminate|]. destruct (is_space c); [|discriminate].
    intros H'; injection H' as <- <-. destruct ds; cbn in *; [congruence|lia].
  - destruct (R n _ a i) as [va i1|?|?|] eqn:Ea; try discriminate.
    destruct (R n _ b i1) as [vb i2|?|?|] eqn:Eb; try discriminate.
    intros H; injection H as <- <-. apply andb_false_iff in Hn as [Hn|Hn].
    + apply IHa in Ea; auto. apply run_len in Eb. lia.
    + apply IHb in Eb; auto. apply run_len in Ea. lia.
  - destruct (R n _ a i) as [va i1|?|?|] eqn:Ea; try discriminate.
    destruct (R n _ b i1) as [vb i2|?|?|] eqn:Eb; try discriminate.
    intros H; injection H as <- <-. apply andb_false_iff in Hn as [Hn|Hn].
    + apply IHa in Ea; auto. apply run_len in Eb. lia.
    + apply IHb in Eb; auto. apply run_len in Ea. lia.
  - apply orb_false_iff in Hn as [H1 H2].
    destruct (R n _ a i) as [va i1|r'|?|] eqn:Ea; try discriminate.
    + intros H; injection H as <- <-. eauto.
    + intros Hb. apply IHb in Hb; auto. pose proof (run_ok n _ a i) as K. rewrite Ea in K.
      apply suffix_len in K. lia.
  - destruct (R n _ a i) as [va i1|?|?|] eqn:Ea; try discriminate. apply IHa in Ea; auto.
    pose proof (pstar_ok (R n _ a) (length i1) (run_ok n _ a) i1) as K.
    destruct (pstar _ _ _); try discriminate. intros H; injection H as <- <-.
    apply suffix_len in K. lia.
  - destruct (R n _ a i) as [va i1|?|?|] eqn:Ea; try discriminate. apply IHa in Ea; auto.
    pose proof (plist_ok (R n _ a) (R n _ s) (length i1) (run_ok n _ a) (run_ok n _ s) i1) as K.
    destruct (plist _ _ _); try discriminate. intros H; injection H as <- <-.
    apply suffix_len in K. lia.
  - destruct (R n _ a i) as [va i1|?|?|] eqn:Ea; try discriminate. intros H; injection H as <- <-. eauto.
  - destruct n as [|n]; [discriminate|]. rewrite run_Rule. intros H. eapply IHn in H; eauto.
Qed.

Variable rank : rule -> nat.
Variable K : nat.

(** At the position where [e] starts, only rules of rank below [k] are called; after some
    input has been consumed any rule (of rank below [K]) may be called. *)
Fixpoint pchk (k : nat) {A} (e : PE A) : bool :=
  match e with
  | PLit _ _ | PSpace | PDbl | PTop | PRet _ => true
  | PLex e | POptLex e => swf e
  | PSeq a b | PExp a b => pchk k a && (if pnull a then pchk k b else pchk K b)
  | PAlt a b => pchk k a && pchk k b
  | POpt a => pchk k a
  | PStar a | PPlus a => negb (pnull a) && pchk k a
  | PList a s => negb (pnull a) && (pchk k a && pchk K s)
  | PMap _ a => pchk k a
  | PRule r => rank r <? k
  end.

Hypothesis body_chk : forall r, pchk (rank r) (body r) = true.

Definition tot n k (i : text) := n >= K * length i + k.

Lemma pstar_tot {A} (b : text -> out A) n L0 :
  (forall i, length i <= L0 -> b i <> OOF) ->
  (forall i v r, b i = Ok v r -> length r < length i) ->
  forall i, length i <= L0 -> length i <= n -> pstar b n i <> OOF.
Proof.
  intros Hb Hc. induction n as [|n IH]; intros i HL Hl; cbn; specialize (Hb i HL);
    destruct (b i) as [v r|r|e|] eqn:E; try discriminate; try congruence; apply Hc in E; [lia|].
  assert (pstar b n r <> OOF) by (apply IH; lia).
  destruct (pstar b n r); congruence.
Qed.

Lemma plist_tot {A} (b : text -> out A) s n L0 :
  (forall i, length i <= L0 -> b i <> OOF) -> (forall i, length i <= L0 -> s i <> OOF) ->
  (forall i v r, b i = Ok v r -> length r < length i) ->
  (forall i v r, s i = Ok v r -> length r <= length i) ->
  forall i, length i <= L0 -> length i <= n -> plist b s n i <> OOF.
Proof.
  intros Hb Hs Hc Hcs. induction n as [|n IH]; intros i HL Hl; cbn; specialize (Hs i HL);
    destruct (s i) as [v r|r|e|] eqn:E; try discriminate; try congruence; apply Hcs in E;
    specialize (Hb r ltac:(lia)); destruct (b r) as [v' r'|r'|e|] eqn:E2; try discriminate; try congruence;
    apply Hc in E2; [lia|].
  assert (plist b s n r' <> OOF) by (apply IH; lia).
  destruct (plist b s n r'); congruence.
Qed.

Lemma run_total n : forall (A : Set) (e : PE A) k i,
  k <= K -> pchk k e = true -> tot n k i -> R n _ e i <> OOF.
Proof.
  induction n as [n IHn] using lt_wf_ind.
  assert (Hstep : forall (A : Set) (a : PE A) i v i1 k, k <= K -> tot n k i -> R n _ a i = Ok v i1 ->
            (pnull a = false -> tot n K i1) /\ tot n k i1).
  { intros A a i v i1 k Hk Ht Ha. unfold tot in *. split.
    - intros Hn. apply run_consumes in Ha; auto. nia.
    - apply run_len in Ha. nia. }
  intros A e; induction e as [nc s|e|e| | | |A w|A B a IHa b IHb|A B a IHa b IHb|A a IHa b IHb|A a IHa|A a IHa|A a IHa|A a IHa s IHs|A B f a IHa|q];
    intros k i Hk; eqs; cbn [pchk]; intros Hc Ht.
  - destruct (strip nc s (skip i)) as [[m r]|]; discriminate.
  - unfold lex. pose proof (srun_noloop e [] (skip i) Hc). destruct (srun e [] (skip i)); congruence.
  - pose proof (srun_noloop e [] (skip i) Hc). destruct (srun e [] (skip i)); congruence.
  - destruct i as [|c i]; [discriminate|]. destruct (is_space c); discriminate.
  - destruct (dbl (skip i)) as [[m r]|]; discriminate.
  - destruct (ulong (skip i)) as [[m r]|]; [|discriminate].
    destruct r as [|c r]; [discriminate|]. destruct (is_space c); discriminate.
  - discriminate.
  - apply andb_prop in Hc as [H1 H2]. specialize (IHa _ _ Hk H1 Ht).
    destruct (R n _ a i) as [va i1|?|?|] eqn:Ea; try discriminate; try congruence.
    destruct (Hstep _ _ _ _ _ _ Hk Ht Ea) as [T1 T2].
    assert (R n _ b i1 <> OOF).
    { destruct (pnull a) eqn:En; [eapply IHb; eauto|eapply (IHb K); auto]. }
    destruct (R n _ b i1); congruence.
  - apply andb_prop in Hc as [H1 H2]. specialize (IHa _ _ Hk H1 Ht).
    destruct (R n _ a i) as [va i1|?|?|] eqn:Ea; try discriminate; try congruence.
    destruct (Hstep _ _ _ _ _ _ Hk Ht Ea) as [T1 T2].
    assert (R n _ b i1 <> OOF).
    { destruct (pnull a) eqn:En; [eapply IHb; eauto|eapply (IHb K); auto]. }
    destruct (R n _ b i1); congruence.
  - apply andb_prop in Hc as [H1 H2]. specialize (IHa _ _ Hk H1 Ht).
    destruct (R n _ a i) as [va i1|r|?|] eqn:Ea; try discriminate; try congruence.
    eapply IHb; eauto. pose proof (run_ok n _ a i) as Q. rewrite Ea in Q. apply suffix_len in Q.
    unfold tot in *. nia.
  - specialize (IHa _ _ Hk Hc Ht). destruct (R n _ a i); congruence.
  - apply andb_prop in Hc as [H1 H2]. apply negb_true_iff in H1.
    apply pstar_tot with (L0 := length i); auto.
    + intros j Hj. eapply IHa; eauto. unfold tot in *. nia.
    + intros j v r. apply run_consumes; auto.
  - apply andb_prop in Hc as [H1 H2]. apply negb_true_iff in H1. specialize (IHa _ _ Hk H2 Ht) as Ha.
    destruct (R n _ a i) as [va i1|?|?|] eqn:Ea; try discriminate; try congruence.
    destruct (Hstep _ _ _ _ _ _ Hk Ht Ea) as [T1 T2].
    assert (pstar (R n _ a) (length i1) i1 <> OOF).
    { apply pstar_tot with (L0 := length i1); auto.
      + intros j Hj. eapply IHa; eauto. unfold tot in *. nia.
      + intros j v r. apply run_consumes; auto. }
    destruct (pstar _ _ _); congruence.
  - apply andb_prop in Hc as [H1 H2]. apply andb_prop in H2 as [H2 H3].
    apply negb_true_iff in H1. specialize (IHa _ _ Hk H2 Ht) as Ha.
    destruct (R n _ a i) as [va i1|?|?|] eqn:Ea; try discriminate; try congruence.
    destruct (Hstep _ _ _ _ _ _ Hk Ht Ea) as [T1 T2].
    assert (plist (R n _ a) (R n _ s) (length i1) i1 <> OOF).
    { apply plist_tot with (L0 := length i1); auto.
      + intros j Hj. eapply IHa; eauto. unfold tot in *. nia.
      + intros j Hj. eapply (IHs K); eauto. specialize (T1 H1). unfold tot in *. nia.
      + intros j v r. apply run_consumes; auto.
      + intros j v r. apply run_len. }
    destruct (plist _ _ _ _); congruence.
  - specialize (IHa _ _ Hk Hc Ht). destruct (R n _ a i); congruence.
  - apply Nat.ltb_lt in Hc. destruct n as [|n]; [unfold tot in Ht; lia|]. rewrite run_Rule.
    eapply (IHn n); [lia| |apply body_chk|]; unfold tot in *; lia.
Qed.

(** ** Fuel monotonicity *)
Definition le_out {A} (o o' : out A) : Prop := o = OOF \/ o = o'.

Lemma pstar_mono {A} (b b' : text -> out A) n :
  (forall i, le_out (b i) (b' i)) -> forall i, le_out (pstar b n i) (pstar b' n i).
Proof.
  intros Hb. induction n as [|n IH]; intros i; cbn; destruct (Hb i) as [E|E]; rewrite E; unfold le_out; auto.
  destruct (b' i) as [v r| | |]; auto. destruct (IH r) as [E2|E2]; rewrite E2; auto.
Qed.
Lemma plist_mono {A} (b b' : text -> out A) s s' n :
  (forall i, le_out (b i) (b' i)) -> (forall i, le_out (s i) (s' i)) ->
  forall i, le_out (plist b s n i) (plist b' s' n i).
Proof.
  intros Hb Hs. induction n as [|n IH]; intros i; cbn; destruct (Hs i) as [E|E]; rewrite E; unfold le_out; auto;
    destruct (s' i) as [u r| | |]; auto; destruct (Hb r) as [E1|E1]; rewrite E1; auto.
  destruct (b' r) as [v r'| | |]; auto. destruct (IH r') as [E2|E2]; rewrite E2; auto.
Qed.

Lemma run_mono1 n : forall (A : Set) (e : PE A) i, le_out (R n _ e i) (R (S n) _ e i).
Proof.
  induction n as [n IHn] using lt_wf_ind.
  intros A e; induction e as [nc s|e|e| | | |A w|A B a IHa b IHb|A B a IHa b IHb|A a IHa b IHb|A a IHa|A a IHa|A a IHa|A a IHa s IHs|A B f a IHa|q];
    intros i; try (eqs; unfold le_out; auto; fail).
  - rewrite !run_Seq. destruct (IHa i) as [E|E]; rewrite E; unfold le_out; auto.
    destruct (R (S n) _ a i) as [va i1| | |]; auto. destruct (IHb i1) as [E1|E1]; rewrite E1; auto.
  - rewrite !run_Exp. destruct (IHa i) as [E|E]; rewrite E; unfold le_out; auto.
    destruct (R (S n) _ a i) as [va i1| | |]; auto. destruct (IHb i1) as [E1|E1]; rewrite E1; auto.
  - rewrite !run_Alt. destruct (IHa i) as [E|E]; rewrite E; unfold le_out; auto.
    destruct (R (S n) _ a i) as [va i1| | |]; auto. apply IHb.
  - rewrite !run_Opt. destruct (IHa i) as [E|E]; rewrite E; unfold le_out; auto.
  - rewrite !run_Star. apply pstar_mono; auto.
  - rewrite !run_Plus. destruct (IHa i) as [E|E]; rewrite E; unfold le_out; auto.
    destruct (R (S n) _ a i) as [va i1| | |]; auto.
    destruct (pstar_mono _ _ (length i1) IHa i1) as [E1|E1]; rewrite E1; auto.
  - rewrite !run_List. destruct (IHa i) as [E|E]; rewrite E; unfold le_out; auto.
    destruct (R (S n) _ a i) as [va i1| | |]; auto.
    destruct (plist_mono _ _ _ _ (length i1) IHa IHs i1) as [E1|E1]; rewrite E1; auto.
  - rewrite !run_Map. destruct (IHa i) as [E|E]; rewrite E; unfold le_out; auto.
  - destruct n as [|n]; [left; reflexivity|]. rewrite !run_Rule. apply IHn. lia.
Qed.

Lemma run_mono n k A (e : PE A) i o : n <= k -> R n _ e i = o -> o <> OOF -> R k _ e i = o.
Proof.
  intros H Ho Hn. induction H as [|k H IH]; auto.
  destruct (run_mono1 k A e i) as [E|E]; congruence.
Qed.

(** ** The result of an expression, independent of fuel *)
Definition parses {A : Set} (e : PE A) (i : text) (o : out A) : Prop :=
  o <> OOF /\ exists n, R n _ e i = o.

Lemma parses_det {A : Set} (e : PE A) i o o' : parses e i o -> parses e i o' -> o = o'.
Proof.
  intros [Hn [n H]] [Hn' [n' H']].
  pose proof (run_mono n (max n n') A e i o ltac:(lia) H Hn).
  pose proof (run_mono n' (max n n') A e i o' ltac:(lia) H' Hn'). congruence.
Qed.

Lemma parses_run {A : Set} (e : PE A) i o n : parses e i o -> R n _ e i <> OOF -> R n _ e i = o.
Proof. intros H Hn. eapply parses_det; eauto. split; eauto. Qed.

End Pe.
