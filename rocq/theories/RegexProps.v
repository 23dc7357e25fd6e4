(** A relational description of what the regex matcher can match, sound and complete. *)
From Verif Require Import Regex.

Inductive rm : re -> text -> caps -> text -> caps -> Prop :=
| rm_chr f a i c : f a = true -> rm (RChr f) (a :: i) c i c
| rm_eps i c : rm REps i c i c
| rm_seq a b i c i1 c1 i2 c2 : rm a i c i1 c1 -> rm b i1 c1 i2 c2 -> rm (RSeq a b) i c i2 c2
| rm_alt1 a b i c i1 c1 : rm a i c i1 c1 -> rm (RAlt a b) i c i1 c1
| rm_alt2 a b i c i1 c1 : rm b i c i1 c1 -> rm (RAlt a b) i c i1 c1
| rm_star0 g a i c : rm (RStar g a) i c i c
| rm_star1 g a i c i1 c1 i2 c2 : rm a i c i1 c1 -> length i1 < length i -> rm (RStar g a) i1 c1 i2 c2 ->
    rm (RStar g a) i c i2 c2
| rm_grp n a i c i1 c1 : rm a i c i1 c1 -> rm (RGrp n a) i c i1 ((n, upto i i1) :: c1)
| rm_look a i c i1 : rm a i c i1 c -> rm (RLook a) i c i c
| rm_end c : rm REnd [] c [] c.

Fixpoint nogroup (r : re) : bool :=
  match r with
  | RSeq a b | RAlt a b => nogroup a && nogroup b
  | RStar _ a | RLook a => nogroup a
  | RGrp _ _ => false
  | _ => true
  end.
Fixpoint lookwf (r : re) : bool :=
  match r with
  | RSeq a b | RAlt a b => lookwf a && lookwf b
  | RStar _ a => lookwf a
  | RGrp _ a => lookwf a
  | RLook a => nogroup a && lookwf a
  | _ => true
  end.

Lemma rm_suffix r i c i' c' : rm r i c i' c' -> exists t, i = t ++ i'.
Proof.
  induction 1 as [f a i c|i c|a b i c i1 c1 i2 c2 H1 [t1 IH1] H2 [t2 IH2]|a b i c i1 c1 H IH|a b i c i1 c1 H IH|g a i c
    |g a i c i1 c1 i2 c2 H1 [t1 IH1] L H2 [t2 IH2]|n a i c i1 c1 H IH|a i c i1 H IH|c]; auto.
  - now exists [a]. - now exists []. - subst. exists (t1 ++ t2). now rewrite app_assoc.
  - now exists []. - subst. exists (t1 ++ t2). now rewrite app_assoc. - now exists []. - now exists [].
Qed.
Lemma rm_nogroup r i c i' c' : rm r i c i' c' -> nogroup r = true -> c' = c.
Proof.
  induction 1; cbn; intros N; auto; try discriminate; try (apply andb_true_iff in N as [N1 N2]); auto.
  - rewrite IHrm2, IHrm1; auto.
  - rewrite IHrm2, IHrm1; auto.
Qed.

Section Sound.
Context {X : Type}.

Lemma mstar_sound a g (IH : forall i c (k : text -> caps -> option X) x, mt a i c k = Some x -> exists i' c', rm a i c i' c' /\ k i' c' = Some x) :
  forall n i c (k : text -> caps -> option X) x, mstar (@mt a X) g n i c k = Some x ->
  exists i' c', rm (RStar g a) i c i' c' /\ k i' c' = Some x.
Proof.
  induction n as [|n IHn]; intros i c k x; cbn [mstar].
  - destruct g.
    + intros H. exists i, c. split; [constructor|exact H].
    + destruct (k i c) eqn:E; [|discriminate]. intros H; injection H as <-. exists i, c. split; [constructor|exact E].
  - assert (K : forall x, mt a i c (fun i' c' => if (length i' <? length i)%nat then mstar (@mt a X) g n i' c' k else None) = Some x ->
       exists i' c', rm (RStar g a) i c i' c' /\ k i' c' = Some x).
    { intros y H. apply IH in H as (i1 & c1 & H1 & H2). destruct (_ <? _)%nat eqn:El; [|discriminate].
      apply Nat.ltb_lt in El. apply IHn in H2 as (i2 & c2 & H2 & Hk). exists i2, c2. split; [|exact Hk]. econstructor; eauto. }
    destruct g.
    + destruct (mt a i c _) eqn:E.
      * intros H; injection H as <-. now apply K.
      * intros H. exists i, c. split; [constructor|exact H].
    + destruct (k i c) eqn:E; [intros H; injection H as <-; exists i, c; split; [constructor|exact E]|]. apply K.
Qed.
End Sound.

Lemma mt_sound r : lookwf r = true -> forall X i c (k : text -> caps -> option X) x, mt r i c k = Some x ->
  exists i' c', rm r i c i' c' /\ k i' c' = Some x.
Proof.
  induction r as [f| |a IHa b IHb|a IHa b IHb|g a IHa|n a IHa|a IHa|]; cbn [lookwf]; intros W X i c k x; cbn [mt];
    try (apply andb_true_iff in W as [W1 W2]).
  - destruct i as [|d i]; [discriminate|]. destruct (f d) eqn:E; [|discriminate]. intros H. exists i, c. split; [now constructor|exact H].
  - intros H. exists i, c. split; [constructor|exact H].
  - intros H. apply IHa in H as (i1 & c1 & H1 & H); auto. apply IHb in H as (i2 & c2 & H2 & H); auto.
    exists i2, c2. split; [econstructor; eauto|exact H].
  - destruct (mt a i c k) eqn:E.
    + intros H; injection H as <-. apply IHa in E as (i1 & c1 & H1 & H); auto. exists i1, c1. split; [now constructor|exact H].
    + intros H. apply IHb in H as (i1 & c1 & H1 & H); auto. exists i1, c1. split; [now apply rm_alt2|exact H].
  - intros H. apply mstar_sound in H; eauto.
  - intros H. apply IHa in H as (i1 & c1 & H1 & H); auto. exists i1. eexists. split; [constructor; exact H1|exact H].
  - destruct (mt a i c _) as [c'|] eqn:E; [|discriminate]. intros H. apply IHa in E as (i1 & c1 & H1 & E); auto.
    injection E as <-. pose proof (rm_nogroup _ _ _ _ _ H1 W1) as ->. exists i, c. split; [econstructor; exact H1|exact H].
  - destruct i; [|discriminate]. intros H. exists [], c. split; [constructor|exact H].
Qed.

Lemma mstar_complete X a g (IH : forall i c (k : text -> caps -> option X), mt a i c k = None -> forall i' c', rm a i c i' c' -> k i' c' = None) :
  forall n i c (k : text -> caps -> option X), length i <= n -> mstar (@mt a X) g n i c k = None ->
  forall i' c', rm (RStar g a) i c i' c' -> k i' c' = None.
Proof.
  induction n as [|n IHn]; intros i c k Hn H i' c' R; cbn [mstar] in H.
  - destruct i; [|cbn in Hn; lia].
    assert (k [] c = None) as K by (destruct g; auto; destruct (k [] c); auto; discriminate).
    inversion R; subst; auto. cbn in *; lia.
  - assert (k i c = None /\ mt a i c (fun i' c' => if (length i' <? length i)%nat then mstar (@mt a X) g n i' c' k else None) = None) as [K1 K2].
    { destruct g; [destruct (mt a i c _); [discriminate|auto]|destruct (k i c); [discriminate|auto]]. }
    inversion R; subst; auto. pose proof (IH _ _ _ K2 _ _ H2) as K. cbv beta in K.
    apply Nat.ltb_lt in H3 as E. rewrite E in K. eapply IHn; [|exact K|eassumption]. lia.
Qed.

Lemma mt_complete r : lookwf r = true -> forall X i c (k : text -> caps -> option X), mt r i c k = None ->
  forall i' c', rm r i c i' c' -> k i' c' = None.
Proof.
  induction r as [f| |a IHa b IHb|a IHa b IHb|g a IHa|n a IHa|a IHa|]; cbn [lookwf]; intros W X i c k H i' c' R;
    cbn [mt] in H; try (apply andb_true_iff in W as [W1 W2]); inversion R; subst.
  - match goal with E : f _ = true |- _ => rewrite E in H end. exact H.
  - exact H.
  - match goal with R1 : rm a i c _ _, R2 : rm b _ _ i' c' |- _ => pose proof (IHa W1 _ _ _ _ H _ _ R1) as K; cbv beta in K; exact (IHb W2 _ _ _ _ K _ _ R2) end.
  - destruct (mt a i c k) eqn:E; [discriminate|]. eapply IHa in E; eauto.
  - destruct (mt a i c k) eqn:E; [discriminate|]. eapply IHb in H; eauto.
  - eapply (mstar_complete X a g) in H; [|intros; eapply IHa; eauto|apply le_n|exact R]. exact H.
  - eapply (mstar_complete X a g) in H; [|intros; eapply IHa; eauto|apply le_n|exact R]. exact H.
  - match goal with R1 : rm a i c _ _ |- _ => exact (IHa W _ _ _ _ H _ _ R1) end.
  - destruct (mt a i' c' _) as [c1|] eqn:E.
    + apply mt_sound in E as (i2 & c2 & R2 & E); auto. injection E as <-. apply rm_nogroup in R2; auto. now subst.
    + eapply IHa in E; eauto. discriminate.
  - exact H.
Qed.

(** * Searching *)
Lemma upto_app t i : upto (t ++ i) i = t.
Proof. unfold upto. rewrite app_length. replace (length t + length i - length i) with (length t) by lia. now rewrite firstn_app, Nat.sub_diag, firstn_O, app_nil_r, firstn_all. Qed.

Lemma search_from_some r : lookwf r = true -> forall i pre m, search_from r pre i = Some m ->
  exists p, m_pre m = pre ++ p /\ i = p ++ m_all m ++ m_suf m /\
            rm r (m_all m ++ m_suf m) [] (m_suf m) (m_caps m) /\
            (forall p1 p2, p = p1 ++ p2 -> p2 <> [] -> forall i' c', ~ rm r (p2 ++ m_all m ++ m_suf m) [] i' c').
Proof.
  intros W.
  assert (Hit : forall i pre i' c', mt r i [] (fun i' c' => Some (i', c')) = Some (i', c') ->
    exists p, pre = pre ++ p /\ i = p ++ upto i i' ++ i' /\ rm r (upto i i' ++ i') [] i' c' /\
      (forall p1 p2, p = p1 ++ p2 -> p2 <> [] -> forall i0 c0, ~ rm r (p2 ++ upto i i' ++ i') [] i0 c0)).
  { intros i pre i' c' E. apply mt_sound in E as (i1 & c1 & R & E); auto. injection E as -> ->.
    destruct (rm_suffix _ _ _ _ _ R) as (t & Et). exists []. rewrite app_nil_r. subst i. rewrite upto_app. repeat split; auto.
    intros p1 p2 Hp Hn. destruct p1; [|discriminate]. cbn in Hp. congruence. }
  induction i as [|a i IH]; intros pre m; cbn [search_from];
    (destruct (mt r _ [] _) as [[i' c']|] eqn:E; [intros H; injection H as <-; apply (Hit _ pre _ _ E)|]).
  - discriminate.
  - intros H. apply IH in H as (p & Hp & Hi & R & N). exists (a :: p). rewrite Hp, <- app_assoc. cbn. split; [auto|].
    split; [congruence|]. split; [exact R|]. intros p1 p2 Hp' Hn i' c' R'. destruct p1 as [|b p1].
    + cbn in Hp'. subst p2. cbn in R'. rewrite <- Hi in R'. pose proof (mt_complete r W _ _ _ _ E _ _ R') as K. discriminate.
    + injection Hp' as <- Hp'. eapply N; eauto.
Qed.
Lemma search_from_none r : lookwf r = true -> forall i pre, search_from r pre i = None ->
  forall p j, i = p ++ j -> forall i' c', ~ rm r j [] i' c'.
Proof.
  intros W. induction i as [|a i IH]; intros pre; cbn [search_from];
    (destruct (mt r _ [] _) as [[i0 c0]|] eqn:E; [discriminate|]); intros H p j Hp i' c' R.
  - destruct p; [|discriminate]. cbn in Hp; subst. pose proof (mt_complete r W _ _ _ _ E _ _ R). discriminate.
  - destruct p as [|b p].
    + cbn in Hp; subst. pose proof (mt_complete r W _ _ _ _ E _ _ R). discriminate.
    + injection Hp as <- Hp. eapply IH; eauto.
Qed.

(** * Inversion with texts *)
Lemma rm_lit s : forall i c i' c', rm (RLit s) i c i' c' <-> exists w, i = w ++ i' /\ upper w = upper s /\ c' = c.
Proof.
  induction s as [|d s IH]; intros i c i' c'; cbn [RLit].
  - split.
    + intros R. inversion R; subst. exists []. auto.
    + intros (w & -> & U & ->). destruct w; [|discriminate]. constructor.
  - split.
    + intros R. inversion R as [| |? ? ? ? i1 c1 ? ? R1 R2| | | | | | |]; subst. inversion R1; subst. apply IH in R2 as (w & -> & U & ->).
      exists (a :: w). split; [auto|]. split; [|auto]. cbn. unfold upper in U. rewrite U. f_equal. symmetry. apply Ascii.eqb_eq. assumption.
    + intros (w & -> & U & ->). destruct w as [|x w]; [discriminate|]. cbn in U. injection U as U1 U2.
      apply rm_seq with (i1 := w ++ i') (c1 := c).
      * cbn. constructor. unfold eq_nc. rewrite U1. apply Ascii.eqb_refl.
      * apply IH. exists w. auto.
Qed.
Lemma rm_star_chr g f : forall i c i' c', rm (RStar g (RChr f)) i c i' c' <-> exists w, i = w ++ i' /\ forallb f w = true /\ c' = c.
Proof.
  intros i c i' c'. split.
  - intros R. remember (RStar g (RChr f)) as r eqn:Er. induction R; try discriminate; injection Er as -> ->.
    + exists []. auto.
    + inversion R1; subst. destruct IHR2 as (w & -> & F & ->); auto. match goal with E : f ?x = true |- _ => exists (x :: w) end. cbn. match goal with E : f _ = true |- _ => rewrite E end. rewrite F. auto.
  - intros (w & -> & F & ->). induction w as [|x w IH]; [constructor|]. cbn in F. apply andb_true_iff in F as [F1 F2].
    cbn. eapply rm_star1; [now constructor|cbn; lia|]. now apply IH.
Qed.
