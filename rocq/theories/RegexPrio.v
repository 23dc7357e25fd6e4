(** Priorities: which of the possible matches a repetition chooses. *)
From Verif Require Import Regex RegexProps.

Lemma mstar_greedy X f : forall n i c (k : text -> caps -> option X) x, length i <= n ->
  mstar (@mt (RChr f) X) true n i c k = Some x ->
  exists w j, i = w ++ j /\ forallb f w = true /\ k j c = Some x /\
    forall w' j', j = w' ++ j' -> w' <> [] -> forallb f w' = true -> k j' c = None.
Proof.
  induction n as [|n IH]; intros i c k x Hn; cbn [mstar mt].
  - intros H. destruct i; [|cbn in Hn; lia]. exists [], []. repeat split; auto. intros w' j' E N. destruct w'; [congruence|discriminate].
  - destruct i as [|a i].
    + intros H. exists [], []. repeat split; auto. intros w' j' E N. destruct w'; [congruence|discriminate].
    + destruct (f a) eqn:Fa.
      * replace (length i <? length (a :: i))%nat with true by (symmetry; apply Nat.ltb_lt; cbn; lia).
        destruct (mstar _ true n i c k) eqn:E.
        -- intros H; injection H as ->. apply IH in E as (w & j & -> & F & K & M); [|cbn in Hn; lia].
           exists (a :: w), j. cbn. rewrite Fa, F. auto.
        -- intros H. exists [], (a :: i). repeat split; auto. intros w' j' Ew N F. destruct w' as [|b w']; [congruence|].
           injection Ew as <- ->. cbn in F. apply andb_true_iff in F as [_ F].
           eapply (mstar_complete X (RChr f) true); [|apply (le_S_n _ _ Hn)|exact E|apply rm_star_chr; eauto].
           intros i0 c0 k0 H0 i1 c1 R. exact (mt_complete (RChr f) eq_refl _ _ _ _ H0 _ _ R).
      * intros H. exists [], (a :: i). repeat split; auto. intros w' j' Ew N F. destruct w' as [|b w']; [congruence|].
        injection Ew as <- ->. cbn in F. rewrite Fa in F. discriminate.
Qed.
Lemma star_greedy X f i c (k : text -> caps -> option X) x : mt (RStar true (RChr f)) i c k = Some x ->
  exists w j, i = w ++ j /\ forallb f w = true /\ k j c = Some x /\
    forall w' j', j = w' ++ j' -> w' <> [] -> forallb f w' = true -> k j' c = None.
Proof. cbn [mt]. now apply mstar_greedy. Qed.

Lemma mstar_lazy X f : forall n i c (k : text -> caps -> option X) x,
  mstar (@mt (RChr f) X) false n i c k = Some x ->
  exists w j, i = w ++ j /\ forallb f w = true /\ k j c = Some x /\
    forall w1 w2, w = w1 ++ w2 -> w2 <> [] -> k (w2 ++ j) c = None.
Proof.
  induction n as [|n IH]; intros i c k x; cbn [mstar mt]; (destruct (k i c) as [y|] eqn:K;
    [intros H; injection H as ->; exists [], i; repeat split; auto; intros w1 w2 E N; destruct w1; [cbn in E; congruence|discriminate]|]).
  - discriminate.
  - destruct i as [|a i]; [discriminate|]. destruct (f a) eqn:Fa; [|discriminate].
    replace (length i <? length (a :: i))%nat with true by (symmetry; apply Nat.ltb_lt; cbn; lia).
    intros E. apply IH in E as (w & j & -> & F & Kj & M). exists (a :: w), j. cbn [forallb]. rewrite Fa, F. repeat split; auto.
    intros w1 w2 E N. destruct w1 as [|b w1].
    + cbn in E. subst w2. exact K.
    + injection E as <- E. eapply M; eauto.
Qed.
Lemma star_lazy X f i c (k : text -> caps -> option X) x : mt (RStar false (RChr f)) i c k = Some x ->
  exists w j, i = w ++ j /\ forallb f w = true /\ k j c = Some x /\
    forall w1 w2, w = w1 ++ w2 -> w2 <> [] -> k (w2 ++ j) c = None.
Proof. cbn [mt]. now apply mstar_lazy. Qed.

(** A failed continuation: nothing matches. *)
Lemma mt_no X r i c (k : text -> caps -> option X) : lookwf r = true -> mt r i c k = None ->
  forall i' c', k i' c' <> None -> ~ rm r i c i' c'.
Proof. intros W H i' c' K R. apply K. eapply mt_complete; eauto. Qed.
