(** C41 for texts whose geometry is moved to the front. *)
From Verif Require Import Query Spec SpecRewrite SpecBrackets ParenProofs TextLemmas RewriteSound RewriteExact AlphabetMoved.

Definition quoteless (t : text) : Prop := ~ In "'"%char t /\ ~ In """"%char t.
(** The round brackets among the open ones. *)
Definition rounds (st : list ascii) : nat := length (filter (fun c => Ascii.eqb c "(") st).
Lemma scan_nest t : quoteless t -> forall st s', scan (None, st) t = Some s' -> exists st', s' = (None, st') /\ nest (rounds st) t = Some (rounds st').
Proof.
  induction t as [|c t IH]; intros [Q1 Q2] st s' H; [injection H as <-; now exists st|].
  assert (Q : quoteless t) by (split; intros K; [apply Q1|apply Q2]; now right). specialize (IH Q). cbn [scan] in H. unfold read1 in H.
  destruct (Ascii.eqb_spec c "'"); [subst; destruct Q1; now left|]. destruct (Ascii.eqb_spec c """"); [subst; destruct Q2; now left|]. cbn [orb] in H. cbn [nest].
  destruct (Ascii.eqb_spec c "("); [subst; cbn [orb] in H; now apply IH in H|]. cbn [orb] in H.
  destruct (Ascii.eqb_spec c "["); [subst; now apply IH in H|].
  destruct (Ascii.eqb_spec c ")").
  - destruct st as [|b st]; [discriminate|]. destruct (Ascii.eqb b "(") eqn:B; [|discriminate]. unfold rounds. cbn [filter]. rewrite B. cbn [length]. now apply IH in H.
  - destruct (Ascii.eqb_spec c "]"); [|now apply IH in H]. destruct st as [|b st]; [discriminate|]. destruct (Ascii.eqb b "[") eqn:B; [|discriminate].
    apply Ascii.eqb_eq in B. subst b. now apply IH in H.
Qed.
Lemma bracketed_balanced t : quoteless t -> bracketed t -> balanced t.
Proof. intros Q H. apply (scan_nest _ Q) in H as (st' & [= <-] & H). exact H. Qed.
Lemma nest_app a : forall d b, nest d (a ++ b) = match nest d a with Some d' => nest d' b | None => None end.
Proof.
  induction a as [|c a IH]; intros d b; [reflexivity|]. cbn [app nest]. destruct (Ascii.eqb c "("); [apply IH|]. destruct (Ascii.eqb c ")"); [|apply IH].
  destruct d; [reflexivity|apply IH].
Qed.
Lemma nest_plain t : ~ In "("%char t -> ~ In ")"%char t -> forall d, nest d t = Some d.
Proof.
  induction t as [|c t IH]; intros N1 N2 d; [reflexivity|]. cbn [nest]. cbn [In] in *.
  destruct (Ascii.eqb_spec c "("); [tauto|]. destruct (Ascii.eqb_spec c ")"); [tauto|]. apply IH; tauto.
Qed.
Lemma nest_up t d n : forall k, nest d t = Some n -> nest (k + d) t = Some (k + n).
Proof. intros k. induction k as [|k IH]; intros H; [exact H|]. apply (nest_S t (k + d) (k + n)). now apply IH. Qed.
Lemma balanced_up t d : balanced t -> nest d t = Some d.
Proof. intros H. apply (nest_up _ _ _ d) in H. now rewrite Nat.add_0_r in H. Qed.
Lemma spelt_plain s w : ~ In "("%char (L s) -> ~ In ")"%char (L s) -> spelt s w -> forall d, nest d w = Some d.
Proof. intros N1 N2 S. apply nest_plain; intros K; [apply N1|apply N2]; rewrite <- S; unfold upper; apply in_map_iff; eexists; (split; [|exact K]); reflexivity. Qed.
Lemma blank_plain b d : blank b -> nest d b = Some d.
Proof. intros B. apply nest_plain; intros K; unfold blank in B; rewrite Forall_forall in B; apply B in K; discriminate. Qed.
Lemma between_plain m d : and_between m -> nest d m = Some d.
Proof.
  intros (b1 & a & b2 & -> & B1 & S & B2). rewrite nest_app, (blank_plain b1) by exact B1. rewrite nest_app, (spelt_plain "AND" a); [now apply blank_plain| | |exact S]; cbn; intuition discriminate.
Qed.
Definition adjusted (l g l' g' : text) : Prop :=
  enclosed l g l' g' \/ (l' = l /\ g' = g /\ well_closed g /\ (balanced l \/ exists l0, l = "("%char :: l0 /\ balanced l0)).
(** What the order of the two conditions does to the depth: nothing. *)
Lemma moved_nest pre l g r l' g' : 
  adjusted l g l' g' ->
  balanced (moved pre l' g' r) -> balanced (pre ++ l ++ g ++ r).
Proof.
  intros E B. unfold balanced, moved in B |- *. rewrite nest_app in B |- *. destruct (nest 0 pre) as [s|]; [|discriminate].
  rewrite nest_app, (nest_plain (L "WHERE ")) in B by (cbn; intuition discriminate). rewrite nest_app in B |- *.
  assert (R : forall d, nest d match r with [] => [] | _ :: _ => L " AND " ++ r end = nest d r).
  { intros d. destruct r as [|x r]; [reflexivity|]. rewrite nest_app. rewrite (nest_plain (L " AND ")) by (cbn; intuition discriminate). reflexivity. }
  destruct E as [(-> & -> & Bl & Bg)|(-> & -> & Wg & Bl)].
  - rewrite (balanced_up g') in B by exact Bg. rewrite nest_app, (nest_plain (L " AND ")) in B by (cbn; intuition discriminate). rewrite nest_app, (balanced_up l'), R in B by exact Bl.
    cbn [nest]. change (Ascii.eqb "(" "(") with true. cbv iota. rewrite (balanced_up l') by exact Bl. rewrite nest_app, nest_app, (balanced_up g') by exact Bg. exact B.
  - destruct (nest s g) as [s2|] eqn:G; [|discriminate]. rewrite nest_app, (nest_plain (L " AND ")) in B by (cbn; intuition discriminate). rewrite nest_app in B.
    destruct Bl as [Bl|(l0 & -> & Bl)].
    + rewrite (balanced_up l) in B |- * by exact Bl. rewrite R in B. now rewrite nest_app, G.
    + cbn [nest] in B |- *. change (Ascii.eqb "(" "(") with true in B |- *. cbv iota in B |- *. rewrite (balanced_up l0) in B |- * by exact Bl. rewrite R in B.
      rewrite nest_app. now rewrite (nest_S _ _ _ G).
Qed.
Lemma moved_kept input pre l g r tl : wpart input pre l g r tl -> balanced (pre ++ l ++ g ++ r) -> exists kept, input = kept ++ tl /\ balanced kept.
Proof.
  intros [w m1 m2 E W _ _ _ M1 _ M2] B. exists (pre ++ w ++ l ++ m1 ++ g ++ m2 ++ r). split; [rewrite E; now rewrite <- !app_assoc|].
  unfold balanced in *. rewrite nest_app in B |- *. destruct (nest 0 pre) as [s|]; [|discriminate].
  rewrite nest_app, (spelt_plain "WHERE " w); [| | |exact W]; [|cbn; intuition discriminate..].
  rewrite nest_app in B |- *. destruct (nest s l) as [s1|]; [|discriminate]. rewrite nest_app, (between_plain m1) by exact M1.
  rewrite nest_app in B |- *. destruct (nest s1 g) as [s2|]; [|discriminate].
  destruct M2 as [(-> & ->)|(M2 & _)]; [exact B|]. now rewrite nest_app, (between_plain m2) by exact M2.
Qed.
Lemma peak_length t : forall d, peak d t <= d + length t.
Proof.
  induction t as [|c t IH]; intros d; cbn [peak length]; [apply Nat.le_add_r|]. apply Nat.max_lub; [apply Nat.le_add_r|]. rewrite Nat.add_succ_r.
  destruct (Ascii.eqb c "("); [exact (IH (S d))|]. destruct (Ascii.eqb c ")"); [|etransitivity; [apply IH|apply Nat.le_succ_diag_r]].
  etransitivity; [apply IH|]. apply le_S, Nat.add_le_mono_r, Nat.le_pred_l.
Qed.
Lemma moved_balanced input pre l g r tl l' g' : wpart input pre l g r tl -> check_and_adjust_parens l g = inr (l', g') -> shallow (peak 0 (l ++ g)) ->
  ~ In "'"%char input -> ~ In """"%char input -> ~ occurs_nc (L "--") input -> ~ occurs_nc (L "NAN(") input ->
  (~ occurs (L "--") (moved pre l' g' r) -> ~ occurs_nc (L "NAN(") (moved pre l' g' r) -> bracketed (moved pre l' g' r)) ->
  exists kept, input = kept ++ tl /\ balanced kept.
Proof.
  intros H E Sh Q1 Q2 N1 N2 W. apply (moved_kept _ _ _ _ _ _ H). pose proof (check_shape _ _ _ _ E) as S.
  apply check_iff in E; [|exact Sh]. apply (moved_nest _ _ _ _ l' g' E). apply bracketed_balanced.
  - split; intros K; [apply Q1|apply Q2]; (apply (moved_chars _ _ _ _ _ _ _ _ _ H S); [cbn; intuition discriminate|exact K]).
  - apply W; [intros (a & b & O); apply N1; apply (moved_occurs _ _ _ _ _ _ _ _ _ H S); [now left|exists a, (L "--"), b; now split]|].
    intros O. apply N2. now apply (moved_occurs _ _ _ _ _ _ _ _ _ H S); [right|].
Qed.
