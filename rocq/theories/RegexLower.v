(** Texts for which the search takes a number of steps that grows like the fifth power of the length. *)
From Verif Require Import RegexCost RegexCostProofs.
From Coq Require Import Lia.
Local Open Scope N_scope.

Definition newline : ascii := "010"%char.

(** * In front of newlines nothing matches *)
Definition ends (j : nat) (i : text) : Prop := exists p, i = p ++ repeat newline j.

Lemma ends_less : forall j i, ends (S j) i -> ends j i.
Proof.
  intros j i [p E]. exists (p ++ [newline]). rewrite E, <- app_assoc. reflexivity.
Qed.
Lemma ends_minus : forall b j i, ends (j + b)%nat i -> ends j i.
Proof. induction b; intros j i H; [now rewrite Nat.add_0_r in H|]. apply IHb. rewrite Nat.add_succ_r in H. now apply ends_less. Qed.

(** The number of newlines that can be consumed. *)
Fixpoint nls (r : re) : nat :=
  match r with
  | RChr f => if f newline then 1%nat else 0%nat
  | RSeq a b => (nls a + nls b)%nat
  | RAlt a b => Nat.max (nls a) (nls b)
  | RGrp _ a => nls a
  | _ => 0%nat
  end.
(** Repetitions of single characters other than newlines. *)
Fixpoint line (r : re) : bool :=
  match r with
  | RStar _ a => match a with RChr f => negb (f newline) | _ => false end
  | RSeq a b | RAlt a b => line a && line b
  | RGrp _ a => line a
  | _ => true
  end.

Definition fails_at {X : Type} (j : nat) (k : text -> caps -> counted X) : Prop := forall i c, ends j i -> out (k i c) = None.

Lemma chr_fails : forall X (f : ascii -> bool) j (k : text -> caps -> counted X) i c, fails_at j k -> ends (j + (if f newline then 1 else 0))%nat i ->
  out (cmt (RChr f) i c k) = None.
Proof.
  intros X f j k i c H [p E]. rewrite cmt_chr. destruct i as [|a i]; [reflexivity|]. cbn [call out]. destruct (f a) eqn:F; [|reflexivity].
  apply H. destruct p as [|b p].
  - cbn [app] in E. destruct (f newline) eqn:G.
    + rewrite Nat.add_1_r in E. cbn [repeat] in E. injection E as Ea Ei. exists []. exact Ei.
    + rewrite Nat.add_0_r in E. destruct j; [discriminate|]. cbn [repeat] in E. injection E as Ea Ei. rewrite Ea in F. congruence.
  - cbn [app] in E. injection E as Ea Ei. eapply ends_minus. exists p. exact Ei.
Qed.

Lemma star_fails : forall X f g (k : text -> caps -> counted X) j m i c, f newline = false -> fails_at j k -> ends j i ->
  out (cstar (@cmt (RChr f) X) g m i c k) = None.
Proof.
  intros X f g k j m i c F H. revert i c. induction m as [|m IH]; intros i c E; cbn [cstar call out]; destruct g; rewrite orelse_out.
  - cbn. now apply H.
  - rewrite H by exact E. reflexivity.
  - rewrite (chr_fails X f j); [now apply H| |rewrite F, Nat.add_0_r; exact E].
    intros i' c' E'. destruct (length i' <? length i)%nat; [now apply IH|reflexivity].
  - rewrite H by exact E. apply (chr_fails X f j); [|rewrite F, Nat.add_0_r; exact E].
    intros i' c' E'. destruct (length i' <? length i)%nat; [now apply IH|reflexivity].
Qed.

Lemma cmt_fails : forall r X j (k : text -> caps -> counted X), line r = true -> fails_at j k -> fails_at (j + nls r)%nat (fun i c => cmt r i c k).
Proof.
  induction r; intros X j kk LN H i c E; cbn [line] in LN; cbn [nls] in E.
  - apply (chr_fails X f j); [exact H|exact E].
  - cbn [cmt call out]. apply H. now rewrite Nat.add_0_r in E.
  - apply andb_true_iff in LN as [L1 L2]. cbn [cmt call out]. apply (IHr1 X (j + nls r2)%nat); [exact L1|now apply IHr2|].
    now replace (j + nls r2 + nls r1)%nat with (j + (nls r1 + nls r2))%nat by lia.
  - apply andb_true_iff in LN as [L1 L2]. cbn [cmt call out]. rewrite orelse_out.
    rewrite (IHr1 X j kk L1 H), (IHr2 X j kk L2 H); [reflexivity| |].
    + apply (ends_minus (Nat.max (nls r1) (nls r2) - nls r2)). now replace (j + nls r2 + (Nat.max (nls r1) (nls r2) - nls r2))%nat with (j + Nat.max (nls r1) (nls r2))%nat by lia.
    + apply (ends_minus (Nat.max (nls r1) (nls r2) - nls r1)). now replace (j + nls r1 + (Nat.max (nls r1) (nls r2) - nls r1))%nat with (j + Nat.max (nls r1) (nls r2))%nat by lia.
  - destruct r; try discriminate. apply negb_true_iff in LN. rewrite Nat.add_0_r in E.
    change (out (cstar (@cmt (RChr f) X) greedy (length i) i c kk) = None). now apply (star_fails X f greedy kk j).
  - cbn [cmt call out]. apply (IHr X j); [exact LN| |exact E]. intros i' c' E'. now apply H.
  - cbn [cmt call out orelse]. rewrite Nat.add_0_r in E. destruct (out (cmt r i c _)); [now apply H|reflexivity].
  - cbn [cmt call out]. rewrite Nat.add_0_r in E. destruct i; [now apply H|reflexivity].
Qed.

(** The end of the text is not reached. *)
Lemma end_fails : forall X (k : text -> caps -> counted X), fails_at 1 (fun i c => cmt REnd i c k).
Proof. intros X k i c [p E]. destruct i as [|a i]; [destruct p; discriminate|reflexivity]. Qed.

(** * Lower bounds *)
Section Down.
Context {X : Type}.
Implicit Type k : text -> caps -> counted X.
Lemma w_seq : forall a b i c k, steps (cmt a i c (fun i' c' => cmt b i' c' k)) <= steps (cmt (RSeq a b) i c k).
Proof. intros. cbn [cmt call steps]. lia. Qed.
Lemma w_eps : forall i c k, steps (k i c) <= steps (cmt REps i c k).
Proof. intros. cbn [cmt call steps]. lia. Qed.
Lemma w_chr : forall f a i c k, f a = true -> steps (k i c) <= steps (cmt (RChr f) (a :: i) c k).
Proof. intros f a i c k F. rewrite cmt_chr, F. cbn [call steps]. lia. Qed.
Lemma eq_nc_refl : forall a, eq_nc a a = true.
Proof. intros [[] [] [] [] [] [] [] []]; reflexivity. Qed.
Lemma w_lit : forall s i c k, steps (k i c) <= steps (cmt (RLit s) (s ++ i) c k).
Proof.
  induction s as [|a s IH]; intros i c k; cbn [RLit app].
  - cbn [cmt call steps]. lia.
  - etransitivity; [|apply w_seq]. etransitivity; [|apply w_chr, eq_nc_refl]. apply IH.
Qed.
Lemma w_grp : forall n a i c k, steps (cmt a i c (fun i' c' => k i' ((n, upto i i') :: c'))) <= steps (cmt (RGrp n a) i c k).
Proof. intros. cbn [cmt call steps]. lia. Qed.
Lemma w_alt1 : forall a b i c k, steps (cmt a i c k) <= steps (cmt (RAlt a b) i c k).
Proof. intros. cbn [cmt call steps orelse]. lia. Qed.
Lemma w_alt2 : forall a b i c k, out (cmt a i c k) = None -> steps (cmt b i c k) <= steps (cmt (RAlt a b) i c k).
Proof. intros a b i c k E. cbn [cmt call steps orelse]. rewrite E. lia. Qed.
Lemma w_look : forall a i c c' k, out (cmt a i c (fun _ c' => stop (Some c'))) = Some c' -> steps (k i c') <= steps (cmt (RLook a) i c k).
Proof. intros a i c c' k E. cbn [cmt call steps orelse]. rewrite E. lia. Qed.
Lemma w_none : forall f a i c k, f a = false -> steps (k (a :: i) c) <= steps (cmt (RStar true (RChr f)) (a :: i) c k).
Proof.
  intros f a i c k F. change (steps (k (a :: i) c) <= steps (cstar (@cmt (RChr f) X) true (S (length i)) (a :: i) c k) + 1).
  cbn [cstar call steps orelse]. rewrite cmt_chr, F. cbn [call stop out steps]. lia.
Qed.

(** The repetitions. *)
Definition rep_steps (g : bool) (f : ascii -> bool) (i : text) (c : caps) (k : text -> caps -> counted X) : N :=
  steps (cstar (@cmt (RChr f) X) g (length i) i c k).
Lemma w_rep : forall g f i c k, rep_steps g f i c k <= steps (cmt (RStar g (RChr f)) i c k).
Proof. intros. unfold rep_steps. change (steps (cstar (@cmt (RChr f) X) g (length i) i c k) <= steps (cstar (@cmt (RChr f) X) g (length i) i c k) + 1). lia. Qed.
Lemma w_more : forall g f j a i c k, f newline = false -> fails_at j k -> ends j (a :: i) -> f a = true ->
  steps (k (a :: i) c) + rep_steps g f i c k + 1 <= rep_steps g f (a :: i) c k.
Proof.
  intros g f j a i c k F H E A. unfold rep_steps. cbn [length cstar call steps].
  set (it := cmt (RChr f) (a :: i) c _).
  assert (N1 : out it = None).
  { unfold it. apply (chr_fails X f j); [|rewrite F, Nat.add_0_r; exact E]. intros i' c' E'.
    destruct (length i' <? S (length i))%nat; [now apply (star_fails X f g k j)|reflexivity]. }
  assert (W : rep_steps g f i c k + 1 = steps it).
  { unfold it. rewrite cmt_chr, A. cbn [call steps].
    replace (length i <? S (length i))%nat with true by (symmetry; apply Nat.ltb_lt; lia). reflexivity. }
  unfold rep_steps in W. destruct g; cbn [orelse steps].
  - rewrite N1. lia.
  - rewrite (H _ c E). lia.
Qed.
Lemma w_skip : forall g f j p i c k, f newline = false -> fails_at j k -> ends j i -> forallb f p = true ->
  rep_steps g f i c k <= rep_steps g f (p ++ i) c k.
Proof.
  intros g f j p i c k F H E P. induction p as [|a p IH]; [apply N.le_refl|]. cbn [forallb] in P. apply andb_true_iff in P as [A P].
  specialize (IH P). cbn [app]. pose proof (w_more g f j a (p ++ i) c k F H) as W.
  assert (ends j (a :: p ++ i)) by (destruct E as [q ->]; exists (a :: p ++ q); cbn [app]; now rewrite <- app_assoc).
  specialize (W H0 A). lia.
Qed.
(** At least one step for each character. *)
Lemma w_length : forall g f j p i c k, f newline = false -> fails_at j k -> ends j i -> forallb f p = true ->
  N.of_nat (length p) <= rep_steps g f (p ++ i) c k.
Proof.
  intros g f j p i c k F H E P. induction p as [|a p IH]; [cbn; lia|]. cbn [forallb] in P. apply andb_true_iff in P as [A P].
  specialize (IH P). cbn [app length]. pose proof (w_more g f j a (p ++ i) c k F H) as W.
  assert (ends j (a :: p ++ i)) by (destruct E as [q ->]; exists (a :: p ++ q); cbn [app]; now rewrite <- app_assoc).
  specialize (W H0 A). lia.
Qed.
End Down.

(** * The texts *)
(** The block, without the blanks that the expression allows but does not need. *)
Definition block : text := L "WHERE xxxANDCONTAINSANDxxHAVING".
Fixpoint blocks (n : nat) : text := match n with O => repeat newline 4 | S n' => block ++ blocks n' end.

Lemma blocks_dots : forall n, exists p, blocks n = p ++ repeat newline 4 /\ forallb is_dot p = true /\ length p = (31 * n)%nat.
Proof.
  induction n as [|n (p & E & D & N)].
  - exists []. repeat split.
  - exists (block ++ p). cbn [blocks]. rewrite E, app_assoc. split; [reflexivity|]. rewrite forallb_app, D, app_length, N. split; [reflexivity|].
    cbn [block L list_ascii_of_string length]. lia.
Qed.
Lemma blocks_ends : forall n p j, (j <= 4)%nat -> ends j (p ++ blocks n).
Proof.
  intros n p j J. destruct (blocks_dots n) as (q & -> & _). apply (ends_minus (4 - j)). replace (j + (4 - j))%nat with 4%nat by lia.
  exists (p ++ q). now rewrite app_assoc.
Qed.

Section Layers.
Variable k0 : text -> caps -> counted (text * caps).

(** What follows the condition behind the geometry. *)
Definition k_tail (i : text) (c : caps) : counted (text * caps) := cmt r_tail i c k0.
Lemma tail_fails : fails_at 1 k_tail.
Proof.
  intros i c E. unfold k_tail, r_tail. cbn [cmt call out].
  apply (star_fails _ is_dot true _ 1); [reflexivity| |exact E]. intros i' c' E'. now apply end_fails.
Qed.
Lemma tail_steps : forall n p c, forallb is_dot p = true -> 31 * N.of_nat n <= steps (k_tail (p ++ blocks n) c).
Proof.
  intros n p c P. destruct (blocks_dots n) as (q & E & D & N). rewrite E, app_assoc. unfold k_tail, r_tail.
  etransitivity; [|apply w_seq]. etransitivity; [|apply w_grp]. cbn beta; etransitivity; [|apply w_rep].
  etransitivity; [|apply (w_length true is_dot 1)]; [rewrite app_length, N; lia|reflexivity| | |now rewrite forallb_app, P, D].
  - intros i' c' E'. now apply end_fails.
  - now exists (repeat newline 3).
Qed.
End Layers.

(** Shows the first character. *)
Ltac head := cbn beta; match goal with |- _ <= steps (cmt _ ?i _ _) => let i' := eval hnf in i in change i with i' end.
Ltac down := cbn beta; etransitivity; [|first [apply w_seq | apply w_grp]].
Ltac down1 := try down; head; etransitivity; [|apply w_chr; reflexivity].
Ltac lit := cbn beta; etransitivity; [|apply w_lit].
Ltac none := head; etransitivity; [|apply w_none; reflexivity].

(** ** The condition behind the geometry may end in front of every HAVING. *)
Definition look_right : re := RLook (RSeq r_sp (RAlts [r_word "HAVING"; r_word " GROUP"; r_word " ORDER"; REnd])).
Section Right.
Context {X : Type}.
Variable k : text -> caps -> counted X.
Hypothesis kf : fails_at 1 k.
Hypothesis ks : forall n p c, forallb is_dot p = true -> 31 * N.of_nat n <= steps (k (p ++ blocks n) c).

Lemma right_rep : forall n c, 15 * (N.of_nat n * N.of_nat n) <= rep_steps false is_dot (L "HAVING" ++ blocks n) c (fun i c => cmt look_right i c k).
Proof.
  assert (F : fails_at 1 (fun i c => cmt look_right i c k)) by exact (cmt_fails look_right X 1 k eq_refl kf).
  induction n as [|n IH]; intros c; [apply N.le_0_l|].
  etransitivity; [|apply (w_more false is_dot 1 "H"%char (L "AVING" ++ blocks (S n)) c); [reflexivity|exact F|apply (blocks_ends _ (L "HAVING")); lia|reflexivity]].
  assert (A : 31 * N.of_nat (S n) <= steps (cmt look_right (L "HAVING" ++ blocks (S n)) c k)).
  { etransitivity; [|apply (w_look _ _ _ c); reflexivity]. now apply ks. }
  assert (B : 15 * (N.of_nat n * N.of_nat n) <= rep_steps false is_dot (L "AVING" ++ blocks (S n)) c (fun i c => cmt look_right i c k)).
  { etransitivity; [apply (IH c)|].
    apply (w_skip false is_dot 1 (L "AVINGWHERE xxxANDCONTAINSANDxx") (L "HAVING" ++ blocks n)); [reflexivity|exact F|apply blocks_ends; lia|reflexivity]. }
  change ("H"%char :: L "AVING" ++ blocks (S n)) with (L "HAVING" ++ blocks (S n)). rewrite Nat2N.inj_succ in *. nia.
Qed.

End Right.

Lemma right_steps : forall X (k : text -> caps -> counted X), fails_at 1 k ->
  (forall n p c, forallb is_dot p = true -> 31 * N.of_nat n <= steps (k (p ++ blocks n) c)) ->
  forall n c, 15 * (N.of_nat n * N.of_nat n) <= steps (cmt r_right (L "ANDxxHAVING" ++ blocks n) c k).
Proof.
  intros X k kf ks n c. cbn beta; etransitivity; [|apply w_alt1]. do 2 down. none.
  down. cbn beta; match goal with |- _ <= steps (cmt _ ?i _ _) => change i with (L "AND" ++ L "xxHAVING" ++ blocks n) end. lit.
  none. down. down1. down. down1.
  cbn beta; etransitivity; [|apply w_rep].
  cbn beta; match goal with |- _ <= rep_steps _ _ _ _ (fun i' c' => cmt _ i' c' ?k') => apply (right_rep k') end.
  - intros i' c' E. now apply kf.
  - intros n' p c' P. now apply ks.
Qed.

(** ** The geometry may end in front of every AND. *)
Definition look_geom : re := RLook (RSeq r_sp (RAlts [r_word "AND"; r_word "HAVING"; r_word "GROUP"; r_word "ORDER"; REnd])).
Section Geom.
Context {X : Type}.
Variable k : text -> caps -> counted X.
Hypothesis kf : fails_at 2 k.
Hypothesis ks : forall n c, 15 * (N.of_nat n * N.of_nat n) <= steps (k (L "ANDxxHAVING" ++ blocks n) c).

Lemma geom_rep : forall n c, 5 * (N.of_nat n * N.of_nat n * N.of_nat n) <= rep_steps false is_dot (L "ANDxxHAVING" ++ blocks n) c (fun i c => cmt look_geom i c k).
Proof.
  assert (F : fails_at 2 (fun i c => cmt look_geom i c k)) by exact (cmt_fails look_geom X 2 k eq_refl kf).
  induction n as [|n IH]; intros c; [apply N.le_0_l|].
  etransitivity; [|apply (w_more false is_dot 2 "A"%char (L "NDxxHAVING" ++ blocks (S n)) c); [reflexivity|exact F|apply (blocks_ends _ (L "ANDxxHAVING")); lia|reflexivity]].
  assert (A : 15 * (N.of_nat (S n) * N.of_nat (S n)) <= steps (cmt look_geom (L "ANDxxHAVING" ++ blocks (S n)) c k)).
  { etransitivity; [|apply (w_look _ _ _ c); reflexivity]. now apply ks. }
  assert (B : 5 * (N.of_nat n * N.of_nat n * N.of_nat n) <= rep_steps false is_dot (L "NDxxHAVING" ++ blocks (S n)) c (fun i c => cmt look_geom i c k)).
  { etransitivity; [apply (IH c)|].
    apply (w_skip false is_dot 2 (L "NDxxHAVINGWHERE xxxANDCONTAINS") (L "ANDxxHAVING" ++ blocks n)); [reflexivity|exact F|apply blocks_ends; lia|reflexivity]. }
  change ("A"%char :: L "NDxxHAVING" ++ blocks (S n)) with (L "ANDxxHAVING" ++ blocks (S n)). rewrite Nat2N.inj_succ in *. nia.
Qed.
End Geom.

Lemma geom_steps : forall X (k : text -> caps -> counted X), fails_at 2 k ->
  (forall n c, 15 * (N.of_nat n * N.of_nat n) <= steps (k (L "ANDxxHAVING" ++ blocks n) c)) ->
  forall n c, 5 * (N.of_nat n * N.of_nat n * N.of_nat n) <= steps (cmt r_geom (L "CONTAINSANDxxHAVING" ++ blocks n) c k).
Proof.
  intros X k kf ks n c. unfold r_geom. do 2 down. cbn beta; etransitivity; [|apply w_alt2; reflexivity]. etransitivity; [|apply w_eps]. down.
  cbn beta; etransitivity; [|apply w_alt1].
  cbn beta; match goal with |- _ <= steps (cmt _ ?i _ _) => change i with (L "CONTAINS" ++ L "ANDxxHAVING" ++ blocks n) end. lit. down.
  cbn beta; etransitivity; [|apply w_rep].
  cbn beta; match goal with |- _ <= rep_steps _ _ _ _ (fun i' c' => cmt _ i' c' ?k') => apply (geom_rep k') end.
  - intros i' c' E. now apply kf.
  - intros n' c'. now apply ks.
Qed.

(** ** The condition in front of the geometry may end in front of every AND. *)
Section Left.
Context {X : Type}.
Variable k : text -> caps -> counted X.
Hypothesis kf : fails_at 2 k.
Hypothesis ks : forall n c, 5 * (N.of_nat n * N.of_nat n * N.of_nat n) <= steps (k (L "ANDCONTAINSANDxxHAVING" ++ blocks n) c).

Lemma left_rep : forall n c, N.of_nat n * N.of_nat n * N.of_nat n * N.of_nat n <=
  rep_steps true is_dot (L "xANDCONTAINSANDxxHAVING" ++ blocks n) c (fun i c => cmt r_nonsp i c k).
Proof.
  assert (F : fails_at 3 (fun i c => cmt r_nonsp i c k)) by exact (cmt_fails r_nonsp X 2 k eq_refl kf).
  induction n as [|n IH]; intros c; [apply N.le_0_l|].
  etransitivity; [|apply (w_more true is_dot 3 "x"%char (L "ANDCONTAINSANDxxHAVING" ++ blocks (S n)) c); [reflexivity|exact F|apply (blocks_ends _ (L "xANDCONTAINSANDxxHAVING")); lia|reflexivity]].
  assert (A : 5 * (N.of_nat (S n) * N.of_nat (S n) * N.of_nat (S n)) <= steps (cmt r_nonsp (L "xANDCONTAINSANDxxHAVING" ++ blocks (S n)) c k)).
  { etransitivity; [|apply w_chr; reflexivity]. apply ks. }
  assert (B : N.of_nat n * N.of_nat n * N.of_nat n * N.of_nat n <=
    rep_steps true is_dot (L "ANDCONTAINSANDxxHAVING" ++ blocks (S n)) c (fun i c => cmt r_nonsp i c k)).
  { etransitivity; [apply (IH c)|].
    apply (w_skip true is_dot 3 (L "ANDCONTAINSANDxxHAVINGWHERE xx") (L "xANDCONTAINSANDxxHAVING" ++ blocks n)); [reflexivity|exact F|apply blocks_ends; lia|reflexivity]. }
  change ("x"%char :: L "ANDCONTAINSANDxxHAVING" ++ blocks (S n)) with (L "xANDCONTAINSANDxxHAVING" ++ blocks (S n)). rewrite Nat2N.inj_succ in *.
  generalize dependent (N.of_nat n). intros x _ A B. nia.
Qed.
End Left.

(** ** The start *)
Lemma seq_out : forall X a b i c (k : text -> caps -> counted X), out (cmt (RSeq a b) i c k) = out (cmt a i c (fun i' c' => cmt b i' c' k)).
Proof. reflexivity. Qed.
Section Start.
Variable k : text -> caps -> counted (text * caps).
Definition k_right (i : text) (c : caps) : counted (text * caps) := cmt (RSeq r_right r_tail) i c k.
Lemma right_fails : fails_at 2 k_right.
Proof.
  intros i c E. unfold k_right. rewrite seq_out.
  exact (cmt_fails r_right _ 1 (k_tail k) eq_refl (tail_fails k) i c E).
Qed.
Lemma k_right_steps : forall n c, 15 * (N.of_nat n * N.of_nat n) <= steps (k_right (L "ANDxxHAVING" ++ blocks n) c).
Proof. intros n c. unfold k_right. down. apply (right_steps _ (k_tail k) (tail_fails k) (tail_steps k)). Qed.

Definition k_and (i : text) (c : caps) : counted (text * caps) := cmt (RSeq r_and (RSeq r_geom (RSeq r_right r_tail))) i c k.
Lemma and_fails : fails_at 2 k_and.
Proof.
  intros i c E. unfold k_and. rewrite seq_out.
  refine (cmt_fails r_and _ 2 (fun i' c' => cmt (RSeq r_geom (RSeq r_right r_tail)) i' c' k) eq_refl _ i c E).
  intros i' c' E'. rewrite seq_out. exact (cmt_fails r_geom _ 2 k_right eq_refl right_fails i' c' E').
Qed.
Lemma k_and_steps : forall n c, 5 * (N.of_nat n * N.of_nat n * N.of_nat n) <= steps (k_and (L "ANDCONTAINSANDxxHAVING" ++ blocks n) c).
Proof.
  intros n c. unfold k_and. do 2 down. none. down.
  cbn beta; match goal with |- _ <= steps (cmt _ ?i _ _) => change i with (L "AND" ++ L "CONTAINSANDxxHAVING" ++ blocks n) end. lit.
  none. down. apply (geom_steps _ k_right right_fails k_right_steps).
Qed.

Lemma regex_fails : fails_at 4 (fun i c => cmt the_regex i c k).
Proof. intros i c E. unfold the_regex. rewrite seq_out. exact (cmt_fails r_left _ 2 k_and eq_refl and_fails i c E). Qed.
Lemma regex_steps : forall n c, N.of_nat n * N.of_nat n * N.of_nat n * N.of_nat n <= steps (cmt the_regex (blocks (S n)) c k).
Proof.
  intros n c. do 2 down. cbn beta; match goal with |- _ <= steps (cmt _ ?i _ _) => change i with (L "WHERE " ++ L "xxxANDCONTAINSANDxxHAVING" ++ blocks n) end.
  lit. down. down1. down. down1. cbn beta; etransitivity; [|apply w_rep].
  cbn beta; match goal with |- _ <= rep_steps _ _ _ _ (fun i' c' => cmt _ i' c' ?k') => apply (left_rep k') end.
  - intros i' c' E. now apply and_fails.
  - intros n' c'. apply k_and_steps.
Qed.
End Start.

Lemma search_skip : forall i' p, (forall q, ends 4 (q ++ i')) -> steps (csearch the_regex i') <= steps (csearch the_regex (p ++ i')).
Proof.
  intros i' p E. induction p as [|a p IH]; [apply N.le_refl|]. cbn [app csearch orelse steps].
  rewrite (regex_fails (fun i c => stop (Some (i, c))) (a :: p ++ i') [] (E (a :: p))). lia.
Qed.
Lemma search_steps : forall n, N.of_nat n * N.of_nat n * N.of_nat n * N.of_nat n * N.of_nat n <= 5 * steps (csearch the_regex (blocks (S n))).
Proof.
  induction n as [|n IH]; [cbn [N.of_nat]; lia|].
  assert (A : N.of_nat (S n) * N.of_nat (S n) * N.of_nat (S n) * N.of_nat (S n) + steps (csearch the_regex (blocks (S n))) <= steps (csearch the_regex (blocks (S (S n))))).
  { pose proof (regex_steps (fun i c => stop (Some (i, c))) (S n) []) as R.
    pose proof (regex_fails (fun i c => stop (Some (i, c))) (blocks (S (S n))) [] (blocks_ends (S (S n)) [] 4 (le_n _))) as F.
    pose proof (search_skip (blocks (S n)) (tl block) (fun q => blocks_ends (S n) q 4 (le_n _))) as K.
    change (blocks (S (S n))) with ("W"%char :: tl block ++ blocks (S n)) in *. cbn [csearch orelse steps]. rewrite F. lia. }
  rewrite Nat2N.inj_succ in *. generalize dependent (N.of_nat n). intros x IH A. nia.
Qed.
