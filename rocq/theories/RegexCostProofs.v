(** Proofs about the counting matcher, RegexCost.v. *)
From Verif Require Import RegexCost.
From Coq Require Import Lia.
Local Open Scope N_scope.

Definition len (i : text) : N := N.of_nat (length i).

Lemma len_cons : forall a i, len (a :: i) = len i + 1.
Proof. intros. unfold len. cbn [length]. lia. Qed.

(** * The counts do not change the answer *)
Lemma orelse_out : forall X (a : counted X) (no : unit -> counted X),
  out (orelse a (fun x => stop (Some x)) no) = match out a with Some x => Some x | None => out (no tt) end.
Proof. intros. cbn. destruct (out a); reflexivity. Qed.

Lemma cstar_out : forall X (body : text -> caps -> (text -> caps -> counted X) -> counted X)
    (body' : text -> caps -> (text -> caps -> option X) -> option X) g,
  (forall i c k k', (forall i' c', out (k i' c') = k' i' c') -> out (body i c k) = body' i c k') ->
  forall n i c k k', (forall i' c', out (k i' c') = k' i' c') ->
  out (cstar body g n i c k) = mstar body' g n i c k'.
Proof.
  intros X body body' g HB. induction n as [|n IH]; intros i c k k' HK; cbn [cstar mstar call out]; destruct g;
    rewrite orelse_out.
  - cbn. apply HK.
  - rewrite HK. destruct (k' i c); reflexivity.
  - rewrite (HB i c _ (fun i' c' => if (length i' <? length i)%nat then mstar body' true n i' c' k' else None)).
    + rewrite HK. reflexivity.
    + intros i' c'. destruct (length i' <? length i)%nat; [now apply IH|reflexivity].
  - rewrite HK. destruct (k' i c); [reflexivity|]. apply HB.
    intros i' c'. destruct (length i' <? length i)%nat; [now apply IH|reflexivity].
Qed.

Lemma cmt_out : forall r X i c (k : text -> caps -> counted X) k',
  (forall i' c', out (k i' c') = k' i' c') -> out (cmt r i c k) = mt r i c k'.
Proof.
  induction r; intros X i c kk k' HK; cbn [cmt mt call out].
  - destruct i; [reflexivity|]. destruct (f a); [apply HK|reflexivity].
  - apply HK.
  - apply IHr1. intros. now apply IHr2.
  - rewrite orelse_out. rewrite (IHr1 _ _ _ kk k' HK), (IHr2 _ _ _ kk k' HK). reflexivity.
  - apply cstar_out; [|exact HK]. intros. now apply IHr.
  - apply IHr. intros. apply HK.
  - cbn [orelse out]. rewrite (IHr caps i c _ (fun _ c' => Some c')) by reflexivity.
    destruct (mt r i c (fun _ c' => Some c')); [apply HK|reflexivity].
  - destruct i; [apply HK|reflexivity].
Qed.

Lemma csearch_out : forall r i pre, out (csearch r i) =
  match search_from r pre i with Some m => Some (m_suf m, m_caps m) | None => None end.
Proof.
  induction i as [|a i IH]; intros pre; cbn [csearch search_from]; rewrite orelse_out;
    rewrite (cmt_out r _ _ _ _ (fun i' c' => Some (i', c'))) by reflexivity;
    destruct mt as [[i' c']|]; try reflexivity. apply IH.
Qed.

(** * An upper bound for the steps *)
Definition starts (f : ascii -> bool) (i : text) : bool := match i with a :: _ => f a | [] => false end.

Section Upper.
Context {X : Type}.
Variable n : N.

(** [k] takes at most [K] steps on texts of length [n] at most. *)
Definition upto_steps (k : text -> caps -> counted X) (K : N) : Prop :=
  forall i c, len i <= n -> steps (k i c) <= K.

Lemma orelse_steps : forall Y (a : counted Y) (no : unit -> counted Y) A B,
  steps a <= A -> steps (no tt) <= B -> steps (orelse a (fun x => stop (Some x)) no) <= A + B.
Proof. intros Y a no A B HA HB. cbn. destruct (out a); cbn; lia. Qed.

Lemma st_weaken : forall k K K', upto_steps k K -> K <= K' -> upto_steps k K'.
Proof. intros k K K' H L i c Hi. specialize (H i c Hi). lia. Qed.

Lemma st_chr : forall f k K, upto_steps k K -> upto_steps (fun i c => cmt (RChr f) i c k) (K + 1).
Proof.
  intros f k K H i c Hi. destruct i as [|a i]; cbn; [lia|]. rewrite len_cons in Hi. destruct (f a); cbn; [|lia].
  specialize (H i c ltac:(lia)). lia.
Qed.

Lemma st_eps : forall k K, upto_steps k K -> upto_steps (fun i c => cmt REps i c k) (K + 1).
Proof. intros k K H i c Hi. cbn. specialize (H i c Hi). lia. Qed.

Lemma st_end : forall k K, upto_steps k K -> upto_steps (fun i c => cmt REnd i c k) (K + 1).
Proof. intros k K H i c Hi. destruct i; cbn; [|lia]. specialize (H [] c Hi). lia. Qed.

Lemma st_seq : forall a b k B, upto_steps (fun i c => cmt a i c (fun i' c' => cmt b i' c' k)) B ->
  upto_steps (fun i c => cmt (RSeq a b) i c k) (B + 1).
Proof. intros a b k B H i c Hi. cbn [cmt call steps]. specialize (H i c Hi). cbn beta in H. lia. Qed.

Lemma st_alt : forall a b k A B, upto_steps (fun i c => cmt a i c k) A -> upto_steps (fun i c => cmt b i c k) B ->
  upto_steps (fun i c => cmt (RAlt a b) i c k) (A + B + 1).
Proof.
  intros a b k A B HA HB i c Hi. cbn [cmt call steps].
  pose proof (orelse_steps _ (cmt a i c k) (fun _ => cmt b i c k) A B (HA i c Hi) (HB i c Hi)). lia.
Qed.

Lemma cmt_chr : forall f i c (k : text -> caps -> counted X), cmt (RChr f) i c k =
  call match i with a :: i' => if f a then k i' c else stop None | [] => stop None end.
Proof. reflexivity. Qed.

Lemma cstar_steps : forall f g m k Kb K,
  (forall i c, len i <= n -> starts f i = true -> steps (k i c) <= Kb) -> upto_steps k K ->
  forall i c, len i <= n -> steps (cstar (@cmt (RChr f) X) g m i c k) <= (len i + 1) * (Kb + 2) + K.
Proof.
  intros f g m k Kb K HB HK. induction m as [|m IH]; intros i c Hi; cbn [cstar call steps].
  - assert (steps (k i c) <= K) by now apply HK. assert (2 <= (len i + 1) * (Kb + 2)) by (change 2 with (1 * 2) at 1; apply N.mul_le_mono; lia).
    destruct g; [cbn; lia|].
    pose proof (orelse_steps _ (k i c) (fun _ => stop None) K 0 ltac:(lia) ltac:(cbn; lia)). lia.
  - set (it := cmt (RChr f) i c _). pose (again := fun _ : unit => it).
    change (steps (if g then orelse (again tt) (fun x => stop (Some x)) (fun _ => k i c) else orelse (k i c) (fun x => stop (Some x)) again) + 1 <= (len i + 1) * (Kb + 2) + K).
    assert (A : starts f i = false -> steps (again tt) <= 1).
    { intros E. unfold again, it. destruct i as [|a i]; cbn [cmt call steps stop]; [lia|]. cbn in E. rewrite E. cbn [stop steps]. lia. }
    assert (A' : starts f i = true -> steps (again tt) <= len i * (Kb + 2) + K + 1).
    { intros E. unfold again, it. destruct i as [|a i]; [discriminate|]. cbn in E. rewrite cmt_chr, E. cbn [call steps].
      replace (length i <? length (a :: i))%nat with true by (symmetry; apply Nat.ltb_lt; cbn; lia).
      rewrite len_cons in *. specialize (IH i c ltac:(lia)). lia. }
    destruct (starts f i) eqn:E.
    + specialize (A' eq_refl). specialize (HB i c Hi E).
      assert (steps (if g then orelse (again tt) (fun x => stop (Some x)) (fun _ => k i c) else orelse (k i c) (fun x => stop (Some x)) again)
              <= (len i * (Kb + 2) + K + 1) + Kb).
      { destruct g; [now apply orelse_steps|]. rewrite N.add_comm. now apply orelse_steps. }
      nia.
    + specialize (A eq_refl). specialize (HK i c Hi).
      assert (steps (if g then orelse (again tt) (fun x => stop (Some x)) (fun _ => k i c) else orelse (k i c) (fun x => stop (Some x)) again)
              <= 1 + K).
      { destruct g; [now apply orelse_steps|]. rewrite N.add_comm. now apply orelse_steps. }
      nia.
Qed.

(** A repetition of a character: every position may continue ... *)
Lemma st_star : forall f g k K, upto_steps k K ->
  upto_steps (fun i c => cmt (RStar g (RChr f)) i c k) ((n + 1) * (K + 2) + K + 1).
Proof.
  intros f g k K H i c Hi. change (steps (cstar (@cmt (RChr f) X) g (length i) i c k) + 1 <= (n + 1) * (K + 2) + K + 1).
  pose proof (cstar_steps f g (length i) k K K ltac:(intros; now apply H) H i c Hi).
  assert ((len i + 1) * (K + 2) <= (n + 1) * (K + 2)) by (apply N.mul_le_mono_r; lia). lia.
Qed.

(** ... but if what follows fails at once on a further such character, only one does. *)
Lemma st_run : forall f g k Kb K, (forall i c, starts f i = true -> steps (k i c) <= Kb) -> upto_steps k K ->
  upto_steps (fun i c => cmt (RStar g (RChr f)) i c k) ((n + 1) * (Kb + 2) + K + 1).
Proof.
  intros f g k Kb K HB H i c Hi. change (steps (cstar (@cmt (RChr f) X) g (length i) i c k) + 1 <= (n + 1) * (Kb + 2) + K + 1).
  pose proof (cstar_steps f g (length i) k Kb K ltac:(intros; now apply HB) H i c Hi).
  assert ((len i + 1) * (Kb + 2) <= (n + 1) * (Kb + 2)) by (apply N.mul_le_mono_r; lia). lia.
Qed.

Lemma st_grp : forall m a k K A, (forall k', upto_steps k' K -> upto_steps (fun i c => cmt a i c k') A) -> upto_steps k K ->
  upto_steps (fun i c => cmt (RGrp m a) i c k) (A + 1).
Proof.
  intros m a k K A H HK i c Hi. cbn [cmt call steps].
  specialize (H (fun i' c' => k i' ((m, upto i i') :: c')) ltac:(intros i' c' Hi'; now apply HK) i c Hi). cbn beta in H. lia.
Qed.
End Upper.

Lemma st_look : forall X n a (k : text -> caps -> counted X) A K,
  upto_steps n (fun i c => cmt a i c (fun _ c' => stop (Some c'))) A -> upto_steps n k K ->
  upto_steps n (fun i c => cmt (RLook a) i c k) (A + K + 1).
Proof.
  intros X n a k A K HA HK i c Hi. cbn [cmt call steps orelse]. specialize (HA i c Hi). cbn beta in HA.
  destruct (out (cmt a i c (fun _ c' => stop (Some c')))) as [c'|]; [specialize (HK i c' Hi)|]; cbn; lia.
Qed.

Lemma eq_blank : forall a, eq_nc " " a = true -> a = " "%char.
Proof. intros [[] [] [] [] [] [] [] []]; vm_compute; congruence. Qed.

(** What begins with a character other than a blank fails at once on a blank. *)
Ltac on_blank :=
  let i := fresh "i" in let c := fresh "c" in let H := fresh "H" in
  intros i c H; destruct i as [|? i]; [discriminate|]; apply eq_blank in H; subst; vm_compute; discriminate.

Lemma st_lit : forall X n s (k : text -> caps -> counted X) K, upto_steps n k K ->
  upto_steps n (fun i c => cmt (RLit s) i c k) (K + 2 * N.of_nat (length s) + 1).
Proof.
  intros X n s k K H. induction s as [|a s IH].
  - eapply st_weaken; [apply st_eps, H|lia].
  - cbn [RLit]. eapply st_weaken; [apply st_seq, st_chr, IH|]. cbn [length]. lia.
Qed.

Section Regex.
Context {X : Type}.
Variable n : N.
Let M := n + 1.

Lemma M_pos : 1 <= M.
Proof. unfold M. lia. Qed.

Ltac bnd := pose proof M_pos as HM1; fold M; clearbody M; cbn [length L list_ascii_of_string N.of_nat Pos.of_succ_nat Pos.succ];
  assert (M <= M * M) by nia; assert (M * M <= M * M * M) by nia; try lia.

(** (.* )$ *)
Lemma st_tail : forall k : text -> caps -> counted X, upto_steps n k 0 -> upto_steps n (fun i c => cmt r_tail i c k) (8 * M).
Proof.
  intros k H. eapply st_weaken.
  - apply st_seq. eapply st_grp; [|apply st_end, H]. intros k' H'. apply st_star, H'.
  - bnd.
Qed.

(** the two look-aheads *)
Lemma st_look_geom : forall (k : text -> caps -> counted X) K, upto_steps n k K ->
  upto_steps n (fun i c => cmt (RLook (RSeq r_sp (RAlts [r_word "AND"; r_word "HAVING"; r_word "GROUP"; r_word "ORDER"; REnd]))) i c k)
    (K + 100 * M).
Proof.
  intros k K H. set (stopk := fun (_ : text) (c' : caps) => stop (Some c')).
  assert (S0 : upto_steps n stopk 0) by (intros i c _; cbn; lia).
  eapply st_weaken.
  - apply st_look; [|exact H]. apply st_seq. apply (st_run n (eq_nc " ") true _ 40).
    + on_blank.
    + cbn [RAlts]. repeat (apply st_alt; [apply st_lit, S0|]). apply st_end, S0.
  - bnd.
Qed.

Lemma st_look_right : forall (k : text -> caps -> counted X) K, upto_steps n k K ->
  upto_steps n (fun i c => cmt (RLook (RSeq r_sp (RAlts [r_word "HAVING"; r_word " GROUP"; r_word " ORDER"; REnd]))) i c k)
    (K + 150 * M).
Proof.
  intros k K H. set (stopk := fun (_ : text) (c' : caps) => stop (Some c')).
  assert (S0 : upto_steps n stopk 0) by (intros i c _; cbn; lia).
  assert (A : upto_steps n (fun i c => cmt (RAlts [r_word "HAVING"; r_word " GROUP"; r_word " ORDER"; REnd]) i c stopk) 50).
  { eapply st_weaken; [cbn [RAlts]; repeat (apply st_alt; [apply st_lit, S0|]); apply st_end, S0|bnd]. }
  eapply st_weaken; [apply st_look; [|exact H]; apply st_seq; apply st_star, A|]. bnd.
Qed.

(** " *AND *" in front of what fails at once on a blank *)
Lemma st_and : forall (k : text -> caps -> counted X) Kb K, (forall i c, starts (eq_nc " ") i = true -> steps (k i c) <= Kb) ->
  upto_steps n k K -> upto_steps n (fun i c => cmt r_and i c k) (K + (Kb + 30) * M).
Proof.
  intros k Kb K HB H. eapply st_weaken.
  - apply st_seq. apply (st_run n (eq_nc " ") true _ 3).
    + on_blank.
    + apply st_seq, st_lit. apply (st_run n (eq_nc " ") true _ Kb K HB H).
  - bnd.
Qed.

(** The condition behind the geometry. *)
Lemma st_right : forall k : text -> caps -> counted X, upto_steps n k (8 * M) ->
  upto_steps n (fun i c => cmt r_right i c k) (399 * (M * M)).
Proof.
  intros k H. eapply st_weaken.
  - apply st_alt; [|apply st_eps, H]. apply st_seq. apply (st_and _ 10).
    + on_blank.
    + eapply st_grp; [|exact H]. intros k' H'. apply st_seq, st_chr, st_seq, st_seq, st_chr, st_star, st_look_right, H'.
  - bnd.
Qed.

(** The geometry. *)
Lemma st_geom : forall k : text -> caps -> counted X, upto_steps n k (400 * (M * M)) ->
  upto_steps n (fun i c => cmt r_geom i c k) (7000 * (M * M * M)).
Proof.
  intros k H. eapply st_weaken.
  - eapply st_grp; [|exact H]. intros k' H'. apply st_seq.
    assert (W : upto_steps n (fun i c => cmt (RSeq (RAlt (r_word "CONTAINS") (r_word "INTERSECTS")) (RSeq (RStar false RDot)
               (RLook (RSeq r_sp (RAlts [r_word "AND"; r_word "HAVING"; r_word "GROUP"; r_word "ORDER"; REnd]))))) i c k')
               (2100 * (M * M * M))).
    { eapply st_weaken; [apply st_seq, st_alt; apply st_lit, st_seq, st_star, st_look_geom, H'|]. bnd. }
    apply st_alt; [|apply st_eps, W]. apply st_seq.
    apply st_alt; apply st_chr, st_seq; apply (st_run n (eq_nc " ") true _ 3); try on_blank;
      apply st_seq, st_chr; apply (st_run n (eq_nc " ") true _ 20); try on_blank; exact W.
  - bnd.
Qed.

(** All of it, at one position. *)
Lemma st_regex : forall k : text -> caps -> counted X, upto_steps n k 0 ->
  upto_steps n (fun i c => cmt the_regex i c k) (15000 * (M * M * M * M)).
Proof.
  intros k H. eapply st_weaken.
  - assert (R : upto_steps n (fun i c => cmt (RSeq r_and (RSeq r_geom (RSeq r_right r_tail))) i c k) (7200 * (M * M * M))).
    { eapply st_weaken.
      - apply st_seq. apply (st_and _ 30); [on_blank|]. apply st_seq, st_geom.
        eapply st_weaken; [apply st_seq, st_right, st_tail, H|]. bnd.
      - bnd. }
    apply st_seq, st_seq, st_lit. eapply st_grp; [|exact R]. intros k' H'.
    apply st_seq, st_chr, st_seq, st_seq, st_chr, st_star, st_chr, H'.
  - bnd. assert (M * M * M <= M * M * M * M) by nia. lia.
Qed.
End Regex.

Lemma csearch_steps : forall n i, len i <= n -> steps (csearch the_regex i) <= (len i + 1) * (15000 * ((n + 1) * (n + 1) * (n + 1) * (n + 1))).
Proof.
  intros n. set (B := 15000 * _). induction i as [|a i IH]; intros Hi; cbn [csearch];
    match goal with |- steps (orelse ?x _ ?no) <= _ => assert (A : steps x <= B) by
      (apply (st_regex n (fun i' c' => stop (Some (i', c'))) ltac:(intros ? ? ?; cbn; lia)); exact Hi);
      pose proof (orelse_steps _ x no B) as O end.
  - specialize (O 0 A ltac:(cbn; lia)). change (len []) with 0. lia.
  - rewrite len_cons in *. specialize (O ((len i + 1) * B) A ltac:(apply IH; lia)). lia.
Qed.

Theorem rewriting_polynomial : forall i, rewriting_steps i <= 15000 * (N.of_nat (length i) + 1) ^ 5.
Proof.
  intros i. unfold rewriting_steps. pose proof (csearch_steps (len i) i ltac:(lia)) as H. fold (len i).
  set (x := len i + 1) in *. change 5 with (N.succ (N.succ (N.succ (N.succ (N.succ 0))))).
  rewrite !N.pow_succ_r', N.pow_0_r. lia.
Qed.

(** * How deeply the calls are nested *)
(** Repetitions of single characters only. *)
Fixpoint flat (r : re) : bool :=
  match r with
  | RStar _ a => match a with RChr _ => true | _ => false end
  | RSeq a b | RAlt a b => flat a && flat b
  | RGrp _ a | RLook a => flat a
  | _ => true
  end.
Fixpoint height (r : re) : N :=
  match r with
  | RChr _ | REps | REnd => 1
  | RSeq a b => 1 + height a + height b
  | RAlt a b => 1 + N.max (height a) (height b)
  | RStar _ _ => 3
  | RGrp _ a | RLook a => 1 + height a
  end.

(** [k] goes [D] deep at most, plus twice the length. *)
Definition deep_upto {X : Type} (n : N) (k : text -> caps -> counted X) (D : N) : Prop :=
  forall i c, len i <= n -> stack (k i c) <= D + 2 * len i.

Lemma cstar_stack : forall X f g m (k : text -> caps -> counted X) D i c, deep_upto (len i) k D ->
  stack (cstar (@cmt (RChr f) X) g m i c k) <= D + 2 + 2 * len i.
Proof.
  intros X f g m k D. induction m as [|m IH]; intros i c H; cbn [cstar call stack];
    pose proof (H i c (N.le_refl _)) as H0.
  - destruct g; cbn [orelse stop out steps stack]; [|destruct (out (k i c)); cbn [stop stack]]; lia.
  - assert (A : stack (cmt (RChr f) i c (fun i' c' => if (length i' <? length i)%nat then cstar (@cmt (RChr f) X) g m i' c' k else stop None)) <= D + 1 + 2 * len i).
    { rewrite cmt_chr. cbn [call stack]. destruct i as [|a i]; [cbn; lia|]. rewrite len_cons in *. destruct (f a); [|cbn; lia].
      destruct (length i <? length (a :: i))%nat; [|cbn; lia].
      assert (H' : deep_upto (len i) k D) by (intros i' c' Hi; apply H; lia). specialize (IH i c H'). lia. }
    set (it := cmt (RChr f) i c _) in *.
    destruct g; cbn [orelse stack]; destruct (out _); cbn [stop stack]; lia.
Qed.

Lemma cmt_stack : forall r X i c (k : text -> caps -> counted X) D, flat r = true -> deep_upto (len i) k D ->
  stack (cmt r i c k) <= D + height r + 2 * len i.
Proof.
  induction r; intros X i c kk D F H; cbn [flat] in F; cbn [height].
  - rewrite cmt_chr. cbn [call stack]. destruct i as [|a i]; [cbn; lia|]. destruct (f a); [|cbn; lia].
    rewrite len_cons in *. pose proof (H i c ltac:(lia)). lia.
  - cbn [cmt call stack]. pose proof (H i c ltac:(lia)). lia.
  - apply andb_true_iff in F as [F1 F2]. cbn [cmt call stack].
    pose proof (IHr1 X i c (fun i' c' => cmt r2 i' c' kk) (D + height r2) F1) as A.
    assert (deep_upto (len i) (fun i' c' => cmt r2 i' c' kk) (D + height r2)); [|specialize (A H0); lia].
    intros i' c' Hi. apply IHr2; [exact F2|]. intros i'' c'' Hi'. apply H. lia.
  - apply andb_true_iff in F as [F1 F2]. cbn [cmt call orelse stack].
    specialize (IHr1 X i c kk D F1 H). specialize (IHr2 X i c kk D F2 H). destruct (out _); cbn [stop stack]; lia.
  - destruct r; try discriminate. change (stack (cstar (@cmt (RChr f) X) greedy (length i) i c kk) + 1 <= D + 3 + 2 * len i).
    pose proof (cstar_stack X f greedy (length i) kk D i c H). lia.
  - cbn [cmt call stack]. specialize (IHr X i c (fun i' c' => kk i' ((k, upto i i') :: c')) D F).
    assert (deep_upto (len i) (fun i' c' => kk i' ((k, upto i i') :: c')) D); [|specialize (IHr H0); lia].
    intros i' c' Hi. now apply H.
  - cbn [cmt call orelse stack]. specialize (IHr caps i c (fun _ c' => stop (Some c')) 0 F ltac:(intros ? ? ?; cbn; lia)).
    destruct (out _) as [c'|]; [pose proof (H i c' ltac:(lia))|]; cbn [stop stack]; lia.
  - cbn [cmt call stack]. destruct i; [|cbn; lia]. pose proof (H [] c ltac:(lia)). lia.
Qed.

Lemma csearch_stack : forall r i, flat r = true -> stack (csearch r i) <= height r + 2 * len i.
Proof.
  intros r i F. induction i as [|a i IH]; cbn [csearch orelse stack].
  - pose proof (cmt_stack r _ [] [] (fun i' c' => stop (Some (i', c'))) 0 F ltac:(intros ? ? ?; cbn; lia)).
    destruct (out _); cbn [stop stack]; lia.
  - pose proof (cmt_stack r _ (a :: i) [] (fun i' c' => stop (Some (i', c'))) 0 F ltac:(intros ? ? ?; cbn; lia)).
    rewrite len_cons in *. destruct (out _); cbn [stop stack]; lia.
Qed.
