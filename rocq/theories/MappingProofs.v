(** What a larger table mapping changes: nothing but the error about a missing table. *)
From Verif Require Import Query PegProps.

Section Maps.
Variables m m' : text -> option text.
Hypothesis Hm : forall n v, m n = Some v -> m' n = Some v.

Definition ssim (e e' : se) : Prop := forall acc i,
  srun e acc i = srun e' acc i \/ exists n, srun e acc i = SThrow (ExTable n) /\ m n = None.
Lemma ssim_refl e : ssim e e. Proof. now left. Qed.
Lemma ssim_seq a a' b b' : ssim a a' -> ssim b b' -> ssim (SSeq a b) (SSeq a' b').
Proof.
  intros Ha Hb acc i. cbn [srun]. destruct (Ha acc i) as [E|(n & E & N)]; rewrite E; [|right; eauto].
  destruct (srun a' acc i); auto.
Qed.
Lemma ssim_alt a a' b b' : ssim a a' -> ssim b b' -> ssim (SAlt a b) (SAlt a' b').
Proof.
  intros Ha Hb acc i. cbn [srun]. destruct (Ha acc i) as [E|(n & E & N)]; rewrite E; [|right; eauto].
  destruct (srun a' acc i); auto.
Qed.
Lemma ssim_tap : ssim (s_tap_upload m) (s_tap_upload m').
Proof.
  intros acc i. unfold s_tap_upload. cbn [srun]. destruct (strip _ _ _) as [[t r]|]; auto.
  destruct (srun s_identifier [] r) as [s r'|s|x|]; auto.
  destruct (m s) as [v|] eqn:E; [rewrite (Hm _ _ E); auto|right; eauto].
Qed.
Lemma ssim_table : ssim (s_table_name m) (s_table_name m').
Proof. apply ssim_alt; [apply ssim_tap|apply ssim_refl]. Qed.
Lemma ssim_qstar : ssim (s_qualifier_star m) (s_qualifier_star m').
Proof. apply ssim_seq; [apply ssim_table|apply ssim_refl]. Qed.

Definition sim_out {A} (o o' : out A) : Prop := o = o' \/ exists n, o = Throw (ExTable n) /\ m n = None.
Section Level.
Variable n : nat.
Notation R := (run (g_body m) n). Notation R' := (run (g_body m') n).
Definition psim {A : Set} (e e' : PE A) : Prop := forall i, sim_out (R _ e i) (R' _ e' i).

Lemma sim_thr {A} (x : text) : m x = None -> exists y, @Throw A (ExTable x) = Throw (ExTable y) /\ m y = None.
Proof. eauto. Qed.
Ltac other := match goal with N : m _ = None |- _ => right; apply sim_thr, N end.
Lemma psim_lit nc s : psim (PLit nc s) (PLit nc s). Proof. intros i. left. now rewrite !run_Lit. Qed.
Lemma psim_lex e e' : ssim e e' -> psim (PLex e) (PLex e').
Proof.
  intros H i. rewrite !run_Lex. unfold lex. destruct (H [] (skip i)) as [E|(x & E & N)]; rewrite E; [now left|other].
Qed.
Lemma psim_optlex e e' : ssim e e' -> psim (POptLex e) (POptLex e').
Proof.
  intros H i. rewrite !run_OptLex. destruct (H [] (skip i)) as [E|(x & E & N)]; rewrite E; [now left|other].
Qed.
Lemma psim_space : psim PSpace PSpace. Proof. intros i. left. now rewrite !run_Space. Qed.
Lemma psim_dbl : psim PDbl PDbl. Proof. intros i. left. now rewrite !run_Dbl. Qed.
Lemma psim_top : psim PTop PTop. Proof. intros i. left. now rewrite !run_Top. Qed.
Lemma psim_ret {A : Set} (v : A) : psim (PRet v) (PRet v). Proof. intros i. left. now rewrite !run_Ret. Qed.
Lemma psim_seq {A B : Set} (a a' : PE A) (b b' : PE B) : psim a a' -> psim b b' -> psim (PSeq a b) (PSeq a' b').
Proof.
  intros Ha Hb i. rewrite !run_Seq. destruct (Ha i) as [E|(x & E & N)]; rewrite E; [|other].
  destruct (R' _ a' i) as [v r| | |]; try now left. destruct (Hb r) as [E2|(x & E2 & N)]; rewrite E2; [now left|other].
Qed.
Lemma psim_exp {A B : Set} (a a' : PE A) (b b' : PE B) : psim a a' -> psim b b' -> psim (PExp a b) (PExp a' b').
Proof.
  intros Ha Hb i. rewrite !run_Exp. destruct (Ha i) as [E|(x & E & N)]; rewrite E; [|other].
  destruct (R' _ a' i) as [v r| | |]; try now left. destruct (Hb r) as [E2|(x & E2 & N)]; rewrite E2; [now left|other].
Qed.
Lemma psim_alt {A : Set} (a a' b b' : PE A) : psim a a' -> psim b b' -> psim (PAlt a b) (PAlt a' b').
Proof.
  intros Ha Hb i. rewrite !run_Alt. destruct (Ha i) as [E|(x & E & N)]; rewrite E; [|other].
  destruct (R' _ a' i) as [v r|r| |]; try now left. apply Hb.
Qed.
Lemma psim_opt {A : Set} (a a' : PE A) : psim a a' -> psim (POpt a) (POpt a').
Proof. intros Ha i. rewrite !run_Opt. destruct (Ha i) as [E|(x & E & N)]; rewrite E; [now left|other]. Qed.
Lemma psim_map {A B : Set} (f : A -> B) (a a' : PE A) : psim a a' -> psim (PMap f a) (PMap f a').
Proof. intros Ha i. rewrite !run_Map. destruct (Ha i) as [E|(x & E & N)]; rewrite E; [now left|other]. Qed.
Lemma pstar_sim {A : Set} (b b' : text -> out A) k : (forall i, sim_out (b i) (b' i)) -> forall i, sim_out (pstar b k i) (pstar b' k i).
Proof.
  intros Hb. induction k as [|k IH]; intros i; cbn [pstar]; (destruct (Hb i) as [E|(x & E & N)]; rewrite E; [|other]);
    destruct (b' i) as [v r| | |]; try now left.
  destruct (IH r) as [E2|(x & E2 & N)]; rewrite E2; [now left|other].
Qed.
Lemma plist_sim {A : Set} (b b' : text -> out A) (s s' : text -> out unit) k : (forall i, sim_out (b i) (b' i)) -> (forall i, sim_out (s i) (s' i)) ->
  forall i, sim_out (plist b s k i) (plist b' s' k i).
Proof.
  intros Hb Hs. induction k as [|k IH]; intros i; cbn [plist]; (destruct (Hs i) as [E|(x & E & N)]; rewrite E; [|other]);
    destruct (s' i) as [v r| | |]; try (now left); (destruct (Hb r) as [E1|(x & E1 & N)]; rewrite E1; [|other]);
    destruct (b' r) as [v1 r1| | |]; try now left.
  destruct (IH r1) as [E2|(x & E2 & N)]; rewrite E2; [now left|other].
Qed.
Lemma psim_star {A : Set} (a a' : PE A) : psim a a' -> psim (PStar a) (PStar a').
Proof. intros Ha i. rewrite !run_Star. now apply pstar_sim. Qed.
Lemma psim_plus {A : Set} (a a' : PE A) : psim a a' -> psim (PPlus a) (PPlus a').
Proof.
  intros Ha i. rewrite !run_Plus. destruct (Ha i) as [E|(x & E & N)]; rewrite E; [|other].
  destruct (R' _ a' i) as [v r| | |]; try now left.
  destruct (pstar_sim _ _ (length r) Ha r) as [E2|(x & E2 & N)]; rewrite E2; [now left|other].
Qed.
Lemma psim_list {A : Set} (a a' : PE A) s s' : psim a a' -> psim s s' -> psim (PList a s) (PList a' s').
Proof.
  intros Ha Hs i. rewrite !run_List. destruct (Ha i) as [E|(x & E & N)]; rewrite E; [|other].
  destruct (R' _ a' i) as [v r| | |]; try now left.
  destruct (plist_sim _ _ _ _ (length r) Ha Hs r) as [E2|(x & E2 & N)]; rewrite E2; [now left|other].
Qed.
End Level.

Ltac psim_step :=
  lazymatch goal with
  | |- psim _ (PLit _ _) _ => apply psim_lit
  | |- psim _ (PLex _) _ => apply psim_lex; first [apply ssim_refl | apply ssim_tap | apply ssim_table | apply ssim_qstar]
  | |- psim _ (POptLex _) _ => apply psim_optlex; apply ssim_refl
  | |- psim _ PSpace _ => apply psim_space
  | |- psim _ PDbl _ => apply psim_dbl
  | |- psim _ PTop _ => apply psim_top
  | |- psim _ (PRet _) _ => apply psim_ret
  | |- psim _ (PSeq _ _) _ => apply psim_seq
  | |- psim _ (PExp _ _) _ => apply psim_exp
  | |- psim _ (PAlt _ _) _ => apply psim_alt
  | |- psim _ (POpt _) _ => apply psim_opt
  | |- psim _ (PStar _) _ => apply psim_star
  | |- psim _ (PPlus _) _ => apply psim_plus
  | |- psim _ (PList _ _) _ => apply psim_list
  | |- psim _ (PMap _ _) _ => apply psim_map
  | |- psim _ (PRule ?q) _ => match goal with H : _ |- _ => exact (H q) end
  | |- psim _ (?e ?x ?y) _ => unfold e
  | |- psim _ (?e ?x) _ => unfold e
  | |- psim _ ?e _ => unfold e
  end.
Ltac sim := cbn [g_body]; repeat psim_step.
Lemma rules_sim n : (forall q, psim n (PRule q) (PRule q)) -> forall r, psim n (g_body m r) (g_body m' r).
Proof. intros H r. destruct r; sim. Qed.
Lemma rule_sim n : forall q, psim n (PRule q) (PRule q).
Proof.
  induction n as [|n IH]; intros q i; [now left|]. rewrite !run_Rule. apply rules_sim, IH.
Qed.
Lemma query_sim n : psim n (g_query m) (g_query m').
Proof. pose proof (rule_sim n) as H. sim. Qed.
End Maps.

Lemma larger_mapping tm tm' t : (forall n v, lookup tm n = Some v -> lookup tm' n = Some v) ->
  parse_it tm t = parse_it tm' t \/ exists n, parse_it tm t = Q_err (E_table n) /\ lookup tm n = None.
Proof.
  intros Hm. unfold parse_it, grun. destruct (query_sim _ _ Hm (fuel_for t) t) as [E|(n & E & N)]; rewrite E; eauto.
Qed.
