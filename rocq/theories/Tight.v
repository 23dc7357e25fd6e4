(** What is read as a value does not end in white space, hence white space behind a value is still
    unread behind it. *)
From Verif Require Import Grammar PegProps PegSpec PegEquiv TextLemmas LexProofs First Calc Look.

Inductive tc : Set := T_dark | T_none | T_any.
(** [i] was read up to [r]: the last byte read is no white space; that, or nothing was read; anything. *)
Definition dark_end (i r : text) : Prop := exists y c, i = y ++ c :: r /\ is_space c = false.
Definition tight (x : tc) (i r : text) : Prop :=
  match x with T_dark => dark_end i r | T_none => dark_end i r \/ r = i | T_any => suffix r i end.
Definition tseq (a b : tc) : tc := match b with T_dark => T_dark | T_none => a | T_any => T_any end.
Definition tmin (a b : tc) : tc :=
  match a, b with T_any, _ | _, T_any => T_any | T_none, _ | _, T_none => T_none | T_dark, T_dark => T_dark end.
Definition topt (a : tc) : tc := match a with T_dark | T_none => T_none | T_any => T_any end.
Lemma dark_suffix i r : dark_end i r -> suffix r i.
Proof. intros (y & c & -> & _). exists (y ++ [c]). now rewrite <- app_assoc. Qed.
Lemma tight_suffix x i r : tight x i r -> suffix r i.
Proof. destruct x; cbn; [apply dark_suffix|intros [H| ->]; [now apply dark_suffix|apply suffix_refl]|auto]. Qed.
Lemma dark_suf i j r : suffix j i -> dark_end j r -> dark_end i r.
Proof. intros (x & ->) (y & c & -> & C). exists (x ++ y), c. now rewrite <- app_assoc. Qed.
Lemma tight_seq a b i j r : tight a i j -> tight b j r -> tight (tseq a b) i r.
Proof.
  intros A B. pose proof (tight_suffix _ _ _ A) as S. destruct b; cbn [tseq].
  - cbn in *. eapply dark_suf; eauto.
  - destruct B as [B| ->]; [|exact A]. apply (dark_suf i j) in B; auto. destruct a; cbn; auto. now apply dark_suffix.
  - cbn in *. eapply suffix_trans; eauto.
Qed.
Lemma tight_min_l a b i r : tight a i r -> tight (tmin a b) i r.
Proof. intros H. pose proof (tight_suffix _ _ _ H). destruct a, b; cbn in *; auto. Qed.
Lemma tight_min_r a b i r : tight b i r -> tight (tmin a b) i r.
Proof. intros H. pose proof (tight_suffix _ _ _ H). destruct a, b; cbn in *; auto. Qed.
Lemma tight_opt a i r : tight a i r -> tight (topt a) i r.
Proof. destruct a; cbn; auto. Qed.
Lemma tight_opt_none a i : tight (topt a) i i.
Proof. destruct a; cbn; auto using suffix_refl. Qed.

Definition off_space (f : ascii -> bool) : bool := forallb (fun c => negb (is_space c && f c)) all_bytes.
Definition lit_end (s : text) : tc := match rev s with [] => T_none | c :: _ => if is_space c then T_any else T_dark end.
Lemma lit_end_ok nc s i w r : strip nc s i = Some (w, r) -> tight (lit_end s) i r.
Proof.
  intros H. assert (i = w ++ r) as -> by (destruct nc; [apply strip_nc_iff in H as [-> _]|apply strip_cs_iff in H as [-> ->]]; reflexivity).
  assert (upper w = upper s) as U by (destruct nc; [apply strip_nc_iff in H as [_ H]|apply strip_cs_iff in H as [-> _]]; auto).
  unfold lit_end. destruct (rev s) as [|c s'] eqn:R.
  - apply (f_equal (@rev _)) in R. rewrite rev_involutive in R. subst. destruct w; [now right|discriminate].
  - apply (f_equal (@rev _)) in R. rewrite rev_involutive in R. subst s. cbn [rev] in U. rewrite upper_app in U. cbn in U.
    destruct (is_space c) eqn:C; [exists w; reflexivity|]. destruct (rev w) as [|d w'] eqn:W; apply (f_equal (@rev _)) in W; rewrite rev_involutive in W; subst w.
    + destruct (upper (rev s')); discriminate.
    + cbn [rev] in *. rewrite upper_app in U. cbn in U. apply app_inj_tail in U as [_ U]. exists (rev w'), d. split; [now rewrite <- app_assoc|].
      rewrite <- upc_space, U, upc_space. exact C.
Qed.

Fixpoint send (e : se) : tc :=
  match e with
  | SChr f => if off_space f then T_dark else T_any
  | SLit _ s | SStr _ s => lit_end s
  | SSeq a b | SExp a b => tseq (send a) (send b)
  | SAlt a b => tmin (send a) (send b)
  | SStar a | SOpt a => topt (send a)
  | SPlus a => send a
  | SHold a | SMap _ a | SDiff a _ => send a
  | SAnd _ | SNot _ => T_none
  end.
Lemma send_ok e acc i o : sev e acc i o -> match o with SOk _ r => tight (send e) i r | _ => True end.
Proof.
  induction 1; cbn [send]; auto.
  - destruct (off_space f) eqn:F; cbn; [|exists [c]; reflexivity]. exists [], c. split; [reflexivity|].
    pose proof (proj1 (forallb_forall _ _) F c (all_bytes_in c)) as X. cbn in X. rewrite H, andb_true_r in X. now apply negb_true_iff.
  - eapply lit_end_ok; eauto.
  - eapply lit_end_ok; eauto.
  - destruct o; auto. eapply tight_seq; eauto.
  - now apply tight_min_l.
  - destruct o; auto. now apply tight_min_r.
  - apply tight_opt_none.
  - destruct o; auto. cbn [send] in IHsev2. destruct (send a) eqn:C; cbn [topt] in *.
    + apply (tight_seq T_dark T_none i i' rest) in IHsev2; auto. now left.
    + apply (tight_seq T_none T_none i i' rest) in IHsev2; auto.
    + eapply suffix_trans; eauto.
  - destruct o; auto. cbn [send] in IHsev2. destruct (send a) eqn:C; cbn [topt] in *.
    + apply (tight_seq T_dark T_none i i' rest) in IHsev2; auto.
    + apply (tight_seq T_none T_none i i' rest) in IHsev2; auto.
    + eapply suffix_trans; eauto.
  - now apply tight_opt.
  - apply tight_opt_none.
  - now right.
  - now right.
  - eapply tight_seq; eauto.
Qed.

Definition tab (r : rule) : tc := match r with R_ve | R_venb | R_sc | R_subq => T_dark | R_jt | R_tref => T_any end.
(** Whether a failure leaves the input as it was, and how a success ends. *)
Fixpoint pkeep {A : Set} (e : PE A) : bool :=
  match e with
  | PLit _ _ | PLex _ | POptLex _ | PDbl | PTop | PRule _ => false
  | PSpace | PRet _ | PSeq _ _ | PExp _ _ | POpt _ | PStar _ | PPlus _ | PList _ _ => true
  | PAlt a b => pkeep a && pkeep b
  | PMap _ a => pkeep a
  end.
Fixpoint pend {A : Set} (e : PE A) : tc :=
  match e with
  | PLit _ s => tseq T_any (lit_end s)
  | PLex e => tseq T_any (send e)
  | POptLex _ | PDbl | PTop => T_any
  | PSpace | PRet _ => T_none
  | PSeq a b | PExp a b => tseq (pend a) (pend b)
  | PAlt a b => tmin (pend a) (tseq (if pkeep a then T_none else T_any) (pend b))
  | POpt a | PStar a => if pkeep a then topt (pend a) else T_any
  | PPlus a => if pkeep a then pend a else T_any
  | PList a _ => match pend a with T_dark => T_dark | _ => T_any end
  | PMap _ a => pend a
  | PRule r => tab r
  end.
Definition tle (a b : tc) : bool := match a, b with T_dark, _ => true | T_none, (T_none | T_any) => true | T_any, T_any => true | _, _ => false end.
Lemma tight_le a b i r : tle a b = true -> tight a i r -> tight b i r.
Proof. intros H G. pose proof (tight_suffix _ _ _ G). destruct a, b; cbn in *; try discriminate; auto. Qed.

Section Tight.
Variable m : text -> option text.
Notation EV := (ev (g_body m) _).
Lemma tab_ok r : tle ((pend (g_body m r))) (tab r) = true.
Proof. destruct r; vm_compute; reflexivity. Qed.
Definition ends {A : Set} (e : PE A) (i : text) (o : out A) : Prop :=
  match o with
  | Ok _ r => tight ((pend e)) i r
  | Fail r => suffix r i /\ ((pkeep e) = true -> r = i)
  | _ => True
  end.
Definition endsl {A : Set} (a : PE A) (i : text) (o : out (list A)) : Prop :=
  match o with
  | Ok _ r => match (pend a) with T_dark => dark_end i r \/ r = i | _ => suffix r i end
  | _ => True
  end.
Lemma ev_ends (A : Set) (e : PE A) i o : EV e i o -> ends e i o.
Proof.
  pose proof skip_suffix as SS. pose proof suffix_refl as SR.
  assert (St : forall x i j r, tight x i j -> tight (topt x) j r -> tight (topt x) i r).
  { intros x i0 j r A1 A2. destruct x; cbn in *.
    - destruct A2 as [A2| ->]; [|now left]. left. eapply dark_suf; [|exact A2]. now apply dark_suffix.
    - destruct A1 as [A1| ->]; auto. destruct A2 as [A2| ->]; [|now left]. left. eapply dark_suf; [|exact A2]. now apply dark_suffix.
    - eapply suffix_trans; eauto. }
  assert (Sp : forall x i j r, tight x i j -> tight (topt x) j r -> tight x i r).
  { intros x i0 j r A1 A2. destruct x; cbn in *.
    - destruct A2 as [A2| ->]; auto. eapply dark_suf; [|exact A2]. now apply dark_suffix.
    - destruct A1 as [A1| ->]; auto. destruct A2 as [A2| ->]; [|now left]. left. eapply dark_suf; [|exact A2]. now apply dark_suffix.
    - eapply suffix_trans; eauto. }
  intros H. revert A e i o H.
  apply (ev_ind2 _ _ (g_body m) (fun A e i o _ => ends e i o) (fun A a s i o _ => endsl a i o)); intros;
    unfold ends, endsl in *; cbn [pend pkeep] in *; auto.
  - apply (tight_seq T_any _ i (skip i)); [apply SS|]. eapply lit_end_ok; eauto.
  - split; [auto|discriminate].
  - apply (tight_seq T_any _ i (skip i)); [apply SS|]. apply send_ok in s. exact s.
  - split; [auto|discriminate].
  - apply send_ok in s. apply tight_suffix in s. eapply suffix_trans; eauto.
  - apply SS.
  - now right.
  - destruct (dbl_app _ _ _ e) as [E _]. eapply suffix_trans; [|apply SS]. rewrite E. apply suffix_app.
  - split; [auto|discriminate].
  - destruct (ulong_app _ _ _ e) as (ds & E & _). eapply suffix_trans; [|apply SS]. rewrite E. apply suffix_app.
  - split; [auto|discriminate].
  - now right.
  - eapply tight_seq; eauto.
  - eapply tight_seq; eauto.
  - now apply tight_min_l.
  - destruct H as [Sr Er]. destruct o; auto.
    + apply tight_min_r. eapply tight_seq; [|exact H0]. destruct (pkeep a) eqn:F; [right; auto|exact Sr].
    + destruct H0 as [S2 E2]. split; [eapply suffix_trans; eauto|]. intros F. apply andb_true_iff in F as [F1 F2]. rewrite (E2 F2). auto.
  - destruct (pkeep a); [now apply tight_opt|eapply tight_suffix; eauto].
  - destruct H as [Sr Er]. destruct (pkeep a); [rewrite Er by auto; apply tight_opt_none|exact Sr].
  - destruct H as [Sr Er]. destruct (pkeep a); [rewrite Er by auto; apply tight_opt_none|exact Sr].
  - destruct (pkeep a); [eapply St; eauto|]. eapply suffix_trans; [exact H0|eapply tight_suffix; eauto].
  - destruct (pkeep a); [eapply Sp; eauto|]. eapply suffix_trans; [exact H0|eapply tight_suffix; eauto].
  - pose proof (tight_suffix _ _ _ H). destruct (pend a); cbn in *.
    + destruct H0 as [H0| ->]; auto. eapply dark_suf; eauto.
    + eapply suffix_trans; eauto.
    + eapply suffix_trans; eauto.
  - destruct o; auto; [eapply tight_le; [apply tab_ok|exact H]|]. destruct H. split; [auto|discriminate].
  - destruct (pend a); auto.
  - destruct (pend a); auto.
  - pose proof (tight_suffix _ _ _ H) as S1. pose proof (tight_suffix _ _ _ H0) as S2. destruct (pend a); cbn in *.
    + left. destruct H1 as [H1| ->]; [eapply dark_suf; [|exact H1]; eapply suffix_trans; eauto|]. eapply dark_suf; eauto.
    + eapply suffix_trans; [|exact S1]. eapply suffix_trans; eauto.
    + eapply suffix_trans; [|exact S1]. eapply suffix_trans; eauto.
Qed.
(** White space behind a value (or a result) is seen by the look-ahead &no_skip[space]. *)
Lemma space_after {A : Set} (e : PE A) i v r t c k : EV e i (Ok v r) -> (pend e) = T_dark -> skip i = t ++ c :: k -> is_space c = true ->
  skip r = skip k -> exists c' r', r = c' :: r' /\ is_space c' = true.
Proof.
  intros H E I C K. apply ev_ends in H. cbn in H. rewrite E in H. cbn in H. destruct H as (y & d & Hi & D).
  destruct (skip_split i) as (p & Ep & _). rewrite I in Ep. destruct (skip_split k) as (w & Ew & Sw).
  destruct r as [|c' r']; [|destruct (is_space c') eqn:C'; [eauto|]].
  - cbn in K. rewrite <- K in Ew. rewrite app_nil_r in Ew. subst w. rewrite Hi in Ep.
    destruct (rev k) as [|x k'] eqn:R; apply (f_equal (@rev _)) in R; rewrite rev_involutive in R; subst k.
    + rewrite app_assoc in Ep. apply app_inj_tail in Ep as [_ ->]. congruence.
    + cbn [rev] in *. rewrite app_comm_cons, !app_assoc in Ep. apply app_inj_tail in Ep as [_ ->].
      rewrite forallb_app in Sw. apply andb_true_iff in Sw as [_ Sw]. cbn in Sw. rewrite D in Sw. discriminate.
  - cbn [skip] in K. rewrite C' in K. rewrite Ew, <- K in Ep. rewrite Hi in Ep. exfalso.
    assert (H : forall a b e f (z : list ascii), a ++ e :: z = b ++ f :: z -> e = f).
    { intros a b e0 f z X. replace (a ++ e0 :: z) with ((a ++ [e0]) ++ z) in X by now rewrite <- app_assoc.
      replace (b ++ f :: z) with ((b ++ [f]) ++ z) in X by now rewrite <- app_assoc. apply app_inv_tail in X. now apply app_inj_tail in X as [_ ->]. }
    destruct (rev w) as [|x w'] eqn:R; apply (f_equal (@rev _)) in R; rewrite rev_involutive in R; subst w.
    + cbn [rev app] in Ep. rewrite app_assoc in Ep. apply H in Ep. congruence.
    + cbn [rev] in *. rewrite <- !app_assoc in Ep. cbn [app] in Ep. rewrite app_comm_cons, app_assoc in Ep. rewrite app_assoc in Ep. apply H in Ep. subst.
      rewrite forallb_app in Sw. apply andb_true_iff in Sw as [_ Sw]. cbn in Sw. rewrite D in Sw. discriminate.
Qed.
Lemma ve_dark : (pend p_ve) = T_dark. Proof. reflexivity. Qed.
End Tight.
