(** The interpreter of Peg.v computes exactly the outcomes of PegSpec.v. *)
From Verif Require Import Peg PegSpec PegProps.

Lemma sstar_sev a : (forall acc i, srun a acc i <> SLoop -> sev a acc i (srun a acc i)) ->
  forall n acc i, sstar (srun a) n acc i <> SLoop -> sev (SStar a) acc i (sstar (srun a) n acc i).
Proof.
  intros Ha. induction n as [|n IH]; intros acc i; cbn; specialize (Ha acc i);
    destruct (srun a acc i) as [a' r|a'|x|]; intros H; try congruence;
    specialize (Ha ltac:(congruence)).
  - eapply sev_star_stop; eauto.
  - eapply sev_star_th; eauto.
  - destruct (length r <? length i)%nat; [|congruence]. eapply sev_star_more; eauto.
  - eapply sev_star_stop; eauto.
  - eapply sev_star_th; eauto.
Qed.

Lemma srun_sev e : forall acc i, srun e acc i <> SLoop -> sev e acc i (srun e acc i).
Proof.
  induction e as [f|nc s|nc s|a IHa b IHb|a IHa b IHb|a IHa|a IHa|a IHa|a IHa|a IHa|a IHa|a IHa b IHb|a IHa b IHb|m a IHa];
    intros acc i; cbn [srun].
  - destruct i as [|c i]; [constructor|]. destruct (f c) eqn:E; now constructor.
  - destruct (strip nc s i) as [[m r]|] eqn:E; econstructor; eauto.
  - destruct (strip nc s i) as [[m r]|] eqn:E; econstructor; eauto.
  - specialize (IHa acc i). destruct (srun a acc i) as [a' r|a'|x|]; intros H; try congruence;
      specialize (IHa ltac:(congruence)); [eapply sev_seq_ok|eapply sev_seq_no|eapply sev_seq_th]; eauto.
  - specialize (IHa acc i). destruct (srun a acc i) as [a' r|a'|x|]; intros H; try congruence;
      specialize (IHa ltac:(congruence)); [eapply sev_alt_1|eapply sev_alt_2|eapply sev_alt_th]; eauto.
  - apply sstar_sev; auto.
  - specialize (IHa acc i) as Ha. destruct (srun a acc i) as [a' r|a'|x|]; intros H; try congruence;
      specialize (Ha ltac:(congruence)); [eapply sev_plus_ok|eapply sev_plus_no|eapply sev_plus_th]; eauto.
    apply sstar_sev; auto.
  - specialize (IHa acc i). destruct (srun a acc i) as [a' r|a'|x|]; intros H; try congruence;
      specialize (IHa ltac:(congruence)); [eapply sev_opt_ok|eapply sev_opt_no|eapply sev_opt_th]; eauto.
  - specialize (IHa acc i). destruct (srun a acc i) as [a' r|a'|x|]; intros H; try congruence;
      specialize (IHa ltac:(congruence)); [eapply sev_hold_ok|eapply sev_hold_no|eapply sev_hold_th]; eauto.
  - specialize (IHa [] i). destruct (srun a [] i) as [a' r|a'|x|]; intros H; try congruence;
      specialize (IHa ltac:(congruence)); [eapply sev_and_ok|eapply sev_and_no|eapply sev_and_th]; eauto.
  - specialize (IHa [] i). destruct (srun a [] i) as [a' r|a'|x|]; intros H; try congruence;
      specialize (IHa ltac:(congruence)); [eapply sev_not_no|eapply sev_not_ok|eapply sev_not_th]; eauto.
  - specialize (IHb [] i). destruct (srun b [] i) as [a' r|a'|x|]; intros H; try congruence;
      specialize (IHb ltac:(congruence)); [eapply sev_diff_no|eapply sev_diff_ok|eapply sev_diff_th]; eauto.
  - specialize (IHa acc i). destruct (srun a acc i) as [a' r|a'|x|]; intros H; try congruence;
      specialize (IHa ltac:(congruence)); [|eapply sev_exp_no|eapply sev_exp_th]; eauto.
    specialize (IHb a' r). destruct (srun b a' r) as [a2 r2|a2|x|]; try congruence;
      specialize (IHb ltac:(congruence)); [eapply sev_exp_ok|eapply sev_exp_unmet|eapply sev_exp_th2]; eauto.
  - specialize (IHa [] i). destruct (srun a [] i) as [a' r|a'|x|]; intros H; try congruence;
      specialize (IHa ltac:(congruence)); [|eapply sev_map_no|eapply sev_map_th]; eauto.
    destruct (m a') eqn:E; [eapply sev_map_ok|eapply sev_map_none]; eauto.
Qed.

Definition sle (o o' : sout) : Prop := o = SLoop \/ o = o'.
Definition sle_star (e : se) (acc i : text) (o : sout) : Prop :=
  match e with SStar a => forall k, sle (sstar (srun a) k acc i) o | _ => True end.

Ltac sl := repeat match goal with
  | H : sle ?x _ /\ _ |- _ => destruct H as [H _]
  | H : sle _ _ |- _ => let E := fresh "E" in destruct H as [E|E]
  | E : srun _ _ _ = _ |- _ => rewrite E; clear E
  end; auto.

Lemma sev_srun e acc i o : sev e acc i o -> sle (srun e acc i) o /\ sle_star e acc i o.
Proof.
  induction 1; cbn [srun sle_star]; (split; [|try exact I]).
  all: try (unfold sle; sl; fail).
  all: try (match goal with H : _ = _ |- _ => rewrite H end; unfold sle; auto; fail).
  all: try (rewrite H, H0; unfold sle; auto; fail).
  (* loops *)
  - destruct IHsev as [[E|E] _]; destruct (length i); cbn; rewrite E; unfold sle; auto.
  - intros k. destruct IHsev as [[E|E] _]; destruct k; cbn; rewrite E; unfold sle; auto.
  - destruct IHsev1 as [[E|E] _]; destruct (length i) eqn:El; cbn; rewrite E; unfold sle; auto.
    destruct (length i' <? length i)%nat; auto. apply IHsev2.
  - intros k. destruct IHsev1 as [[E|E] _]; destruct k; cbn; rewrite E; unfold sle; auto.
    destruct (length i' <? length i)%nat; auto. apply IHsev2.
  - destruct IHsev as [[E|E] _]; destruct (length i); cbn; rewrite E; unfold sle; auto.
  - intros k. destruct IHsev as [[E|E] _]; destruct k; cbn; rewrite E; unfold sle; auto.
  - destruct IHsev as [[E|E] _]; rewrite E; unfold sle; auto. rewrite H0; auto.
  - destruct IHsev as [[E|E] _]; rewrite E; unfold sle; auto. rewrite H0; auto.
Qed.

Lemma sev_iff e acc i o : swf e = true -> (sev e acc i o <-> srun e acc i = o).
Proof.
  intros Hw. split.
  - intros H. destruct (sev_srun _ _ _ _ H) as [[E|E] _]; auto. now apply srun_noloop in E.
  - intros <-. apply srun_sev, srun_noloop, Hw.
Qed.

Section Pe.
Context {rule : Set} {attr : rule -> Set} (body : forall r, pe rule attr (attr r)).
Notation PE := (pe rule attr).
Notation R := (run body).

Lemma pstar_nofail {A : Set} (b : text -> out A) k i r : pstar b k i <> Fail r.
Proof.
  revert i; induction k as [|k IH]; intros i; cbn; destruct (b i); try congruence.
  specialize (IH rest). destruct (pstar _ _ _); congruence.
Qed.

Lemma pstar_ev {A : Set} (a : PE A) n :
  (forall i, R n _ a i <> OOF -> ev body _ a i (R n _ a i)) ->
  forall k i, pstar (R n _ a) k i <> OOF -> ev body _ (PStar a) i (pstar (R n _ a) k i).
Proof.
  intros Ha. induction k as [|k IH]; intros i; cbn; specialize (Ha i);
    destruct (R n _ a i) as [v r|r|x|]; intros H; try congruence;
    specialize (Ha ltac:(congruence)).
  - apply ev_star_stop; auto.
  - apply ev_star_th; auto.
  - specialize (IH r). pose proof (pstar_nofail (R n A a) k r) as Nf.
    destruct (pstar (R n A a) k r) as [vs r'|r'|x|] eqn:E; try congruence.
    + eapply ev_star_more; eauto; try (apply IH; congruence).
    + eapply ev_star_th2; eauto; try (apply IH; congruence).
  - apply ev_star_stop; auto.
  - apply ev_star_th; auto.
Qed.

Lemma plist_nofail {A : Set} (b : text -> out A) s k i r : plist b s k i <> Fail r.
Proof.
  revert i; induction k as [|k IH]; intros i; cbn; destruct (s i); try congruence;
    destruct (b rest); try congruence.
  specialize (IH rest0). destruct (plist _ _ _ _); congruence.
Qed.

Lemma plist_evl {A : Set} (a : PE A) s n :
  (forall i, R n _ a i <> OOF -> ev body _ a i (R n _ a i)) ->
  (forall i, R n _ s i <> OOF -> ev body _ s i (R n _ s i)) ->
  forall k i, plist (R n _ a) (R n _ s) k i <> OOF -> evl body _ a s i (plist (R n _ a) (R n _ s) k i).
Proof.
  intros Ha Hs. induction k as [|k IH]; intros i; cbn; specialize (Hs i);
    destruct (R n _ s i) as [u i1|r|x|]; intros H; try congruence;
    specialize (Hs ltac:(congruence));
    try (eapply evl_stop; eauto; fail); try (eapply evl_th; eauto; fail);
    specialize (Ha i1); destruct (R n _ a i1) as [v i2|r|x|]; try congruence;
    specialize (Ha ltac:(congruence));
    try (eapply evl_stop2; eauto; fail); try (eapply evl_th2; eauto; fail).
  specialize (IH i2). pose proof (plist_nofail (R n A a) (R n unit s) k i2) as Nf.
  destruct (plist _ _ k i2) as [vs r'|r'|x|] eqn:E; try congruence.
  - eapply evl_more; eauto; try (apply IH; congruence).
  - eapply evl_more_th; eauto; try (apply IH; congruence).
Qed.

Lemma run_ev n : forall (A : Set) (e : PE A) i, R n _ e i <> OOF -> ev body _ e i (R n _ e i).
Proof.
  induction n as [n IHn] using lt_wf_ind.
  intros A e; induction e as [nc s|e|e| | | |A w|A B a IHa b IHb|A B a IHa b IHb|A a IHa b IHb|A a IHa|A a IHa|A a IHa|A a IHa s IHs|A B f a IHa|q];
    intros i.
  - rewrite run_Lit. destruct (strip nc s (skip i)) as [[m r]|] eqn:E; intros _; econstructor; eauto.
  - rewrite run_Lex. unfold lex. pose proof (srun_sev e [] (skip i)) as K.
    destruct (srun e [] (skip i)); intros H; try congruence; specialize (K ltac:(congruence)).
    + now apply ev_lex_ok. + eapply ev_lex_no; eauto. + now apply ev_lex_th.
  - rewrite run_OptLex. pose proof (srun_sev e [] (skip i)) as K.
    destruct (srun e [] (skip i)); intros H; try congruence; specialize (K ltac:(congruence)).
    + now apply ev_olex_ok. + now apply ev_olex_no. + now apply ev_olex_th.
  - rewrite run_Space. intros _. destruct i as [|c i]; [constructor|].
    destruct (is_space c) eqn:E; now constructor.
  - rewrite run_Dbl. intros _. destruct (dbl (skip i)) as [[m r]|] eqn:E; econstructor; eauto.
  - rewrite run_Top. intros _. destruct (ulong (skip i)) as [[v r]|] eqn:E; [|econstructor; eauto].
    destruct r as [|c r]; [eapply ev_top_end; eauto|].
    destruct (is_space c) eqn:Ec; [eapply ev_top_ok|eapply ev_top_unmet]; eauto.
  - rewrite run_Ret. intros _. constructor.
  - rewrite run_Seq. specialize (IHa i). destruct (R n _ a i) as [va i1|r|x|]; intros H; try congruence;
      specialize (IHa ltac:(congruence)); [|eapply ev_seq_no|eapply ev_seq_th]; eauto.
    specialize (IHb i1). destruct (R n _ b i1) as [vb i2|r|x|]; try congruence;
      specialize (IHb ltac:(congruence)); [eapply ev_seq_ok|eapply ev_seq_no2|eapply ev_seq_th2]; eauto.
  - rewrite run_Exp. specialize (IHa i). destruct (R n _ a i) as [va i1|r|x|]; intros H; try congruence;
      specialize (IHa ltac:(congruence)); [|eapply ev_exp_no|eapply ev_exp_th]; eauto.
    specialize (IHb i1). destruct (R n _ b i1) as [vb i2|r|x|]; try congruence;
      specialize (IHb ltac:(congruence)); [eapply ev_exp_ok|eapply ev_exp_unmet|eapply ev_exp_th2]; eauto.
  - rewrite run_Alt. specialize (IHa i). destruct (R n _ a i) as [va i1|r|x|]; intros H; try congruence;
      specialize (IHa ltac:(congruence)); [eapply ev_alt_1|eapply ev_alt_2|eapply ev_alt_th]; eauto.
  - rewrite run_Opt. specialize (IHa i). destruct (R n _ a i) as [va i1|r|x|]; intros H; try congruence;
      specialize (IHa ltac:(congruence)); [eapply ev_opt_ok|eapply ev_opt_no|eapply ev_opt_th]; eauto.
  - rewrite run_Star. apply pstar_ev; auto.
  - rewrite run_Plus. specialize (IHa i) as Ha. destruct (R n _ a i) as [va i1|r|x|]; intros H; try congruence;
      specialize (Ha ltac:(congruence)); [|eapply ev_plus_no|eapply ev_plus_th]; eauto.
    pose proof (pstar_ev a n IHa (length i1) i1) as K.
    pose proof (pstar_nofail (R n A a) (length i1) i1) as Nf.
    destruct (pstar _ _ _) as [vs r'|r'|x|] eqn:E; try congruence.
    + eapply ev_plus_ok; eauto; try (apply K; congruence).
    + eapply ev_plus_th2; eauto; try (apply K; congruence).
  - rewrite run_List. specialize (IHa i) as Ha. destruct (R n _ a i) as [va i1|r|x|]; intros H; try congruence;
      specialize (Ha ltac:(congruence)); [|eapply ev_list_no|eapply ev_list_th]; eauto.
    pose proof (plist_evl a s n IHa IHs (length i1) i1) as K.
    pose proof (plist_nofail (R n A a) (R n unit s) (length i1) i1) as Nf.
    destruct (plist _ _ _ _) as [vs r'|r'|x|] eqn:E; try congruence.
    + eapply ev_list_ok; eauto; try (apply K; congruence).
    + eapply ev_list_th2; eauto; try (apply K; congruence).
  - rewrite run_Map. specialize (IHa i). destruct (R n _ a i) as [va i1|r|x|]; intros H; try congruence;
      specialize (IHa ltac:(congruence)); [eapply ev_map_ok|eapply ev_map_no|eapply ev_map_th]; eauto.
  - destruct n as [|n]; [intros H; now rewrite run_Rule_0 in H|]. rewrite run_Rule.
    intros H. apply ev_rule. apply IHn; auto.
Qed.

Definition star_le {A : Set} (e : PE A) (i : text) (o : out A) : Prop :=
  match e in pe _ _ A return out A -> Prop with
  | PStar a => fun o => forall n k, le_out (pstar (R n _ a) k i) o
  | _ => fun _ => True
  end o.

Scheme ev_ind2 := Induction for ev Sort Prop with evl_ind2 := Induction for evl Sort Prop.

Ltac use_le n := repeat match goal with
  | H : (forall n, le_out _ _) /\ _ |- _ => destruct H as [H _]
  | H : forall n, le_out (R n _ ?e ?i) _ |- context [R n _ ?e ?i] =>
      let E := fresh "E" in destruct (H n) as [E|E]; rewrite E; clear H; try (left; reflexivity)
  end.

Lemma ev_run (A : Set) (e : PE A) i o :
  ev body _ e i o -> (forall n, le_out (R n _ e i) o) /\ star_le e i o.
Proof.
  intros H. revert A e i o H.
  apply (ev_ind2 rule attr body
    (fun A e i o _ => (forall n, le_out (R n _ e i) o) /\ star_le e i o)
    (fun A a s i o _ => forall n k, le_out (plist (R n _ a) (R n _ s) k i) o));
    intros; cbn [star_le]; try (split; [|try exact I]); try intros n.
  all: rewrite ?run_Lit, ?run_Lex, ?run_OptLex, ?run_Space, ?run_Dbl, ?run_Top, ?run_Ret,
         ?run_Seq, ?run_Exp, ?run_Alt, ?run_Opt, ?run_Star, ?run_Plus, ?run_List, ?run_Map.
  all: try (match goal with H : strip _ _ _ = _ |- _ => rewrite H end; right; reflexivity).
  all: try (match goal with H : dbl _ = _ |- _ => rewrite H end; right; reflexivity).
  all: try (match goal with H : ulong _ = _ |- _ => rewrite H end;
            try match goal with H : is_space _ = _ |- _ => rewrite H end; right; reflexivity).
  all: try (match goal with H : is_space _ = _ |- _ => rewrite H end; right; reflexivity).
  all: try (right; reflexivity).
  all: try (unfold lex; match goal with H : sev _ _ _ _ |- _ => apply sev_srun in H as [[E|E] _] end;
            rewrite E; [left|right]; reflexivity).
  all: try (use_le n; right; reflexivity).
  - destruct H as [H _]. destruct (length i); cbn; destruct (H n) as [E|E]; rewrite E; [left|right|left|right]; reflexivity.
  - intros k. destruct H as [H _]. destruct k; cbn; destruct (H n) as [E|E]; rewrite E; [left|right|left|right]; reflexivity.
  - destruct H as [H _]. destruct (length i); cbn; destruct (H n) as [E|E]; rewrite E; [left|right|left|right]; reflexivity.
  - intros k. destruct H as [H _]. destruct k; cbn; destruct (H n) as [E|E]; rewrite E; [left|right|left|right]; reflexivity.
  - destruct H as [H _]. destruct H0 as [_ H0]. cbn in H0. destruct (length i) as [|l]; cbn;
      destruct (H n) as [E|E]; rewrite E; try (left; reflexivity).
    destruct (H0 n l) as [E2|E2]; rewrite E2; [left|right]; reflexivity.
  - intros k. destruct H as [H _]. destruct H0 as [_ H0]. cbn in H0. destruct k as [|l]; cbn;
      destruct (H n) as [E|E]; rewrite E; try (left; reflexivity).
    destruct (H0 n l) as [E2|E2]; rewrite E2; [left|right]; reflexivity.
  - destruct H as [H _]. destruct H0 as [_ H0]. cbn in H0. destruct (length i) as [|l]; cbn;
      destruct (H n) as [E|E]; rewrite E; try (left; reflexivity).
    destruct (H0 n l) as [E2|E2]; rewrite E2; [left|right]; reflexivity.
  - intros k. destruct H as [H _]. destruct H0 as [_ H0]. cbn in H0. destruct k as [|l]; cbn;
      destruct (H n) as [E|E]; rewrite E; try (left; reflexivity).
    destruct (H0 n l) as [E2|E2]; rewrite E2; [left|right]; reflexivity.
  - destruct H0 as [_ H0]. cbn in H0. use_le n. destruct (H0 n (length i1)) as [E2|E2]; rewrite E2; [left|right]; reflexivity.
  - destruct H0 as [_ H0]. cbn in H0. use_le n. destruct (H0 n (length i1)) as [E2|E2]; rewrite E2; [left|right]; reflexivity.
  - use_le n. destruct (H0 n (length i1)) as [E2|E2]; rewrite E2; [left|right]; reflexivity.
  - use_le n. destruct (H0 n (length i1)) as [E2|E2]; rewrite E2; [left|right]; reflexivity.
  - destruct H as [H _]. destruct n as [|n]; [left; reflexivity|]. rewrite run_Rule. apply H.
  - destruct k; cbn; use_le n; right; reflexivity.
  - destruct k; cbn; use_le n; right; reflexivity.
  - destruct k; cbn; use_le n; right; reflexivity.
  - destruct k; cbn; use_le n; right; reflexivity.
  - destruct k as [|k]; cbn; use_le n; try (left; reflexivity).
    destruct (H1 n k) as [E2|E2]; rewrite E2; [left|right]; reflexivity.
  - destruct k as [|k]; cbn; use_le n; try (left; reflexivity).
    destruct (H1 n k) as [E2|E2]; rewrite E2; [left|right]; reflexivity.
Qed.

Lemma ev_iff_run (A : Set) (e : PE A) i o n :
  R n _ e i <> OOF -> (ev body _ e i o <-> R n _ e i = o).
Proof.
  intros Hn. split.
  - intros H. apply ev_run in H as [H _]. destruct (H n); congruence.
  - intros <-. now apply run_ev.
Qed.

Lemma ev_not_oof (A : Set) (e : PE A) i o n : R n _ e i <> OOF -> ev body _ e i o -> o <> OOF.
Proof. intros Hn H. apply (ev_iff_run _ _ _ _ _ Hn) in H. congruence. Qed.

End Pe.
