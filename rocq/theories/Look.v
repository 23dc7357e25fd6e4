(** What an expression does on an input of which only the beginning is known.

    [slook b e p] and [plook b e p] evaluate [e] on a text that starts with [p] in some mixture of
    upper and lower case ([p] itself is in upper case); with [b] the known beginning is followed by
    the end of the text or by a mark that ends a word. *)
From Verif Require Import Grammar PegProps PegSpec PegEquiv TextLemmas LexProofs First Calc.

Inductive lk : Set := LFail | LOk (r : text) | LAny.

(** The bytes that end a word or a value. *)
Definition brk (c : ascii) : bool := is_space c || existsb (Ascii.eqb c) (L ")],*/+-|[").
Definition boundary (k : text) : Prop := match k with [] => True | c :: _ => brk c = true end.
Definition downc (c : ascii) : ascii := if is_upper c then ascii_of_N (code c + 32) else c.
Lemma upc_cases c u : upc c = u -> c = u \/ c = downc u.
Proof. intros <-. destruct c as [[] [] [] [] [] [] [] []]; vm_compute; auto. Qed.

Definition all_bytes : list ascii := map ascii_of_nat (seq 0 256).
Lemma all_bytes_in c : In c all_bytes.
Proof. apply in_map_iff. exists (nat_of_ascii c). split; [apply ascii_nat_embedding|]. apply in_seq. pose proof (nat_ascii_bounded c). lia. Qed.
Definition off_brk (f : ascii -> bool) : bool := forallb (fun c => negb (brk c && f c)) all_bytes.
Lemma off_brk_ok f c : off_brk f = true -> brk c = true -> f c = false.
Proof.
  intros H B. (pose proof (proj1 (forallb_forall _ _) H c (all_bytes_in c)) as X).
  cbn in X. rewrite B in X. destruct (f c); [discriminate|reflexivity].
Qed.

(** Literals *)
Fixpoint llook (b nc : bool) (s p : text) : lk :=
  match s, p with
  | [], _ => LOk p
  | a :: _, [] => if b && negb (brk a) && negb (brk (downc (upc a))) && negb (brk (upc a)) then LFail else LAny
  | a :: s', u :: p' =>
      if nc then if Ascii.eqb (upc a) u then llook b nc s' p' else LFail
      else if Ascii.eqb a u then if Ascii.eqb a (downc u) then llook b nc s' p'
                                 else match llook b nc s' p' with LFail => LFail | _ => LAny end
           else if Ascii.eqb a (downc u) then match llook b nc s' p' with LFail => LFail | _ => LAny end else LFail
  end.
Lemma llook_ok b nc s : forall p p' k, upper p' = p -> (b = true -> boundary k) ->
  match llook b nc s p with
  | LFail => strip nc s (p' ++ k) = None
  | LOk r => exists w r', strip nc s (p' ++ k) = Some (w, r' ++ k) /\ upper r' = r
  | LAny => True
  end.
Proof.
  induction s as [|a s IH]; intros p p' k U B; cbn [llook].
  - destruct p; exists [], p'; split; auto.
  - destruct p as [|u p].
    + destruct p'; [|discriminate]. cbn [app]. destruct (_ && _ && _ && _) eqn:E; auto. apply andb_true_iff in E as [E E4]. apply andb_true_iff in E as [E E3].
      apply andb_true_iff in E as [E1 E2]. specialize (B E1). destruct k as [|c k]; [reflexivity|]. cbn in B. cbn [strip].
      assert (eq_ch nc a c = false) as ->; [|reflexivity]. destruct nc; cbn.
      * unfold eq_nc. destruct (Ascii.eqb (upc a) (upc c)) eqn:Q; [|reflexivity]. apply Ascii.eqb_eq in Q. symmetry in Q.
        destruct (upc_cases c (upc a) Q) as [->| ->]; rewrite B in *; discriminate.
      * destruct (Ascii.eqb a c) eqn:Q; [|reflexivity]. apply Ascii.eqb_eq in Q as ->. rewrite B in *; discriminate.
    + destruct p' as [|c p']; [discriminate|]. cbn in U. injection U as U1 U2. cbn [app strip]. destruct nc; cbn [eq_ch].
      * unfold eq_nc. rewrite U1. destruct (Ascii.eqb (upc a) u); [|reflexivity]. specialize (IH p p' k U2 B).
        destruct (llook b true s p); auto; [now rewrite IH|]. destruct IH as (w & r' & -> & Ur). eauto.
      * destruct (upc_cases c u U1) as [->| ->]; destruct (Ascii.eqb a u) eqn:E1; destruct (Ascii.eqb a (downc u)) eqn:E2; auto;
          specialize (IH p p' k U2 B); destruct (llook b false s p); auto; try (now rewrite IH);
          destruct IH as (w & r' & -> & Ur); eauto.
Qed.

Fixpoint slook (b : bool) (e : se) (p : text) : lk :=
  match e with
  | SChr f => match p with
              | [] => if b && off_brk f then LFail else LAny
              | u :: p' => if f u then if f (downc u) then LOk p' else LAny else if f (downc u) then LAny else LFail
              end
  | SLit nc s | SStr nc s => llook b nc s p
  | SSeq x y => match slook b x p with LOk r => slook b y r | o => o end
  | SAlt x y => match slook b x p with LFail => slook b y p | o => o end
  | SStar x =>
      (fix go n p := match slook b x p with LFail => LOk p | LAny => LAny
                     | LOk r => match n with O => LAny | S n' => go n' r end end) (length p) p
  | SPlus x =>
      match slook b x p with
      | LOk r => (fix go n p := match slook b x p with LFail => LOk p | LAny => LAny
                     | LOk r => match n with O => LAny | S n' => go n' r end end) (length r) r
      | o => o
      end
  | SOpt x => match slook b x p with LFail => LOk p | o => o end
  | SHold x => slook b x p
  | SAnd x => match slook b x p with LOk _ => LOk p | o => o end
  | SNot x => match slook b x p with LOk _ => LFail | LFail => LOk p | LAny => LAny end
  | SDiff x y => match slook b y p with LOk _ => LFail | LFail => slook b x p | LAny => LAny end
  | SExp x y => match slook b x p with LOk r => match slook b y r with LFail => LAny | o => o end | o => o end
  | SMap _ x => match slook b x p with LFail => LFail | _ => LAny end
  end.
Definition ssound (e : se) (p' k : text) (x : lk) : Prop :=
  forall acc, match x with
  | LFail => exists a, sev e acc (p' ++ k) (SFail a)
  | LOk r => exists a r', sev e acc (p' ++ k) (SOk a (r' ++ k)) /\ upper r' = r
  | LAny => True
  end.
Lemma slook_ok b e : forall p p' k, upper p' = p -> (b = true -> boundary k) -> ssound e p' k (slook b e p).
Proof.
  assert (Star : forall e, (forall p p' k, upper p' = p -> (b = true -> boundary k) -> ssound e p' k (slook b e p)) ->
    forall k n p p' acc, upper p' = p -> (b = true -> boundary k) ->
    match (fix go n p := match slook b e p with LFail => LOk p | LAny => LAny
                     | LOk r => match n with O => LAny | S n' => go n' r end end) n p with
    | LFail => False
    | LOk r => exists a r', sev (SStar e) acc (p' ++ k) (SOk a (r' ++ k)) /\ upper r' = r
    | LAny => True end).
  { intros e0 IH k n. induction n as [|n IHn]; intros p p' acc U B; specialize (IH p p' k U B acc) as H; destruct (slook b e0 p); auto.
    - destruct H as (a & H). exists a, p'. split; [now apply sev_star_stop|auto].
    - destruct H as (a & H). exists a, p'. split; [now apply sev_star_stop|auto].
    - destruct H as (a & r' & H & Ur). specialize (IHn r r' a Ur B).
      match goal with |- match ?x with _ => _ end => destruct x end; auto. destruct IHn as (a' & r2 & H2 & U2). exists a', r2. split; auto. eapply sev_star_more; eauto. }
  induction e; intros p p' k U B acc; cbn [slook].
  - destruct p as [|u p]; destruct p' as [|c p']; try discriminate.
    + cbn [app]. destruct (b && off_brk f) eqn:E; auto. apply andb_true_iff in E as [E1 E2]. specialize (B E1). destruct k as [|c k]; [eexists; apply sev_chr_end|].
      eexists. apply sev_chr_no. eapply off_brk_ok; eauto.
    + cbn in U. injection U as U1 U2. cbn [app].
      destruct (f u) eqn:F1; destruct (f (downc u)) eqn:F2; auto.
      * exists (acc ++ [c]), p'. split; auto. apply sev_chr_ok. destruct (upc_cases c u U1) as [->| ->]; auto.
      * eexists. apply sev_chr_no. destruct (upc_cases c u U1) as [->| ->]; auto.
  - pose proof (llook_ok b nc s p p' k U B) as H. destruct (llook b nc s p); auto.
    + eexists. now apply sev_lit_no.
    + destruct H as (w & r' & H & Ur). exists acc, r'. split; auto. eapply sev_lit_ok; eauto.
  - pose proof (llook_ok b nc s p p' k U B) as H. destruct (llook b nc s p); auto.
    + eexists. now apply sev_str_no.
    + destruct H as (w & r' & H & Ur). exists (acc ++ w), r'. split; auto. eapply sev_str_ok; eauto.
  - specialize (IHe1 p p' k U B acc). destruct (slook b e1 p); auto; [destruct IHe1 as (a & H); eexists; apply sev_seq_no; eauto|].
    destruct IHe1 as (a & r' & H & Ur). specialize (IHe2 r r' k Ur B a). destruct (slook b e2 r); auto.
    + destruct IHe2 as (a2 & H2). eexists. eapply sev_seq_ok; eauto.
    + destruct IHe2 as (a2 & r2 & H2 & U2). exists a2, r2. split; auto. eapply sev_seq_ok; eauto.
  - specialize (IHe1 p p' k U B acc). destruct (slook b e1 p); auto.
    + destruct IHe1 as (a & H). specialize (IHe2 p p' k U B a). destruct (slook b e2 p); auto.
      * destruct IHe2 as (a2 & H2). eexists. eapply sev_alt_2; eauto.
      * destruct IHe2 as (a2 & r2 & H2 & U2). exists a2, r2. split; auto. eapply sev_alt_2; eauto.
    + destruct IHe1 as (a & r' & H & Ur). exists a, r'. split; auto. now apply sev_alt_1.
  - specialize (Star e IHe k (length p) p p' acc U B).
    match goal with H : match ?x with _ => _ end |- match ?y with _ => _ end => change y with x; destruct x end; auto. destruct Star.
  - specialize (IHe p p' k U B acc) as H. destruct (slook b e p); auto; [destruct H as (a & H); eexists; apply sev_plus_no; eauto|].
    destruct H as (a & r' & H & Ur). specialize (Star e IHe k (length r) r r' a Ur B).
    match goal with H : match ?x with _ => _ end |- match ?y with _ => _ end => change y with x; destruct x end; auto; [destruct Star|].
    destruct Star as (a2 & r2 & H2 & U2). exists a2, r2. split; auto. eapply sev_plus_ok; eauto.
  - specialize (IHe p p' k U B acc). destruct (slook b e p); auto.
    + destruct IHe as (a & H). exists a, p'. split; auto. now apply sev_opt_no.
    + destruct IHe as (a & r' & H & Ur). exists a, r'. split; auto. now apply sev_opt_ok.
  - specialize (IHe p p' k U B acc). destruct (slook b e p); auto.
    + destruct IHe as (a & H). eexists. eapply sev_hold_no; eauto.
    + destruct IHe as (a & r' & H & Ur). exists a, r'. split; auto. now apply sev_hold_ok.
  - specialize (IHe p p' k U B []). destruct (slook b e p); auto.
    + destruct IHe as (a & H). eexists. eapply sev_and_no; eauto.
    + destruct IHe as (a & r' & H & Ur). exists acc, p'. split; auto. eapply sev_and_ok; eauto.
  - specialize (IHe p p' k U B []). destruct (slook b e p); auto.
    + destruct IHe as (a & H). exists acc, p'. split; auto. eapply sev_not_ok; eauto.
    + destruct IHe as (a & r' & H & Ur). eexists. eapply sev_not_no; eauto.
  - specialize (IHe2 p p' k U B []). destruct (slook b e2 p); auto.
    + destruct IHe2 as (a & H). specialize (IHe1 p p' k U B acc). destruct (slook b e1 p); auto.
      * destruct IHe1 as (a2 & H2). eexists. eapply sev_diff_ok; eauto.
      * destruct IHe1 as (a2 & r2 & H2 & U2). exists a2, r2. split; auto. eapply sev_diff_ok; eauto.
    + destruct IHe2 as (a & r' & H & Ur). eexists. eapply sev_diff_no; eauto.
  - specialize (IHe1 p p' k U B acc). destruct (slook b e1 p); auto; [destruct IHe1 as (a & H); eexists; apply sev_exp_no; eauto|].
    destruct IHe1 as (a & r' & H & Ur). specialize (IHe2 r r' k Ur B a). destruct (slook b e2 r); auto.
    destruct IHe2 as (a2 & r2 & H2 & U2). exists a2, r2. split; auto. eapply sev_exp_ok; eauto.
  - specialize (IHe p p' k U B []). destruct (slook b e p); auto. destruct IHe as (a & H). eexists. eapply sev_map_no; eauto.
Qed.

Section Class.
Variable b : bool.
Variable tab : rule -> text -> lk.
(** With skipper. *)
Definition skipped (p : text) (f : text -> lk) : lk := match skip p with [] => LAny | q => f q end.
Fixpoint plook {A : Set} (e : PE A) (p : text) : lk :=
  match e with
  | PLit nc s => skipped p (llook b nc s)
  | PLex e => skipped p (slook b e)
  | POptLex e => skipped p (fun q => match slook b e q with LFail => LOk q | o => o end)
  | PSpace => LAny
  | PDbl => skipped p (fun q => match dbl_class (hd_of q), dbl_class (option_map downc (hd_of q)) with C_fail, C_fail => LFail | _, _ => LAny end)
  | PTop => skipped p (fun q => match top_class (hd_of q), top_class (option_map downc (hd_of q)) with C_fail, C_fail => LFail | _, _ => LAny end)
  | PRet _ => LOk p
  | PSeq x y => match plook x p with LOk r => plook y r | o => o end
  | PExp x y => match plook x p with LOk r => match plook y r with LFail => LAny | o => o end | o => o end
  | PAlt x y => match plook x p with LFail => plook y p | o => o end
  | POpt x => match plook x p with LFail => LOk p | o => o end
  | PStar x => match plook x p with LFail => LOk p | _ => LAny end
  | PPlus x => match plook x p with LFail => LFail | _ => LAny end
  | PList x s => match plook x p with LFail => LFail | LOk r => match plook s r with LFail => LOk r | _ => LAny end | LAny => LAny end
  | PMap _ x => plook x p
  | PRule r => tab r p
  end.
End Class.

(** The rest [i] of the input starts, behind white space, with [p]. *)
Definition starts_as (b : bool) (i p : text) : Prop :=
  exists p' k, skip i = skip (p' ++ k) /\ upper p' = p /\ (b = true -> boundary k).
Lemma upc_space c : is_space (upc c) = is_space c.
Proof. destruct c as [[] [] [] [] [] [] [] []]; reflexivity. Qed.
Lemma skip_upper p : skip (upper p) = upper (skip p).
Proof. induction p as [|c p IH]; [reflexivity|]. cbn. rewrite upc_space. now destruct (is_space c). Qed.
Lemma skip_app_dark p k : skip p <> [] -> skip (p ++ k) = skip p ++ k.
Proof. induction p as [|c p IH]; [now intros []|]. cbn. destruct (is_space c); auto. Qed.
Lemma starts_skipped b i p f : starts_as b i p ->
  skipped p f = LAny \/ exists q k, skip i = q ++ k /\ (b = true -> boundary k) /\ skipped p f = f (upper q) /\ q <> [].
Proof.
  intros (p' & k & E & U & B). subst p. unfold skipped. rewrite skip_upper. destruct (skip p') as [|c q] eqn:S; [now left|right].
  exists (c :: q), k. rewrite E, skip_app_dark by (rewrite S; discriminate). rewrite S. repeat split; auto. discriminate.
Qed.
Lemma starts_eq b i j p : skip j = skip i -> starts_as b i p -> starts_as b j p.
Proof. intros E (p' & k & H). exists p', k. now rewrite E. Qed.
Lemma starts_rest b r k : (b = true -> boundary k) -> starts_as b (r ++ k) (upper r).
Proof. intros B. exists r, k. auto. Qed.

Section Sound.
Variable m : text -> option text.
Notation EV := (ev (g_body m) _).
Definition lsound (b : bool) {A : Set} (e : PE A) (i : text) (x : lk) : Prop :=
  match x with
  | LFail => fails m e i
  | LOk r => exists v j, EV e i (Ok v j) /\ starts_as b j r
  | LAny => True
  end.
Lemma hd_upper q : hd_of (upper q) = option_map upc (hd_of q).
Proof. now destruct q. Qed.
Lemma plook_ok b tab (Htab : forall r i p, starts_as b i p -> lsound b (PRule r) i (tab r p)) (A : Set) (e : PE A) :
  forall i p, starts_as b i p -> lsound b e i (plook b tab e p).
Proof.
  assert (Dig : forall f : option ascii -> cls, forall c, f (Some (upc c)) = C_fail -> f (Some (downc (upc c))) = C_fail -> f (Some c) = C_fail).
  { intros f c H1 H2. destruct (upc_cases c (upc c) eq_refl) as [->| ->]; auto. }
  induction e; intros i p S; cbn [plook].
  - destruct (starts_skipped b i p (llook b nc s) S) as [->|(q & k & E & B & -> & _)]; [exact I|].
    pose proof (llook_ok b nc s (upper q) q k eq_refl B) as H. rewrite <- E in H. destruct (llook b nc s (upper q)); cbn; auto.
    + now apply fails_lit.
    + destruct H as (w & r' & H & <-). exists tt, (r' ++ k). split; [eapply ev_lit_ok; eauto|now apply starts_rest].
  - destruct (starts_skipped b i p (slook b e) S) as [->|(q & k & E & B & -> & _)]; [exact I|].
    pose proof (slook_ok b e (upper q) q k eq_refl B []) as H. rewrite <- E in H. destruct (slook b e (upper q)); cbn; auto.
    + destruct H as (a & H). eexists. split; [eapply ev_lex_no; eauto|apply skip_skip].
    + destruct H as (a & r' & H & <-). exists a, (r' ++ k). split; [eapply ev_lex_ok; eauto|now apply starts_rest].
  - destruct (starts_skipped b i p (fun q => match slook b e q with LFail => LOk q | o => o end) S) as [->|(q & k & E & B & -> & _)]; [exact I|].
    pose proof (slook_ok b e (upper q) q k eq_refl B []) as H. rewrite <- E in H. destruct (slook b e (upper q)); cbn; auto.
    + destruct H as (a & H). exists a, (skip i). split; [eapply ev_olex_no; eauto|]. rewrite E. now apply starts_rest.
    + destruct H as (a & r' & H & <-). exists a, (r' ++ k). split; [eapply ev_olex_ok; eauto|now apply starts_rest].
  - exact I.
  - edestruct (starts_skipped b i p) as [->|(q & k & E & B & -> & N)]; [exact S|exact I|]. destruct q as [|c q]; [congruence|]. cbn [upper map hd_of option_map].
    destruct (dbl_class (Some (upc c))) eqn:D1; try exact I. destruct (dbl_class (Some (downc (upc c)))) eqn:D2; try exact I. cbn.
    apply fails_dbl, dbl_class_ok. rewrite E. cbn [app hd_of]. now apply Dig.
  - edestruct (starts_skipped b i p) as [->|(q & k & E & B & -> & N)]; [exact S|exact I|]. destruct q as [|c q]; [congruence|]. cbn [upper map hd_of option_map].
    destruct (top_class (Some (upc c))) eqn:D1; try exact I. destruct (top_class (Some (downc (upc c)))) eqn:D2; try exact I. cbn.
    eexists. split; [apply ev_top_no, top_class_ok; rewrite E; cbn [app hd_of]; now apply Dig|apply skip_skip].
  - cbn. exists v, i. split; [apply ev_ret|exact S].
  - specialize (IHe1 i p S). destruct (plook b tab e1 p); cbn in *; auto; [now apply fails_seq1|].
    destruct IHe1 as (v & j & H & S1). specialize (IHe2 j r S1). destruct (plook b tab e2 r); cbn in *; auto.
    + destruct IHe2 as (r2 & H2 & _). eexists. split; [eapply ev_seq_no2; eauto|auto].
    + destruct IHe2 as (v2 & j2 & H2 & S2). exists (v, v2), j2. split; auto. eapply ev_seq_ok; eauto.
  - specialize (IHe1 i p S). destruct (plook b tab e1 p); cbn in *; auto; [now apply fails_exp1|].
    destruct IHe1 as (v & j & H & S1). specialize (IHe2 j r S1). destruct (plook b tab e2 r); cbn in *; auto.
    destruct IHe2 as (v2 & j2 & H2 & S2). exists (v, v2), j2. split; auto. eapply ev_exp_ok; eauto.
  - specialize (IHe1 i p S). destruct (plook b tab e1 p); cbn in *; auto.
    + destruct IHe1 as (r & H & E). specialize (IHe2 r p (starts_eq _ _ _ _ E S)). destruct (plook b tab e2 p); cbn in *; auto.
      * destruct IHe2 as (r2 & H2 & E2). exists r2. split; [eapply ev_alt_2; eauto|congruence].
      * destruct IHe2 as (v2 & j2 & H2 & S2). exists v2, j2. split; auto. eapply ev_alt_2; eauto.
    + destruct IHe1 as (v & j & H & S1). exists v, j. split; auto. now apply ev_alt_1.
  - specialize (IHe i p S). destruct (plook b tab e p); cbn in *; auto.
    + destruct IHe as (r & H & E). exists None, r. split; [now apply ev_opt_no|eapply starts_eq; eauto].
    + destruct IHe as (v & j & H & S1). exists (Some v), j. split; auto. now apply ev_opt_ok.
  - specialize (IHe i p S). destruct (plook b tab e p); cbn in *; auto.
    destruct IHe as (r & H & E). exists [], r. split; [now apply ev_star_stop|eapply starts_eq; eauto].
  - specialize (IHe i p S). destruct (plook b tab e p); cbn in *; auto. now apply fails_plus.
  - specialize (IHe1 i p S). destruct (plook b tab e1 p); cbn in *; auto; [now apply fails_list|].
    destruct IHe1 as (v & j & H & S1). specialize (IHe2 j r S1). destruct (plook b tab e2 r); cbn in *; auto.
    destruct IHe2 as (r2 & H2 & _). exists [v], j. split; auto. eapply ev_list_ok; eauto. eapply evl_stop; eauto.
  - specialize (IHe i p S). destruct (plook b tab e p); cbn in *; auto; [now apply fails_map|].
    destruct IHe as (v & j & H & S1). exists (f v), j. split; auto. now apply ev_map_ok.
  - now apply Htab.
Qed.
Fixpoint rlook (b : bool) (n : nat) (r : rule) (p : text) : lk :=
  match n with O => LAny | S n' => plook b (rlook b n') (g_body m r) p end.
Lemma rlook_ok b n : forall r i p, starts_as b i p -> lsound b (PRule r) i (rlook b n r p).
Proof.
  induction n as [|n IH]; intros r i p S; [exact I|]. cbn [rlook]. pose proof (plook_ok b _ IH _ (g_body m r) i p S) as H.
  destruct (plook _ _ _ _); cbn in *; auto; [now apply fails_rule|].
  destruct H as (v & j & H & S1). exists v, j. split; auto. now apply ev_rule.
Qed.
Definition glook (b : bool) {A : Set} (e : PE A) (p : text) : lk := plook b (rlook b 6) e p.
Lemma look_fail b (A : Set) (e : PE A) i p : starts_as b i p -> glook b e p = LFail -> fails m e i.
Proof. intros S H. pose proof (plook_ok b _ (rlook_ok b 6) A e i p S) as G. unfold glook in H. now rewrite H in G. Qed.
End Sound.
