(** Letter case does not matter: whole texts (C12). *)
From Verif Require Import Query PegProps TextLemmas SpecCase SpecCaseResult CaseLex CaseParse CaseMain CasePre.

Lemma same_letter_upc c d : same_letter c d <-> upc c = upc d.
Proof.
  split.
  - intros [->|(n & Hn & H)]; [reflexivity|].
    assert (F : forall x y, code x = n -> code y = (n + 32)%N -> upc x = upc y).
    { intros x y Hx Hy. rewrite <- (ascii_N_embedding x), <- (ascii_N_embedding y).
      change (N_of_ascii x) with (code x). change (N_of_ascii y) with (code y). rewrite Hx, Hy. clear - Hn.
      assert (K : In n (map N.of_nat (seq 65 26))).
      { apply in_map_iff. exists (N.to_nat n). split; [apply N2Nat.id|]. apply in_seq. lia. }
      cbn in K. repeat destruct K as [<-|K]; try reflexivity. contradiction. }
    destruct H as [[H1 H2]|[H1 H2]]; [auto|symmetry; auto].
  - intros U. unfold upc in U. destruct (is_lower c) eqn:Lc, (is_lower d) eqn:Ld.
    + left. apply (f_equal code) in U. unfold is_lower in *. apply andb_prop in Lc as [L1 L2], Ld as [L3 L4].
      apply N.leb_le in L1, L2, L3, L4. unfold code in *. rewrite !N_ascii_embedding in U by lia.
      rewrite <- (ascii_N_embedding c), <- (ascii_N_embedding d). f_equal. lia.
    + right. exists (code d). unfold is_lower in Lc. apply andb_prop in Lc as [L1 L2]. apply N.leb_le in L1, L2.
      apply (f_equal code) in U. unfold code in *. rewrite N_ascii_embedding in U by lia. rewrite <- U. split; [lia|]. right. lia.
    + right. exists (code c). unfold is_lower in Ld. apply andb_prop in Ld as [L1 L2]. apply N.leb_le in L1, L2.
      apply (f_equal code) in U. unfold code in *. rewrite N_ascii_embedding in U by lia. rewrite U. split; [lia|]. left. lia.
    + left. exact U.
Qed.
Lemma respelled_ueq a b : respelled a b <-> ueq a b.
Proof.
  split.
  - induction 1 as [|c d a b H _ IH]; [reflexivity|]. apply ueq_cons_i; [now apply same_letter_upc|exact IH].
  - revert b. induction a as [|c a IH]; intros b H; [apply ueq_nil in H; subst; constructor|].
    destruct (ueq_cons _ _ _ H) as (d & b' & -> & U & H'). constructor; [now apply same_letter_upc|now apply IH].
Qed.

Lemma upper_case a b : ueq a b -> upper a = upper b. Proof. auto. Qed.
Section Fmt.
Variable fmt : text -> text.
Hypothesis fmt_case : forall a b, ueq a b -> ueq (fmt a) (fmt b).
Lemma rule_sim m n q : @psim m n _ (lk_attr fmt upper q) (PRule q).
Proof.
  revert q. induction n as [|n IH]; intros q i i' K; [rewrite !run_Rule_0; exact I|].
  rewrite !run_Rule. exact (rules_sim fmt fmt_case upper upper_case m n IH q i i' K).
Qed.
Lemma query_sim m n : @psim m n _ (lk_qspec fmt upper) (g_query m).
Proof. apply (g_query_sim fmt fmt_case upper upper_case m n). intros q. apply rule_sim. Qed.
Lemma parse_sim tm t t' : ueq t t' -> uploads_kept t t' -> uploads_kept t' t ->
  match parse_it tm t, parse_it tm t' with
  | Q_ok q, Q_ok q' => same_structure q q' /\ ueq (to_string fmt q) (to_string fmt q')
  | Q_err e, Q_err e' => same_error e e'
  | _, _ => False
  end.
Proof.
  intros U K K'. unfold parse_it, grun. unfold fuel_for. rewrite <- (ueq_len _ _ U).
  pose proof (query_sim (lookup tm) (3 * length t + 4) t t' (conj U (conj K K'))) as H.
  destruct (run _ _ _ _ t) as [q r|r|[r|x]|], (run _ _ _ _ t') as [q' r'|r'|[r'|x']|]; cbn in H; try contradiction.
  - destruct H as [(H1 & H2 & _) Hr]. pose proof (skip_ueq _ _ Hr) as Hs.
    destruct (skip r) as [|c s]; [apply ueq_nil in Hs; rewrite Hs; split; assumption|].
    destruct (ueq_cons _ _ _ Hs) as (d & s' & E & _). rewrite E. rewrite E in Hs. apply respelled_ueq. exact Hs.
  - apply respelled_ueq. exact U.
  - apply respelled_ueq. exact H.
  - exact H.
  - exact I.
Qed.
End Fmt.

Lemma parse_same tm t t' : respelled t t' -> uploads_kept t t' -> uploads_kept t' t ->
  same_result (parse_it tm t) (parse_it tm t').
Proof.
  intros R K K'. apply respelled_ueq in R.
  pose proof (parse_sim (fun a => a) (fun a b H => H) tm t t' R K K') as H.
  destruct (parse_it tm t) as [q|e] eqn:E, (parse_it tm t') as [q'|e'] eqn:E'; try contradiction; [|exact H].
  split; [apply H|]. intros fmt F.
  assert (F' : forall a b, ueq a b -> ueq (fmt a) (fmt b)).
  { intros a b H'. apply respelled_ueq, F, respelled_ueq, H'. }
  pose proof (parse_sim fmt F' tm t t' R K K') as G. rewrite E, E' in G. apply respelled_ueq, G.
Qed.
Lemma query_same tm t t' : respelled t t' ->
  (forall h h', preprocess t = inr h -> preprocess t' = inr h' -> uploads_kept h h' /\ uploads_kept h' h) ->
  same_result (query tm t) (query tm t').
Proof.
  intros R K. unfold query. pose proof (preprocess_like _ _ (proj1 (respelled_ueq _ _) R)) as H.
  destruct (preprocess t) as [e|h], (preprocess t') as [e'|h']; cbn in H; try contradiction; [exact H|].
  destruct (K _ _ eq_refl eq_refl). apply parse_same; auto. now apply respelled_ueq.
Qed.
(** Without "TAP_UPLOAD." in any letter case there is nothing to keep. *)
Lemma no_uploads h h' : respelled h h' -> (forall a b, upper h <> a ++ L "TAP_UPLOAD." ++ b) -> uploads_kept h h' /\ uploads_kept h' h.
Proof.
  intros R N. apply respelled_ueq in R.
  assert (F : forall t, upper t = upper h -> forall a b, t = a ++ L "TAP_UPLOAD." ++ b -> False).
  { intros t E a b ->. apply (N (upper a) (upper b)). rewrite <- E. unfold upper. now rewrite !map_app. }
  split; intros a b E; exfalso; [apply (F h eq_refl a b E)|apply (F h' (eq_sym R) a b E)].
Qed.
Lemma preprocess_upper t t' h h' : respelled t t' -> preprocess t = inr h -> preprocess t' = inr h' -> respelled h h'.
Proof.
  intros R E E'. pose proof (preprocess_like _ _ (proj1 (respelled_ueq _ _) R)) as H. rewrite E, E' in H. now apply respelled_ueq.
Qed.

(** Checks for the examples. *)
Definition at_offset (s t : text) (n : nat) : option text := option_map snd (strip false s (skipn n t)).
Lemma at_offset_app s a b : at_offset s (a ++ s ++ b) (length a) = Some b.
Proof. unfold at_offset. rewrite skipn_app, skipn_all, Nat.sub_diag. cbn [app skipn]. now rewrite strip_exact. Qed.
Definition absent (s t : text) : bool :=
  forallb (fun n => match at_offset s t n with Some _ => false | None => true end) (seq 0 (S (length t))).
Lemma absent_spec s t : absent s t = true -> forall a b, t <> a ++ s ++ b.
Proof.
  intros H a b ->. unfold absent in H. rewrite forallb_forall in H. specialize (H (length a)).
  rewrite at_offset_app in H. rewrite app_length in H. assert (false = true) by (apply H, in_seq; lia). discriminate.
Qed.
(** The same text behind every TAP_UPLOAD. *)
Definition same_behind (t t' : text) : bool :=
  forallb (fun n => match at_offset (L "TAP_UPLOAD.") t n, at_offset (L "TAP_UPLOAD.") t' n with
                    | Some b, Some b' => text_eqb b b' | None, _ => true | _, _ => false end) (seq 0 (S (length t))).
Lemma text_eqb_eq a b : text_eqb a b = true -> a = b.
Proof.
  revert b. induction a as [|x a IH]; intros [|y b]; cbn; try discriminate; auto.
  intros H. apply andb_prop in H as [H1 H2]. apply Ascii.eqb_eq in H1. rewrite H1, (IH _ H2). reflexivity.
Qed.
Lemma same_behind_spec t t' : same_behind t t' = true -> uploads_kept t t'.
Proof.
  intros H a b ->. unfold same_behind in H. rewrite forallb_forall in H. specialize (H (length a)).
  rewrite at_offset_app in H. rewrite app_length in H. specialize (H ltac:(apply in_seq; lia)).
  destruct (at_offset (L "TAP_UPLOAD.") t' (length a)) as [b'|] eqn:E; [|discriminate]. apply text_eqb_eq in H. subst b'.
  unfold at_offset in E. destruct (strip false (L "TAP_UPLOAD.") (skipn (length a) t')) as [[m r]|] eqn:S; [|discriminate].
  injection E as ->. apply strip_exact_inv in S. exists (firstn (length a) t'), b.
  assert (Len : (length a <= length t')%nat).
  { apply Nat.lt_le_incl, Nat.nle_gt. intros C. rewrite (skipn_all2 _ C) in S. discriminate. }
  split; [rewrite <- S; symmetry; apply firstn_skipn|]. split; [apply firstn_length_le; exact Len|]. intros n k -> _. now exists k.
Qed.
