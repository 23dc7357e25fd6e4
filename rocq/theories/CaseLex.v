(** Letter case does not matter: character level (C12). *)
From Verif Require Import Query PegProps TextLemmas LexProofs2 SpecLexical SpecCase.

Definition ueq (a b : text) : Prop := upper a = upper b.
Lemma ueq_len a b : ueq a b -> length a = length b.
Proof. intros H. apply (f_equal (@length ascii)) in H. unfold upper in H. now rewrite !map_length in H. Qed.
Lemma ueq_refl a : ueq a a. Proof. reflexivity. Qed.
Lemma ueq_sym a b : ueq a b -> ueq b a. Proof. unfold ueq. auto. Qed.
Lemma ueq_nil b : ueq [] b -> b = []. Proof. destruct b; [auto|discriminate]. Qed.
Lemma ueq_cons c a b : ueq (c :: a) b -> exists d b', b = d :: b' /\ upc c = upc d /\ ueq a b'.
Proof. destruct b as [|d b]; [discriminate|]. intros H. injection H as H1 H2. exists d, b. auto. Qed.
Lemma ueq_cons_i c d a b : upc c = upc d -> ueq a b -> ueq (c :: a) (d :: b).
Proof. unfold ueq, upper. cbn [map]. intros -> ->. reflexivity. Qed.
Lemma ueq_app a b a' b' : ueq a a' -> ueq b b' -> ueq (a ++ b) (a' ++ b').
Proof. unfold ueq, upper. rewrite !map_app. intros -> ->. reflexivity. Qed.
Lemma ueq_app_inv a b a' b' : length a = length a' -> ueq (a ++ b) (a' ++ b') -> ueq a a' /\ ueq b b'.
Proof.
  revert a'. induction a as [|c a IH]; intros [|c' a'] E H; try discriminate; [split; [reflexivity|exact H]|].
  cbn [app] in H. destruct (ueq_cons _ _ _ H) as (d & b0 & Eb & U & H'). injection Eb as <- <-.
  destruct (IH a' ltac:(cbn in E; lia) H') as [H1 H2]. split; [now apply ueq_cons_i|exact H2].
Qed.
Lemma ueq_is_nil a b : ueq a b -> is_nil a = is_nil b.
Proof. intros H. apply ueq_len in H. destruct a, b; cbn in *; congruence. Qed.

(** Character classes that do not distinguish letter case. *)
Definition cinv (f : ascii -> bool) : Prop := forall c d, upc c = upc d -> f c = f d.
Definition bytes : list ascii := map (fun n => ascii_of_N (N.of_nat n)) (seq 0 256).
Lemma bytes_all c : In c bytes.
Proof.
  unfold bytes. apply in_map_iff. exists (N.to_nat (N_of_ascii c)). rewrite N2Nat.id, ascii_N_embedding. split; [reflexivity|].
  apply in_seq. pose proof (N_ascii_bounded c). lia.
Qed.
Lemma cinv_check f : forallb (fun c => Bool.eqb (f c) (f (upc c))) bytes = true -> cinv f.
Proof.
  intros H c d E. rewrite forallb_forall in H.
  pose proof (H c (bytes_all c)) as H1. pose proof (H d (bytes_all d)) as H2.
  apply Bool.eqb_prop in H1, H2. rewrite H1, H2, E. reflexivity.
Qed.
Ltac cinv := apply cinv_check; vm_compute; reflexivity.
Lemma cinv_space : cinv is_space. Proof. cinv. Qed.
Lemma cinv_digit : cinv is_digit. Proof. cinv. Qed.
Lemma cinv_letter : cinv is_letter. Proof. cinv. Qed.
Lemma cinv_idchar : cinv is_idchar. Proof. cinv. Qed.
Definition caseless (x : ascii) : bool := negb (is_letter x).
Lemma upc_idem c : upc (upc c) = upc c.
Proof.
  assert (H : forallb (fun c => Ascii.eqb (upc (upc c)) (upc c)) bytes = true) by (vm_compute; reflexivity).
  rewrite forallb_forall in H. apply Ascii.eqb_eq, H, bytes_all.
Qed.
Lemma caseless_eq x : caseless x = true -> forall c, upc c = upc x -> c = x.
Proof.
  intros Hx c E.
  assert (H : forallb (fun x => forallb (fun c => implb (caseless x && Ascii.eqb (upc c) (upc x)) (Ascii.eqb c x)) bytes) bytes = true)
    by (vm_compute; reflexivity).
  rewrite forallb_forall in H. specialize (H x (bytes_all x)). rewrite forallb_forall in H. specialize (H c (bytes_all c)).
  rewrite Hx, E, Ascii.eqb_refl in H. cbn in H. now apply Ascii.eqb_eq.
Qed.
Lemma cinv_chr x : caseless x = true -> cinv (fun c => Ascii.eqb c x).
Proof.
  intros Hx c d E. destruct (Ascii.eqb_spec c x) as [->|N], (Ascii.eqb_spec d x) as [->|M]; auto; exfalso.
  - apply M, caseless_eq; [exact Hx|now symmetry].
  - apply N, caseless_eq; [exact Hx|exact E].
Qed.

(** * The relation between the two inputs *)
Definition ks (i i' : text) : Prop := ueq i i' /\ uploads_kept i i' /\ uploads_kept i' i.
Lemma ks_ueq i i' : ks i i' -> ueq i i'. Proof. now intros []. Qed.
Lemma kept_suffix x r x' r' : length x = length x' -> uploads_kept (x ++ r) (x' ++ r') -> uploads_kept r r'.
Proof.
  intros E H a b Er. destruct (H (x ++ a) b) as (a' & b' & Ea & El & Hn); [now rewrite Er, <- app_assoc|].
  exists (skipn (length x') a'), b'. rewrite app_length in El.
  assert (Hx : x' = firstn (length x') a').
  { apply (f_equal (firstn (length x'))) in Ea. rewrite !firstn_app in Ea.
    rewrite Nat.sub_diag in Ea. rewrite firstn_all in Ea. cbn [firstn] in Ea. rewrite app_nil_r in Ea. rewrite Ea at 1.
    replace (length x' - length a') with 0 by lia. cbn [firstn]. now rewrite app_nil_r. }
  split; [|split].
  - assert (Ha : a' = x' ++ skipn (length x') a') by (rewrite <- (firstn_skipn (length x') a') at 1; now rewrite <- Hx).
    apply (app_inv_head x'). rewrite Ea, Ha at 1. now rewrite <- app_assoc.
  - rewrite skipn_length. lia.
  - exact Hn.
Qed.
Lemma ks_suffix i i' r r' : ks i i' -> suffix r i -> suffix r' i' -> length r = length r' -> ks r r'.
Proof.
  intros (U & K & K') (x & ->) (x' & ->) E. pose proof (ueq_len _ _ U) as El. rewrite !app_length in El.
  assert (Ex : length x = length x') by lia.
  destruct (ueq_app_inv _ _ _ _ Ex U) as [_ Ur]. split; [exact Ur|]. split; [exact (kept_suffix _ _ _ _ Ex K)|exact (kept_suffix _ _ _ _ (eq_sym Ex) K')].
Qed.
Lemma ks_next i i' r r' : ks i i' -> suffix r i -> suffix r' i' -> ueq r r' -> ks r r'.
Proof. intros K S S' U. eapply ks_suffix; eauto. now apply ueq_len. Qed.

(** * Literals *)
Lemma skip_ueq i i' : ueq i i' -> ueq (skip i) (skip i').
Proof.
  revert i'. induction i as [|c i IH]; intros i' H; [apply ueq_nil in H; subst; reflexivity|].
  destruct (ueq_cons _ _ _ H) as (d & i2 & -> & U & H'). cbn [skip]. rewrite <- (cinv_space _ _ U).
  destruct (is_space c); [now apply IH|now apply ueq_cons_i].
Qed.
Lemma ks_skip i i' : ks i i' -> ks (skip i) (skip i').
Proof. intros K. eapply ks_next; eauto using skip_suffix. apply skip_ueq, K. Qed.

Definition opt_ueq (o o' : option (text * text)) : Prop :=
  match o, o' with
  | Some (m, r), Some (m', r') => ueq m m' /\ ueq r r'
  | None, None => True
  | _, _ => False
  end.
Lemma strip_nc_ueq s i i' : ueq i i' -> opt_ueq (strip true s i) (strip true s i').
Proof.
  revert i i'. induction s as [|a s IH]; intros i i' H; cbn [strip]; [split; [reflexivity|exact H]|].
  destruct i as [|b i]; [apply ueq_nil in H; subst; exact I|].
  destruct (ueq_cons _ _ _ H) as (d & i2 & -> & U & H'). unfold eq_ch, eq_nc. rewrite U.
  destruct (Ascii.eqb _ _); [|exact I]. specialize (IH i i2 H').
  destruct (strip true s i) as [[m r]|], (strip true s i2) as [[m' r']|]; cbn in *; try contradiction; auto.
  destruct IH. split; [now apply ueq_cons_i|assumption].
Qed.
Lemma strip_cs_ueq s i i' : forallb caseless s = true -> ueq i i' -> opt_ueq (strip false s i) (strip false s i').
Proof.
  revert i i'. induction s as [|a s IH]; intros i i' Hs H; cbn [strip]; [split; [reflexivity|exact H]|].
  cbn [forallb] in Hs. apply andb_prop in Hs as [Ha Hs].
  destruct i as [|b i]; [apply ueq_nil in H; subst; exact I|].
  destruct (ueq_cons _ _ _ H) as (d & i2 & -> & U & H'). unfold eq_ch.
  rewrite (Ascii.eqb_sym a b), (Ascii.eqb_sym a d), <- (cinv_chr a Ha _ _ U).
  destruct (Ascii.eqb b a); [|exact I]. specialize (IH i i2 Hs H').
  destruct (strip false s i) as [[m r]|], (strip false s i2) as [[m' r']|]; cbn in *; try contradiction; auto.
  destruct IH. split; [now apply ueq_cons_i|assumption].
Qed.
Lemma span_ueq f i i' : cinv f -> ueq i i' -> ueq (fst (span f i)) (fst (span f i')) /\ ueq (snd (span f i)) (snd (span f i')).
Proof.
  intros Hf. revert i'. induction i as [|c i IH]; intros i' H; [apply ueq_nil in H; subst; split; reflexivity|].
  destruct (ueq_cons _ _ _ H) as (d & i2 & -> & U & H'). cbn [span]. rewrite <- (Hf _ _ U).
  destruct (f c); [|split; [reflexivity|exact H]]. specialize (IH i2 H').
  destruct (span f i) as [a b], (span f i2) as [a' b']. cbn [fst snd] in *. destruct IH. split; [now apply ueq_cons_i|assumption].
Qed.

(** * String-valued expressions *)
Definition exn_like (x x' : exn) : Prop :=
  match x, x' with
  | ExExpect r, ExExpect r' => ueq r r'
  | ExTable n, ExTable n' => n = n'
  | _, _ => False
  end.
Definition sout_like (o o' : sout) : Prop :=
  match o, o' with
  | SOk a r, SOk a' r' => ueq a a' /\ ueq r r'
  | SFail a, SFail a' => ueq a a'
  | SThrow x, SThrow x' => exn_like x x'
  | SLoop, SLoop => True
  | _, _ => False
  end.
Definition slike (e : se) : Prop := forall acc acc' i i', ueq acc acc' -> ks i i' -> sout_like (srun e acc i) (srun e acc' i').
Lemma sout_like_refl_fail a a' : ueq a a' -> sout_like (SFail a) (SFail a'). Proof. auto. Qed.

Lemma slike_chr f : cinv f -> slike (SChr f).
Proof.
  intros Hf acc acc' i i' A (U & _). cbn [srun]. destruct i as [|c i]; [apply ueq_nil in U; subst; exact A|].
  destruct (ueq_cons _ _ _ U) as (d & i2 & -> & Uc & U'). rewrite <- (Hf _ _ Uc). destruct (f c); [|exact A].
  split; [|exact U']. apply ueq_app; [exact A|]. now apply ueq_cons_i.
Qed.
Ltac strip_case H :=
  match type of H with opt_ueq ?a ?b => destruct a as [[? ?]|], b as [[? ?]|]; cbn in H; try contradiction end.
Lemma slike_lit s : slike (SLit true s).
Proof.
  intros acc acc' i i' A (U & _). cbn [srun]. pose proof (strip_nc_ueq s _ _ U) as H. strip_case H; [|exact A].
  destruct H. now split.
Qed.
Lemma slike_str s : slike (SStr true s).
Proof.
  intros acc acc' i i' A (U & _). cbn [srun]. pose proof (strip_nc_ueq s _ _ U) as H. strip_case H; [|exact A].
  destruct H. split; [now apply ueq_app|assumption].
Qed.
Lemma slike_lit_cs s : forallb caseless s = true -> slike (SLit false s).
Proof.
  intros Hs acc acc' i i' A (U & _). cbn [srun]. pose proof (strip_cs_ueq s _ _ Hs U) as H. strip_case H; [|exact A].
  destruct H. now split.
Qed.
Lemma slike_str_cs s : forallb caseless s = true -> slike (SStr false s).
Proof.
  intros Hs acc acc' i i' A (U & _). cbn [srun]. pose proof (strip_cs_ueq s _ _ Hs U) as H. strip_case H; [|exact A].
  destruct H. split; [now apply ueq_app|assumption].
Qed.
Ltac out_case H :=
  match type of H with sout_like ?a ?b =>
    let E := fresh "E" in let E' := fresh "E'" in
    destruct a as [? ?|?|?|] eqn:E, b as [? ?|?|?|] eqn:E'; cbn in H; try contradiction end.
Lemma slike_seq a b : slike a -> slike b -> slike (SSeq a b).
Proof.
  intros Ha Hb acc acc' i i' A K. cbn [srun]. pose proof (Ha _ _ _ _ A K) as H. out_case H; auto.
  destruct H as [H1 H2]. apply Hb; [exact H1|]. eapply ks_next; eauto using srun_suffix.
Qed.
Lemma slike_alt a b : slike a -> slike b -> slike (SAlt a b).
Proof.
  intros Ha Hb acc acc' i i' A K. cbn [srun]. pose proof (Ha _ _ _ _ A K) as H. out_case H; auto.
Qed.
Lemma sstar_like a n : slike a -> forall acc acc' i i', ueq acc acc' -> ks i i' ->
  sout_like (sstar (srun a) n acc i) (sstar (srun a) n acc' i').
Proof.
  intros Ha. induction n as [|n IH]; intros acc acc' i i' A K; cbn [sstar];
    pose proof (Ha _ _ _ _ A K) as H; out_case H; auto; try (split; [exact H|apply K]); try exact I.
  destruct H as [H1 H2]. pose proof (ueq_len _ _ H2) as L1. pose proof (ueq_len _ _ (ks_ueq _ _ K)) as L2. rewrite L1, L2.
  destruct (_ <? _); [|exact I]. apply IH; [exact H1|]. eapply ks_next; eauto using srun_suffix.
Qed.
Lemma slike_star a : slike a -> slike (SStar a).
Proof. intros Ha acc acc' i i' A K. cbn [srun]. rewrite <- (ueq_len _ _ (ks_ueq _ _ K)). now apply sstar_like. Qed.
Lemma slike_plus a : slike a -> slike (SPlus a).
Proof.
  intros Ha acc acc' i i' A K. cbn [srun]. pose proof (Ha _ _ _ _ A K) as H. out_case H; auto.
  destruct H as [H1 H2]. rewrite <- (ueq_len _ _ H2). apply sstar_like; auto. eapply ks_next; eauto using srun_suffix.
Qed.
Lemma slike_opt a : slike a -> slike (SOpt a).
Proof.
  intros Ha acc acc' i i' A K. cbn [srun]. pose proof (Ha _ _ _ _ A K) as H. out_case H; auto. split; [exact H|apply K].
Qed.
Lemma slike_hold a : slike a -> slike (SHold a).
Proof. intros Ha acc acc' i i' A K. cbn [srun]. pose proof (Ha _ _ _ _ A K) as H. out_case H; auto. Qed.
Lemma slike_and a : slike a -> slike (SAnd a).
Proof.
  intros Ha acc acc' i i' A K. cbn [srun]. pose proof (Ha _ _ _ _ (ueq_refl []) K) as H. out_case H; auto. split; [exact A|apply K].
Qed.
Lemma slike_not a : slike a -> slike (SNot a).
Proof.
  intros Ha acc acc' i i' A K. cbn [srun]. pose proof (Ha _ _ _ _ (ueq_refl []) K) as H. out_case H; auto. split; [exact A|apply K].
Qed.
Lemma slike_diff a b : slike a -> slike b -> slike (SDiff a b).
Proof.
  intros Ha Hb acc acc' i i' A K. cbn [srun]. pose proof (Hb _ _ _ _ (ueq_refl []) K) as H. out_case H; auto.
Qed.
Lemma slike_exp a b : slike a -> slike b -> slike (SExp a b).
Proof.
  intros Ha Hb acc acc' i i' A K. cbn [srun]. pose proof (Ha _ _ _ _ A K) as H. out_case H; auto.
  destruct H as [H1 H2]. assert (K2 : ks rest rest0) by (eapply ks_next; eauto using srun_suffix).
  pose proof (Hb _ _ _ _ H1 K2) as H. out_case H; auto.
Qed.
Lemma slike_alts l : Forall slike l -> slike (alts l).
Proof.
  induction 1; cbn [alts]; [|now apply slike_alt]. apply slike_chr. intros c d _. reflexivity.
Qed.
Lemma slike_lits ws : slike (lits_nc ws).
Proof. apply slike_alts, Forall_forall. intros x H. apply in_map_iff in H as (w & <- & _). apply slike_lit. Qed.
Lemma slike_strs ws : slike (strs_nc ws).
Proof. apply slike_alts, Forall_forall. intros x H. apply in_map_iff in H as (w & <- & _). apply slike_str. Qed.
Lemma slike_strs_cs ws : forallb (fun w => forallb caseless (L w)) ws = true -> slike (strs_cs ws).
Proof.
  intros Hw. apply slike_alts, Forall_forall. intros x H. apply in_map_iff in H as (w & <- & Hin). apply slike_str_cs.
  rewrite forallb_forall in Hw. now apply Hw.
Qed.
Lemma slike_c x : caseless x = true -> slike (chr x).
Proof. intros H. apply slike_chr, cinv_chr, H. Qed.

Ltac sl :=
  repeat first
    [ apply slike_lits | apply slike_strs | (apply slike_strs_cs; reflexivity) | (apply slike_c; reflexivity)
    | apply slike_lit | apply slike_str | (apply slike_lit_cs; reflexivity) | (apply slike_str_cs; reflexivity)
    | apply slike_seq | apply slike_alt | apply slike_star | apply slike_plus | apply slike_opt | apply slike_hold
    | apply slike_and | apply slike_not | apply slike_diff | apply slike_exp | (apply slike_chr; cinv) ].

Lemma slike_keyword : slike s_keyword. Proof. unfold s_keyword. sl. Qed.
Lemma slike_regular : slike s_regular_identifier.
Proof. unfold s_regular_identifier, s_all_identifiers. apply slike_diff; [sl|apply slike_keyword]. Qed.
Lemma slike_identifier : slike s_identifier.
Proof. unfold s_identifier, s_delimited_identifier, s_delimited_identifier_part. apply slike_alt; [apply slike_regular|sl]. Qed.

(** * TAP_UPLOAD *)
Lemma strip_exact s r : strip false s (s ++ r) = Some (s, r).
Proof. induction s as [|c s IH]; [reflexivity|]. cbn [app strip]. unfold eq_ch. now rewrite Ascii.eqb_refl, IH. Qed.
Lemma strip_exact_inv s i m r : strip false s i = Some (m, r) -> i = s ++ r.
Proof.
  revert i m. induction s as [|c s IH]; intros i m H; cbn [strip] in H; [injection H as _ <-; reflexivity|].
  destruct i as [|b i]; [discriminate|]. unfold eq_ch in H. destruct (Ascii.eqb_spec c b) as [->|]; [|discriminate].
  destruct (strip false s i) as [[m' r']|] eqn:E; [|discriminate]. injection H as _ <-. cbn [app]. f_equal. exact (IH _ _ E).
Qed.
Lemma kept_here i i' b : uploads_kept i i' -> i = L "TAP_UPLOAD." ++ b ->
  exists b', i' = L "TAP_UPLOAD." ++ b' /\ (forall n k, b = n ++ k -> identifier_before k n -> exists k', b' = n ++ k').
Proof.
  intros K E. destruct (K [] b E) as (a' & b' & Ei & El & Hn). destruct a'; [|discriminate]. exists b'. auto.
Qed.
Lemma slike_tap m : slike (s_tap_upload m).
Proof.
  intros acc acc' i i' A K. unfold s_tap_upload. cbn [srun]. set (TAP := L "TAP_UPLOAD.") in *.
  destruct (strip false TAP i) as [[x r]|] eqn:E.
  - apply strip_exact_inv in E. destruct K as (U & K1 & K2). destruct (kept_here _ _ _ K1 E) as (r' & E' & Hn).
    fold TAP in E'. rewrite E', strip_exact. subst i i'.
    assert (Kr : ks r r').
    { apply (ks_suffix (TAP ++ r) (TAP ++ r')); [split; auto|apply suffix_app|apply suffix_app|].
      apply ueq_len in U. rewrite !app_length in U. lia. }
    pose proof (slike_identifier [] [] r r' (ueq_refl []) Kr) as H. out_case H; auto.
    + destruct H as [H1 H2]. destruct (identifier_inv _ _ _ E) as (-> & Hb).
      destruct (Hn _ _ eq_refl Hb) as (k' & ->). destruct (identifier_inv _ _ _ E') as (E2 & _).
      assert (k' = rest0 /\ acc0 = acc1) as [-> ->].
      { assert (length acc0 = length acc1) by now apply ueq_len.
        clear - E2 H. revert acc1 E2 H. induction acc0 as [|c a IH]; intros [|c1 a1] E2 H; try discriminate; [now split|].
        injection E2 as -> E2. cbn in H. destruct (IH a1 E2 ltac:(lia)) as [-> ->]. now split. }
      destruct (m acc1); [split; [now apply ueq_app|exact H2]|reflexivity].
    + exact (ks_ueq _ _ Kr).
  - destruct (strip false TAP i') as [[x r']|] eqn:E'; [|exact A]. exfalso.
    apply strip_exact_inv in E'. destruct K as (U & K1 & K2). destruct (kept_here _ _ _ K2 E') as (r & E2 & _).
    fold TAP in E2. rewrite E2, strip_exact in E. discriminate.
Qed.
Lemma slike_table m : slike (s_table_name m).
Proof.
  unfold s_table_name. pose proof slike_identifier as SI. apply slike_alt; [apply slike_tap|].
  assert (D : slike (chr ".")) by sl.
  apply slike_alt; [apply slike_hold; repeat apply slike_seq; assumption|].
  apply slike_alt; [apply slike_hold; repeat apply slike_seq; assumption|assumption].
Qed.
Lemma slike_qstar m : slike (s_qualifier_star m).
Proof. unfold s_qualifier_star. apply slike_seq; [apply slike_table|sl]. Qed.
