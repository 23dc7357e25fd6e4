(** Where the "table not found" error comes from. *)
From Verif Require Import Query PegProps Totality PegEquiv Spec.

Section Tab.
Variable m : text -> option text.

(** An unmapped TAP_UPLOAD table is mentioned in [i]. *)
Definition unmapped_in (i n : text) : Prop := occurs (L "TAP_UPLOAD." ++ n) i /\ m n = None.

Lemma unmapped_mono i j n : suffix i j -> unmapped_in i n -> unmapped_in j n.
Proof. intros [p ->] [(a & b & ->) H]; split; auto. exists (p ++ a), b. now rewrite !app_assoc. Qed.

Definition ssafe (e : se) : Prop := forall acc i n, srun e acc i = SThrow (ExTable n) -> unmapped_in i n.

Fixpoint nomap (e : se) : bool :=
  match e with
  | SChr _ | SLit _ _ | SStr _ _ => true
  | SSeq a b | SAlt a b | SDiff a b | SExp a b => nomap a && nomap b
  | SStar a | SPlus a | SOpt a | SHold a | SAnd a | SNot a => nomap a
  | SMap _ _ => false
  end.

Lemma sstar_safe body n : (forall acc i a r, body acc i = SOk a r -> suffix r i) ->
  (forall acc i x, body acc i = SThrow (ExTable x) -> unmapped_in i x) ->
  forall acc i x, sstar body n acc i = SThrow (ExTable x) -> unmapped_in i x.
Proof.
  intros Hs Hb. induction n as [|n IH]; intros acc i x; cbn; destruct (body acc i) as [a r|a|y|] eqn:E; try discriminate.
  - intros H; injection H as ->; eapply Hb; eassumption.
  - destruct (_ <? _)%nat; [|discriminate]. intros H. apply IH in H. eapply unmapped_mono; [eapply Hs; exact E|exact H].
  - intros H; injection H as ->; eapply Hb; eassumption.
Qed.

Lemma ssafe_seq a b : ssafe a -> ssafe b -> ssafe (SSeq a b).
Proof.
  intros Ha Hb acc i n; cbn. destruct (srun a acc i) eqn:E; try discriminate; intros H.
  - apply Hb in H. eapply unmapped_mono; [eapply srun_suffix; eauto|eassumption].
  - injection H as ->; eauto.
Qed.
Lemma ssafe_alt a b : ssafe a -> ssafe b -> ssafe (SAlt a b).
Proof.
  intros Ha Hb acc i n; cbn. destruct (srun a acc i) eqn:E; try discriminate; intros H; eauto.
  injection H as ->; eauto.
Qed.
Lemma ssafe_hold a : ssafe a -> ssafe (SHold a).
Proof. intros Ha acc i n; cbn. destruct (srun a acc i) eqn:E; try discriminate; intros H. injection H as ->; eauto. Qed.

Lemma ssafe_nomap e : nomap e = true -> ssafe e.
Proof.
  induction e as [f|nc s|nc s|a IHa b IHb|a IHa b IHb|a IHa|a IHa|a IHa|a IHa|a IHa|a IHa|a IHa b IHb|a IHa b IHb|f a IHa];
    cbn [nomap]; rewrite ?andb_true_iff; intros H.
  - intros acc i n; cbn. destruct i; [|destruct (f a)]; discriminate.
  - intros acc i n; cbn. destruct (strip nc s i) as [[]|]; discriminate.
  - intros acc i n; cbn. destruct (strip nc s i) as [[]|]; discriminate.
  - apply ssafe_seq; tauto.
  - apply ssafe_alt; tauto.
  - intros acc i n; cbn. apply sstar_safe; [intros; eapply srun_suffix; eauto|]. intros; eapply IHa; eauto.
  - intros acc i n; cbn. destruct (srun a acc i) eqn:E; try discriminate; intros K.
    + apply sstar_safe in K; [|intros; eapply srun_suffix; eauto|intros; eapply IHa; eauto].
      eapply unmapped_mono; [eapply srun_suffix; eauto|eassumption].
    + injection K as ->; eapply IHa; eauto.
  - intros acc i n; cbn. destruct (srun a acc i) eqn:E; try discriminate; intros K. injection K as ->; eapply IHa; eauto.
  - apply ssafe_hold; auto.
  - intros acc i n; cbn. destruct (srun a [] i) eqn:E; try discriminate; intros K. injection K as ->; eapply IHa; eauto.
  - intros acc i n; cbn. destruct (srun a [] i) eqn:E; try discriminate; intros K. injection K as ->; eapply IHa; eauto.
  - intros acc i n; cbn. destruct H as [Ha Hb]. destruct (srun b [] i) eqn:E; try discriminate; intros K.
    + eapply IHa; eauto.
    + injection K as ->; eapply IHb; eauto.
  - intros acc i n; cbn. destruct H as [Ha Hb]. destruct (srun a acc i) eqn:E; try discriminate; intros K.
    + destruct (srun b _ _) eqn:Eb; try discriminate. injection K as ->.
      apply IHb in Eb; auto. eapply unmapped_mono; [eapply srun_suffix; eauto|eassumption].
    + injection K as ->; eapply IHa; eauto.
  - discriminate.
Qed.

(** Expressions whose attribute is the text they consume. *)
Definition verb (e : se) : Prop := forall acc i,
  match srun e acc i with
  | SOk a r => exists t, a = acc ++ t /\ i = t ++ r
  | _ => True
  end.

(** ... provided a failed attempt leaves nothing behind ([clean]). *)
Definition clean (e : se) : Prop := forall acc i a, srun e acc i = SFail a -> a = acc.

Lemma verb_chr f : verb (SChr f).
Proof. intros acc [|c i]; cbn; auto. destruct (f c); auto. exists [c]; auto. Qed.
Lemma clean_chr f : clean (SChr f).
Proof. intros acc [|c i] a; cbn; [congruence|]. destruct (f c); congruence. Qed.
Lemma verb_str nc s : verb (SStr nc s).
Proof. intros acc i; cbn. destruct (strip nc s i) as [[t r]|] eqn:E; auto. exists t; split; auto. eapply strip_app; eauto. Qed.
Lemma clean_str nc s : clean (SStr nc s).
Proof. intros acc i a; cbn. destruct (strip nc s i) as [[t r]|]; congruence. Qed.
Lemma verb_seq a b : verb a -> verb b -> verb (SSeq a b).
Proof.
  intros Ha Hb acc i; cbn. specialize (Ha acc i). destruct (srun a acc i) as [a1 i1| | |]; auto.
  destruct Ha as (t & -> & ->). specialize (Hb (acc ++ t) i1). destruct (srun b (acc ++ t) i1); auto.
  destruct Hb as (t' & -> & ->). exists (t ++ t'). now rewrite <- !app_assoc.
Qed.
Lemma verb_alt a b : verb a -> clean a -> verb b -> verb (SAlt a b).
Proof.
  intros Ha Ca Hb acc i; cbn. specialize (Ha acc i). specialize (Ca acc i).
  destruct (srun a acc i) as [a1 i1|a1| |]; auto. rewrite (Ca a1 eq_refl). apply Hb.
Qed.
Lemma clean_alt a b : clean a -> clean b -> clean (SAlt a b).
Proof.
  intros Ca Cb acc i x; cbn. specialize (Ca acc i).
  destruct (srun a acc i) as [a1 i1|a1| |]; try discriminate. rewrite (Ca a1 eq_refl). apply Cb.
Qed.
Lemma clean_hold a : clean (SHold a).
Proof. intros acc i x; cbn. destruct (srun a acc i); congruence. Qed.
Lemma verb_hold a : verb a -> verb (SHold a).
Proof. intros Ha acc i; cbn. specialize (Ha acc i). destruct (srun a acc i); auto. Qed.
Lemma sstar_verb body n : (forall acc i, match body acc i with SOk a r => exists t, a = acc ++ t /\ i = t ++ r | SFail a => a = acc | _ => True end) ->
  forall acc i, match sstar body n acc i with SOk a r => exists t, a = acc ++ t /\ i = t ++ r | _ => True end.
Proof.
  intros Hb. induction n as [|n IH]; intros acc i; cbn; specialize (Hb acc i); destruct (body acc i) as [a r|a| |]; auto.
  - exists []; subst; now rewrite app_nil_r.
  - destruct (_ <? _)%nat; auto. destruct Hb as (t & -> & ->). specialize (IH (acc ++ t) r).
    destruct (sstar _ _ _ _); auto. destruct IH as (t' & -> & ->). exists (t ++ t'). now rewrite <- !app_assoc.
  - exists []; subst; now rewrite app_nil_r.
Qed.
Lemma vc a : verb a -> clean a -> forall acc i,
  match srun a acc i with SOk b r => exists t, b = acc ++ t /\ i = t ++ r | SFail b => b = acc | _ => True end.
Proof. intros V C acc i. specialize (V acc i); specialize (C acc i). destruct (srun a acc i); auto. Qed.
Lemma verb_star a : verb a -> clean a -> verb (SStar a).
Proof. intros V C acc i; cbn. apply sstar_verb. now apply vc. Qed.
Lemma verb_plus a : verb a -> clean a -> verb (SPlus a).
Proof.
  intros V C acc i; cbn. pose proof (vc a V C acc i) as H. destruct (srun a acc i) as [a1 i1| | |]; auto.
  destruct H as (t & -> & ->). pose proof (sstar_verb (srun a) (length i1) (vc a V C) (acc ++ t) i1) as K.
  destruct (sstar _ _ _ _); auto. destruct K as (t' & -> & ->). exists (t ++ t'). now rewrite <- !app_assoc.
Qed.
Lemma clean_plus a : clean a -> clean (SPlus a).
Proof.
  intros C acc i x; cbn. specialize (C acc i). destruct (srun a acc i) as [a1 i1| | |]; try discriminate; auto.
  clear C. generalize (length i1). intros n. revert a1 i1. induction n as [|n IH]; intros a1 i1; cbn;
    destruct (srun a a1 i1); try discriminate. destruct (_ <? _)%nat; try discriminate. apply IH.
Qed.
Lemma verb_diff a b : verb a -> verb (SDiff a b).
Proof. intros V acc i; cbn. destruct (srun b [] i); auto. apply V. Qed.
Lemma clean_diff a b : clean a -> clean (SDiff a b).
Proof. intros C acc i x; cbn. destruct (srun b [] i); try congruence. apply C. Qed.
Lemma verb_and a : verb (SAnd a).
Proof. intros acc i; cbn. destruct (srun a [] i); auto. exists []; now rewrite app_nil_r. Qed.
Lemma verb_opt a : verb a -> clean a -> verb (SOpt a).
Proof.
  intros V C acc i; cbn. pose proof (vc a V C acc i) as H. destruct (srun a acc i); auto.
  exists []; subst; now rewrite app_nil_r.
Qed.

Lemma verb_alts l : (forall a, In a l -> verb a /\ clean a) -> verb (alts l) /\ clean (alts l).
Proof.
  induction l as [|a l IH]; cbn; intros H; [split; [apply verb_chr|apply clean_chr]|].
  destruct (H a) as [V C]; auto. destruct IH; auto. split; [apply verb_alt|apply clean_alt]; auto.
Qed.
Lemma verb_strs_nc ws : verb (strs_nc ws) /\ clean (strs_nc ws).
Proof. apply verb_alts. intros a Ha. apply in_map_iff in Ha as (w & <- & _). split; [apply verb_str|apply clean_str]. Qed.
Lemma verb_strs_cs ws : verb (strs_cs ws) /\ clean (strs_cs ws).
Proof. apply verb_alts. intros a Ha. apply in_map_iff in Ha as (w & <- & _). split; [apply verb_str|apply clean_str]. Qed.

Lemma clean_seq_chr f b : (forall acc c i a, f c = true -> srun b (acc ++ [c]) i = SFail a -> False) -> clean (SSeq (SChr f) b).
Proof.
  intros H acc [|c i] a; cbn; [congruence|]. destruct (f c) eqn:E; [|congruence]. intros K. exfalso; eauto.
Qed.
Lemma star_nofail a acc i x : srun (SStar a) acc i <> SFail x.
Proof.
  cbn. generalize (length i) at 1. intros n; revert acc i; induction n as [|n IH]; intros acc i; cbn;
    destruct (srun a acc i); try discriminate. destruct (_ <? _)%nat; [apply IH|discriminate].
Qed.
Lemma verb_all_identifiers : verb s_all_identifiers /\ clean s_all_identifiers.
Proof.
  split.
  - apply verb_seq; [apply verb_chr|]. apply verb_star; [apply verb_chr|apply clean_chr].
  - apply clean_seq_chr. intros acc c i a _ H. eapply star_nofail; eauto.
Qed.
Lemma verb_regular : verb s_regular_identifier /\ clean s_regular_identifier.
Proof. split; [apply verb_diff|apply clean_diff]; apply verb_all_identifiers. Qed.
Lemma verb_delimited : verb s_delimited_identifier.
Proof.
  apply verb_seq; [apply verb_chr|]. apply verb_seq; [|apply verb_chr].
  assert (verb s_delimited_identifier_part /\ clean s_delimited_identifier_part) as [V C].
  { split; [apply verb_alt|apply clean_alt]; auto using verb_chr, clean_chr, verb_str, clean_str. }
  now apply verb_plus.
Qed.
Lemma verb_identifier : verb s_identifier.
Proof. apply verb_alt; [apply verb_regular| |apply verb_delimited]. apply verb_regular. Qed.

Lemma ssafe_tap : ssafe (s_tap_upload m).
Proof.
  intros acc i n. unfold s_tap_upload. cbn [srun].
  destruct (strip false (L "TAP_UPLOAD.") i) as [[t r]|] eqn:E; [|discriminate].
  pose proof (verb_identifier [] r) as V.
  destruct (srun s_identifier [] r) as [s r'|s|x|] eqn:Es; try discriminate.
  - destruct V as (t' & -> & Er). cbn [app]. destruct (m t') eqn:Em; [discriminate|].
    intros H; injection H as <-. split; auto. exists [], r'. rewrite (strip_app _ _ _ _ _ E).
    assert (t = L "TAP_UPLOAD.") as ->.
    { clear -E. revert t r E. generalize (L "TAP_UPLOAD.") as l. intros l; revert i.
      induction l as [|c l IH]; intros i t r; cbn; [intros H; injection H as <- <-; auto|].
      destruct i as [|d i]; [discriminate|]. cbn. destruct (Ascii.eqb c d) eqn:Ec; [|discriminate].
      apply Ascii.eqb_eq in Ec as ->. destruct (strip false l i) as [[t' r']|] eqn:E; [|discriminate].
      intros H; injection H as <- <-. f_equal; eauto. }
    rewrite Er. now rewrite <- !app_assoc.
  - intros H. injection H as ->. apply ssafe_nomap in Es; [|reflexivity].
    eapply unmapped_mono; [|eassumption]. exists t. eapply strip_app; eauto.
Qed.
Lemma ssafe_table_name : ssafe (s_table_name m).
Proof.
  apply ssafe_alt; [apply ssafe_tap|]. repeat apply ssafe_alt; apply ssafe_nomap; reflexivity.
Qed.
Lemma ssafe_star : ssafe (s_qualifier_star m).
Proof. apply ssafe_seq; [apply ssafe_table_name|]. apply ssafe_nomap; reflexivity. Qed.

(** Token level *)
Fixpoint psafe {A} (e : PE A) : Prop :=
  match e with
  | PLit _ _ | PSpace | PDbl | PTop | PRet _ | PRule _ => True
  | PLex e | POptLex e => nomap e = true \/ ssafe e
  | PSeq a b => psafe a /\ psafe b
  | PExp a b => psafe a /\ psafe b
  | PAlt a b => psafe a /\ psafe b
  | POpt a | PStar a | PPlus a => psafe a
  | PList a s => psafe a /\ psafe s
  | PMap _ a => psafe a
  end.

Definition safe_out {A} (i : text) (o : out A) : Prop := forall n, o = Throw (ExTable n) -> unmapped_in i n.

Lemma safe_mono {A} i j (o : out A) : suffix i j -> safe_out i o -> safe_out j o.
Proof. intros S H n E. eapply unmapped_mono; [eassumption|auto]. Qed.

Lemma sub_safe e : nomap e = true \/ ssafe e -> ssafe e.
Proof. intros [H|H]; auto. now apply ssafe_nomap. Qed.

Variable body : forall r, PE (attr r).
Hypothesis Hbody : forall r, psafe (body r).

Lemma pstar_safe {A} (b : text -> out A) n : (forall i v r, b i = Ok v r -> suffix r i) ->
  (forall i, safe_out i (b i)) -> forall i, safe_out i (pstar b n i).
Proof.
  intros Hs Hb. induction n as [|n IH]; intros i x; cbn; pose proof (Hb i x) as K; destruct (b i) eqn:E; try discriminate.
  - intros H; injection H as ->; auto.
  - pose proof (IH rest) as I. destruct (pstar b n rest); try discriminate. intros H; injection H as ->.
    eapply unmapped_mono; [eapply Hs; eauto|auto].
  - intros H; injection H as ->; auto.
Qed.
Lemma plist_safe {A} (b : text -> out A) s n : (forall i v r, b i = Ok v r -> suffix r i) ->
  (forall i v r, s i = Ok v r -> suffix r i) ->
  (forall i, safe_out i (b i)) -> (forall i, safe_out i (s i)) -> forall i, safe_out i (plist b s n i).
Proof.
  intros Hs Hss Hb Hbs. induction n as [|n IH]; intros i x; cbn; pose proof (Hbs i x) as K;
    destruct (s i) as [u i1| | |] eqn:E; try discriminate; try (intros H; injection H as ->; now auto);
    pose proof (Hb i1 x) as K1; pose proof (Hss _ _ _ E) as S1; destruct (b i1) as [v i2| | |] eqn:E1; try discriminate;
    try (intros H; injection H as ->; eapply unmapped_mono; [eassumption|auto]).
  pose proof (IH i2) as I. destruct (plist b s n i2); try discriminate. intros H; injection H as ->.
  eapply unmapped_mono; [|now apply I]. eapply suffix_trans; [eapply Hs; eauto|auto].
Qed.

Lemma run_safe n : forall (A : Set) (e : PE A) i, psafe e -> safe_out i (run body n _ e i).
Proof.
  induction n as [n IHn] using lt_wf_ind.
  intros A e; induction e as [nc s|e|e| | | |A w|A B a IHa b IHb|A B a IHa b IHb|A a IHa b IHb|A a IHa|A a IHa|A a IHa|A a IHa s IHs|A B f a IHa|q];
    intros i; cbn [psafe]; intros Hp x.
  - rewrite run_Lit. destruct (strip _ _ _) as [[]|]; discriminate.
  - rewrite run_Lex. unfold lex. apply sub_safe in Hp. destruct (srun e [] (skip i)) eqn:E; try discriminate.
    intros H; injection H as ->. apply Hp in E. eapply unmapped_mono; [apply skip_suffix|eassumption].
  - rewrite run_OptLex. apply sub_safe in Hp. destruct (srun e [] (skip i)) eqn:E; try discriminate.
    intros H; injection H as ->. apply Hp in E. eapply unmapped_mono; [apply skip_suffix|eassumption].
  - rewrite run_Space. destruct i; [|destruct (is_space a)]; discriminate.
  - rewrite run_Dbl. destruct (dbl _) as [[]|]; discriminate.
  - rewrite run_Top. destruct (ulong _) as [[v [|c r]]|]; try discriminate. destruct (is_space c); discriminate.
  - rewrite run_Ret. discriminate.
  - rewrite run_Seq. destruct Hp as [Pa Pb]. pose proof (IHa i Pa x) as Ka.
    destruct (run body n A a i) eqn:Ea; try discriminate.
    + pose proof (IHb rest Pb x) as Kb. destruct (run body n B b rest); try discriminate.
      intros H; injection H as ->. eapply unmapped_mono; [eapply run_suffix; eauto|auto].
    + intros H; injection H as ->; auto.
  - rewrite run_Exp. destruct Hp as [Pa Pb]. pose proof (IHa i Pa x) as Ka.
    destruct (run body n A a i) eqn:Ea; try discriminate.
    + pose proof (IHb rest Pb x) as Kb. destruct (run body n B b rest); try discriminate.
      intros H; injection H as ->. eapply unmapped_mono; [eapply run_suffix; eauto|auto].
    + intros H; injection H as ->; auto.
  - rewrite run_Alt. destruct Hp as [Pa Pb]. pose proof (IHa i Pa x) as Ka. pose proof (run_ok body n _ a i) as So.
    destruct (run body n A a i) eqn:Ea; try discriminate.
    + intros H. eapply unmapped_mono; [exact So|]. eapply IHb; eauto.
    + intros H; injection H as ->; auto.
  - rewrite run_Opt. pose proof (IHa i Hp x) as Ka. destruct (run body n A a i); try discriminate.
    intros H; injection H as ->; auto.
  - rewrite run_Star. apply pstar_safe; [intros; eapply run_suffix; eauto|auto].
  - rewrite run_Plus. pose proof (IHa i Hp x) as Ka. destruct (run body n A a i) eqn:Ea; try discriminate.
    + assert (safe_out rest (pstar (run body n A a) (length rest) rest)) as Ks.
      { apply pstar_safe; [intros; eapply run_suffix; eauto|auto]. }
      destruct (pstar _ _ _) eqn:Es; try discriminate. intros H; injection H as ->.
      eapply unmapped_mono; [eapply run_suffix; eauto|auto].
    + intros H; injection H as ->; auto.
  - rewrite run_List. destruct Hp as [Pa Ps]. pose proof (IHa i Pa x) as Ka. destruct (run body n A a i) eqn:Ea; try discriminate.
    + assert (safe_out rest (plist (run body n A a) (run body n _ s) (length rest) rest)) as Ks.
      { apply plist_safe; try (intros; eapply run_suffix; eauto); auto. }
      destruct (plist _ _ _ _) eqn:Es; try discriminate. intros H; injection H as ->.
      eapply unmapped_mono; [eapply run_suffix; eauto|auto].
    + intros H; injection H as ->; auto.
  - rewrite run_Map. pose proof (IHa i Hp x) as Ka. destruct (run body n A a i); try discriminate.
    intros H; injection H as ->; auto.
  - destruct n as [|n]; [discriminate|]. rewrite run_Rule. apply IHn; auto.
Qed.
End Tab.

Ltac psafe_auto m :=
  repeat match goal with
         | |- _ /\ _ => split
         | |- True => exact I
         | |- nomap _ = true \/ _ => first [left; vm_compute; reflexivity | right; first [apply ssafe_tap|apply ssafe_table_name|apply ssafe_star]]
         end.

Lemma g_body_safe m r : psafe m (g_body m r).
Proof. destruct r; cbn -[nomap s_tap_upload s_table_name s_qualifier_star s_identifier s_udf_name s_unsigned_literal strs_nc strs_cs L]; psafe_auto m. Qed.
Lemma g_query_safe m : psafe m (g_query m).
Proof. cbn -[nomap s_tap_upload s_table_name s_qualifier_star s_identifier s_udf_name s_unsigned_literal strs_nc strs_cs L]; psafe_auto m. Qed.

Lemma query_table_error m n i x : grun m n (g_query m) i = Throw (ExTable x) -> unmapped_in m i x.
Proof. intros H. eapply (run_safe m (g_body m) (g_body_safe m)); [apply g_query_safe|exact H]. Qed.
