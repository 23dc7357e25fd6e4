(** AND and at most one character behind the last geometry are dropped (C18, C39). *)
From Verif Require Import Preprocess RegexProps RegexPrio TextLemmas Spec SpecRewrite SpecShort ParenProofs RewriteProofs RewriteBest RewriteSound RewriteExact RewriteMain.

Lemma short_rm t c : oneline t -> exists c2, rm (RSeq r_right r_tail) t c [] c2.
Proof. intros O. eexists. apply seq_inv. exists t, c. split; [apply right_inv; now left|]. apply tail_inv. repeat split; auto. Qed.
Lemma short_rest m1 f gw d mS sS c : and_between m1 -> flag f -> geometry_word gw -> oneline d -> and_between mS ->
  oneline (mS ++ sS) -> exists c2, rm r_rest (m1 ++ f ++ gw ++ d ++ mS ++ sS) c [] c2.
Proof.
  intros M F G Od MS O. destruct (short_rm (mS ++ sS) ((2, f ++ gw ++ d) :: c) O) as (c2 & K). exists c2.
  apply seq_inv. eexists. exists c. split; [apply and_inv; eauto|]. apply seq_inv. eexists. eexists. split; [|exact K].
  apply geom_inv. exists f, gw, d. repeat split; auto. now apply between_ahead_g.
Qed.
Lemma short_match kept pre l g mS sS : short_end kept pre l g mS sS ->
  exists mm, search the_regex (kept ++ mS ++ sS) = Some mm /\ m_pre mm = pre /\ m_suf mm = [] /\
    cap_str 1 (m_caps mm) = l /\ cap_str 2 (m_caps mm) = g /\ cap_str 3 (m_caps mm) = [].
Proof.
  intros [w0 m10 f0 gw0 d0 Ei0 W0 Npre Dl El Ln O M10 Eg F0 G0 Dg NA NH NG NO MS BS Sh NC NI].
  remember (kept ++ mS ++ sS) as input eqn:Ei. rewrite Ei0 in Ei. clear Ei0 kept.
  rewrite !oneline_app in O. destruct O as (Ol & Om1 & Og & Om2 & Or).
  subst g. rewrite !oneline_app in Og. destruct Og as (_ & _ & Od).
  assert (Orest : oneline (mS ++ sS)) by (rewrite !oneline_app; auto).
  pose proof (fun c => short_rest m10 f0 gw0 d0 mS sS c M10 F0 G0 Od MS Orest) as Rest.
  rewrite <- !app_assoc in Ei.
  destruct (left_exists w0 l (m10 ++ f0 ++ gw0 ++ d0 ++ mS ++ sS) [] W0 Dl El Ln Ol) as (a0 & m0 & b0 & El0 & Na0 & Nb0 & Nm0 & Om0 & Rl).
  destruct (Rest [(1, l)]) as (cR & RR).
  assert (Rall : rm the_regex (w0 ++ l ++ m10 ++ f0 ++ gw0 ++ d0 ++ mS ++ sS) [] [] cR) by (apply seq_inv; eauto).
  destruct (search the_regex input) as [mm|] eqn:Es.
  2:{ exfalso. apply (search_none _ Es pre _ Ei [] [] cR). exact Rall. }
  exists mm. split; [reflexivity|]. apply search_best in Es as (Emm & Esuf & Best & First).
  destruct Best as [w a m b m1 f gw d m2 r' tl' l' Ej W Na Nb Nm Om M1 F G Od' A Hmax Hmin Hr Ot' C1 C2 C3 C4].
  (* 1. the WHERE *)
  assert (E1 : m_pre mm ++ m_all mm = pre ++ w0 ++ l ++ m10 ++ f0 ++ gw0 ++ d0 ++ mS ++ sS) by congruence.
  assert (m_pre mm = pre /\ m_all mm = w0 ++ l ++ m10 ++ f0 ++ gw0 ++ d0 ++ mS ++ sS) as [Hp Ha].
  { destruct (app_cmp _ _ _ _ E1) as [(e & Ne & E2 & E3)|[K|(e & Ne & E2 & E3)]]; [exfalso|exact K|exfalso].
    - apply (First pre e E2 Ne [] [] cR). rewrite <- E3. exact Rall.
    - rewrite Ej in E3. eapply (no_overlap_spec (L "WHERE ") (L "WHERE ") w) in E3 as (p' & -> & _); auto.
      apply Npre. exists (m_pre mm), w, p'. auto. }
  split; [exact Hp|]. split; [exact Esuf|].
  assert (E2 : w ++ l' ++ m1 ++ f ++ gw ++ d ++ m2 ++ r' ++ tl' = w0 ++ l ++ m10 ++ f0 ++ gw0 ++ d0 ++ mS ++ sS) by congruence.
  apply app_eq_len in E2 as [-> E2]; [|now rewrite (spelt_len _ _ W), (spelt_len _ _ W0)].
  (* 2. the left condition and the place of the geometry *)
  assert (K : l' = l /\ m1 ++ f ++ gw ++ d ++ m2 ++ r' ++ tl' = m10 ++ f0 ++ gw0 ++ d0 ++ mS ++ sS).
  { destruct (app_cmp _ _ _ _ E2) as [(e & Ne & E3 & E4)|[K|(e & Ne & E3 & E4)]]; [exfalso|exact K|exfalso].
    - (* longer: the AND would have to be in front of itself *)
      symmetry in E4. destruct (rest_position _ _ _ _ _ _ _ _ _ E4 M1 F G M10 F0 G0 NC NI) as (E5 & _ & _).
      assert (De : ends_dark e) by (apply (ends_dark_app l e); [rewrite <- E3; exists (a :: m), b; auto|exact Ne]).
      pose proof (between_starts m10 M10 e f0 (m1 ++ f) (eq_sym E5) Ne De) as H1.
      apply (f_equal countA) in E5. rewrite !countA_app, (countA_between _ M1), (countA_between _ M10), (countA_flag _ F), (countA_flag _ F0) in E5. lia.
    - (* shorter *)
      assert (De : ends_dark e) by (apply (ends_dark_app l' e); [rewrite <- E3; exact El|exact Ne]).
      apply (Hmax e _ E4) with (c := [(1, l)]) (i2 := []) (c2 := cR); [|exact De|exact RR].
      rewrite E3 in Ol. subst l'. constructor.
      + rewrite oneline_app in Ol. destruct Ol as [Ol _]. inversion Ol as [|? ? _ Ol']; subst. apply oneline_app in Ol' as [_ Ol']. now inversion Ol'.
      + apply oneline_app in Ol as [_ Ol]. destruct De as (q & c & -> & _). rewrite removelast_last. apply oneline_app in Ol. tauto. }
  clear E2. destruct K as [El' E2].
  destruct (rest_position _ _ _ _ _ _ _ _ [] E2 M1 F G M10 F0 G0 NC NI) as (E3 & -> & E4).
  assert (m1 = m10 /\ f = f0) as [-> ->].
  { assert (E5 : (m1 ++ f) ++ gw0 = (m10 ++ f0) ++ gw0) by (cbn in E3; now rewrite E3). rewrite <- !app_assoc in E5.
    destruct (between_unique _ _ _ _ E5 M1 M10) as [-> E6].
    - rewrite <- (app_nil_r gw0). now apply flag_gw_dark.
    - rewrite <- (app_nil_r gw0). now apply flag_gw_dark.
    - split; [reflexivity|]. apply app_inv_tail in E6. exact E6. }
  clear E2 E3 E1 Ej Hmax First.
  (* 3. the end of the geometry *)
  assert (Br : breaks (mS ++ sS)).
  { destruct BS as [ -> |(u & -> )]; [apply countA_between in MS; discriminate|right; eexists; reflexivity]. }
  assert (K : d = d0 /\ m2 ++ r' ++ tl' = mS ++ sS).
  { destruct (app_cmp _ _ _ _ E4) as [(e & Ne & E5 & E6)|[K|(e & Ne & E5 & E6)]]; [exfalso|exact K|exfalso].
    - destruct (short_rm (mS ++ sS) [] Orest) as (cx & Rx).
      apply (Hmin d0 e E5 Ne) with (c := []) (i2 := []) (c2 := cx); rewrite <- E6; [now apply between_ahead_g|exact Rx].
    - rewrite E6 in A. assert (De : ends_dark e) by (apply (ends_dark_app (f0 ++ gw0 ++ d) e); [rewrite <- !app_assoc, <- E5; exact Dg|exact Ne]).
      assert (Occ : forall s, occurs_nc s e -> occurs_nc s d0).
      { intros s (x & y & z & -> & S). exists (d ++ x), y, z. rewrite <- app_assoc. auto. }
      destruct A as (bb & Bb & [E7|(k & u & E7 & S)]).
      + rewrite <- E7 in Bb. apply Forall_app in Bb as [Bb _]. eapply ends_dark_blank; eauto.
      + assert (KI : forall s, spelt s k -> L s <> [] -> forallb (fun c => negb (Ascii.eqb c " ")) (List.tl (L s)) = true -> occurs_nc (L s) d0).
        { intros s S1 S2 S3. apply Occ. eapply keyword_inside; eauto. now apply nonblank_check. }
        destruct S as [S|[S|[S|S]]]; apply KI in S; try discriminate; auto. }
  destruct K as [-> E5]. clear E4 Hmin.
  (* 4. there is no right condition *)
  assert (K : r' = [] /\ m2 = []).
  { destruct Hr as [(-> & -> & _)|(M2 & _ & x & y & r1 & -> & Nx & _)]; [auto|]. exfalso.
    assert (Ds : dark_or_nil sS) by (destruct Sh as [ -> |(c & -> & Nc)]; cbn; auto).
    apply between_unique in E5 as [_ E5]; auto. destruct Sh as [ -> |(c & -> & _)]; discriminate E5. }
  destruct K as [-> ->]. rewrite C1, C2, C3. auto.
Qed.

Lemma occurs_front w a b : occurs_nc w a -> occurs_nc w (a ++ b).
Proof. intros (x & y & z & -> & S). exists x, y, (z ++ b). rewrite <- !app_assoc. auto. Qed.
Lemma short_last kept pre l g mS sS : short_end kept pre l g mS sS -> last_geometry kept pre l g [] [].
Proof.
  intros [w m1 f gw d E W Np Dl El Ln O M1 Eg F G Dg NA NH NG NO MS BS Sh NC NI].
  apply (last_geometry_intro _ _ _ _ _ _ w m1 [] f gw d); auto.
  - now rewrite !app_nil_r.
  - rewrite !app_nil_r. rewrite !oneline_app in *. tauto.
  - left. constructor.
  - rewrite !app_nil_r. intros K. apply NC. now apply occurs_front.
  - rewrite !app_nil_r. intros K. apply NI. now apply occurs_front.
Qed.
Theorem short_dropped kept pre l g mS sS : short_end kept pre l g mS sS -> ~ In "$"%char (l ++ g) ->
  preprocess (kept ++ mS ++ sS) = preprocess kept.
Proof.
  intros H D. pose proof (short_last _ _ _ _ _ _ H) as HL.
  destruct (short_match _ _ _ _ _ _ H) as (mm & Es & Ep & Esuf & C1 & C2 & C3).
  destruct (exact_match _ _ _ _ _ _ HL) as (mk & Ks & Kp & Ksuf & K1 & K2 & K3 & _).
  unfold preprocess. rewrite Es, Ks. unfold tweak_input_string. rewrite C1, C2, C3, K1, K2, K3.
  destruct (check_and_adjust_parens l g) as [e|[l' g']] eqn:E; [reflexivity|]. f_equal. unfold replace. rewrite Es, Ks, Ep, Kp, Esuf, Ksuf. f_equal. f_equal.
  assert (N : ~ In "$"%char (replacement l' g' [])).
  { intros K. apply replacement_chars in K as [K|[K|K]]; [cbn in K; intuition discriminate|cbn in K; intuition discriminate|].
    rewrite app_nil_r in K. apply D. now apply (check_chars _ _ _ _ _ E). }
  now rewrite !format_plain.
Qed.

(** HAVING in the middle of a word behind the last geometry: everything from there on is dropped. *)
Lemma cut_rm m2 r tl c : and_between m2 -> starts_dark r -> (1 < length r)%nat -> ahead_r tl -> oneline (m2 ++ r ++ tl) ->
  exists c2, rm (RSeq r_right r_tail) (m2 ++ r ++ tl) c [] c2.
Proof.
  intros M (a & r' & -> & Na) Lr A O. rewrite !oneline_app in O. destruct O as (O1 & O2 & O3).
  eexists. apply seq_inv. exists tl, ((3, a :: r') :: c). split.
  - apply right_inv. right. exists m2, (a :: r'). repeat split; auto.
    exists a, r'. repeat split; auto; [|now inversion O2]. destruct r'; [cbn in Lr; lia|discriminate].
  - apply tail_inv. repeat split; auto.
Qed.
Lemma cut_rest m1 f gw d m2 r tl c : and_between m1 -> flag f -> geometry_word gw -> oneline d -> and_between m2 -> starts_dark r -> (1 < length r)%nat ->
  ahead_r tl -> oneline (m2 ++ r ++ tl) -> exists c2, rm r_rest (m1 ++ f ++ gw ++ d ++ m2 ++ r ++ tl) c [] c2.
Proof.
  intros M F G Od M2 Dr Lr A O. destruct (cut_rm m2 r tl ((2, f ++ gw ++ d) :: c) M2 Dr Lr A O) as (c2 & K). exists c2.
  apply seq_inv. eexists. exists c. split; [apply and_inv; eauto|]. apply seq_inv. eexists. eexists. split; [|exact K].
  apply geom_inv. exists f, gw, d. repeat split; auto. now apply between_ahead_g.
Qed.
Lemma cut_match kept pre l g m20 r kS uS : cut_end kept pre l g m20 r kS uS ->
  exists mm, search the_regex (kept ++ m20 ++ r ++ kS ++ uS) = Some mm /\ m_pre mm = pre /\ m_suf mm = [] /\
    cap_str 1 (m_caps mm) = l /\ cap_str 2 (m_caps mm) = g /\ cap_str 3 (m_caps mm) = r.
Proof.
  intros [w0 m10 f0 gw0 d0 Ei0 W0 Npre Dl El Ln O M10 Eg F0 G0 Dg NA NH NG NO M20 B20 Dr Er Lr RH RG RO KH NC NI].
  remember (kept ++ m20 ++ r ++ kS ++ uS) as input eqn:Ei. rewrite Ei0 in Ei. clear Ei0 kept.
  assert (AR : ahead_r (kS ++ uS)) by (exists []; split; [constructor|right; exists kS, uS; auto]).
  rewrite !oneline_app in O. destruct O as (Ol & Om1 & Og & Om2 & Or & Ok & Ou).
  subst g. rewrite !oneline_app in Og. destruct Og as (_ & _ & Od).
  assert (Ot : oneline (kS ++ uS)) by (rewrite oneline_app; auto).
  assert (Orest : oneline (m20 ++ r ++ kS ++ uS)) by (rewrite !oneline_app; auto).
  pose proof (fun c => cut_rest m10 f0 gw0 d0 m20 r (kS ++ uS) c M10 F0 G0 Od M20 Dr Lr AR Orest) as Rest.
  rewrite <- !app_assoc in Ei.
  destruct (left_exists w0 l (m10 ++ f0 ++ gw0 ++ d0 ++ m20 ++ r ++ kS ++ uS) [] W0 Dl El Ln Ol) as (a0 & m0 & b0 & El0 & Na0 & Nb0 & Nm0 & Om0 & Rl).
  destruct (Rest [(1, l)]) as (cR & RR).
  assert (Rall : rm the_regex (w0 ++ l ++ m10 ++ f0 ++ gw0 ++ d0 ++ m20 ++ r ++ kS ++ uS) [] [] cR) by (apply seq_inv; eauto).
  destruct (search the_regex input) as [mm|] eqn:Es.
  2:{ exfalso. apply (search_none _ Es pre _ Ei [] [] cR). exact Rall. }
  exists mm. split; [reflexivity|]. apply search_best in Es as (Emm & Esuf & Best & First).
  destruct Best as [w a m b m1 f gw d m2 r' tl' l' Ej W Na Nb Nm Om M1 F G Od' A Hmax Hmin Hr Ot' C1 C2 C3 C4].
  (* 1. the WHERE *)
  assert (E1 : m_pre mm ++ m_all mm = pre ++ w0 ++ l ++ m10 ++ f0 ++ gw0 ++ d0 ++ m20 ++ r ++ kS ++ uS) by congruence.
  assert (m_pre mm = pre /\ m_all mm = w0 ++ l ++ m10 ++ f0 ++ gw0 ++ d0 ++ m20 ++ r ++ kS ++ uS) as [Hp Ha].
  { destruct (app_cmp _ _ _ _ E1) as [(e & Ne & E2 & E3)|[K|(e & Ne & E2 & E3)]]; [exfalso|exact K|exfalso].
    - apply (First pre e E2 Ne [] [] cR). rewrite <- E3. exact Rall.
    - rewrite Ej in E3. eapply (no_overlap_spec (L "WHERE ") (L "WHERE ") w) in E3 as (p' & -> & _); auto.
      apply Npre. exists (m_pre mm), w, p'. auto. }
  split; [exact Hp|]. split; [exact Esuf|].
  assert (E2 : w ++ l' ++ m1 ++ f ++ gw ++ d ++ m2 ++ r' ++ tl' = w0 ++ l ++ m10 ++ f0 ++ gw0 ++ d0 ++ m20 ++ r ++ kS ++ uS) by congruence.
  apply app_eq_len in E2 as [-> E2]; [|now rewrite (spelt_len _ _ W), (spelt_len _ _ W0)].
  (* 2. the left condition and the place of the geometry *)
  assert (K : l' = l /\ m1 ++ f ++ gw ++ d ++ m2 ++ r' ++ tl' = m10 ++ f0 ++ gw0 ++ d0 ++ m20 ++ r ++ kS ++ uS).
  { destruct (app_cmp _ _ _ _ E2) as [(e & Ne & E3 & E4)|[K|(e & Ne & E3 & E4)]]; [exfalso|exact K|exfalso].
    - (* longer: the AND would have to be in front of itself *)
      symmetry in E4. destruct (rest_position _ _ _ _ _ _ _ _ _ E4 M1 F G M10 F0 G0 NC NI) as (E5 & _ & _).
      assert (De : ends_dark e) by (apply (ends_dark_app l e); [rewrite <- E3; exists (a :: m), b; auto|exact Ne]).
      pose proof (between_starts m10 M10 e f0 (m1 ++ f) (eq_sym E5) Ne De) as H1.
      apply (f_equal countA) in E5. rewrite !countA_app, (countA_between _ M1), (countA_between _ M10), (countA_flag _ F), (countA_flag _ F0) in E5. lia.
    - (* shorter *)
      assert (De : ends_dark e) by (apply (ends_dark_app l' e); [rewrite <- E3; exact El|exact Ne]).
      apply (Hmax e _ E4) with (c := [(1, l)]) (i2 := []) (c2 := cR); [|exact De|exact RR].
      rewrite E3 in Ol. subst l'. constructor.
      + rewrite oneline_app in Ol. destruct Ol as [Ol _]. inversion Ol as [|? ? _ Ol']; subst. apply oneline_app in Ol' as [_ Ol']. now inversion Ol'.
      + apply oneline_app in Ol as [_ Ol]. destruct De as (q & c & -> & _). rewrite removelast_last. apply oneline_app in Ol. tauto. }
  clear E2. destruct K as [El' E2].
  destruct (rest_position _ _ _ _ _ _ _ _ [] E2 M1 F G M10 F0 G0 NC NI) as (E3 & -> & E4).
  assert (m1 = m10 /\ f = f0) as [-> ->].
  { assert (E5 : (m1 ++ f) ++ gw0 = (m10 ++ f0) ++ gw0) by (cbn in E3; now rewrite E3). rewrite <- !app_assoc in E5.
    destruct (between_unique _ _ _ _ E5 M1 M10) as [-> E6].
    - rewrite <- (app_nil_r gw0). now apply flag_gw_dark.
    - rewrite <- (app_nil_r gw0). now apply flag_gw_dark.
    - split; [reflexivity|]. apply app_inv_tail in E6. exact E6. }
  clear E2 E3 E1 Ej Hmax First.
  (* 3. the end of the geometry *)
  assert (Br : breaks (m20 ++ r ++ kS ++ uS)).
  { destruct B20 as [ -> |(u & -> )]; [apply countA_between in M20; discriminate|right; eexists; reflexivity]. }
  assert (K : d = d0 /\ m2 ++ r' ++ tl' = m20 ++ r ++ kS ++ uS).
  { destruct (app_cmp _ _ _ _ E4) as [(e & Ne & E5 & E6)|[K|(e & Ne & E5 & E6)]]; [exfalso|exact K|exfalso].
    - destruct (cut_rm m20 r (kS ++ uS) [] M20 Dr Lr AR Orest) as (cx & Rx).
      apply (Hmin d0 e E5 Ne) with (c := []) (i2 := []) (c2 := cx); rewrite <- E6; [now apply between_ahead_g|exact Rx].
    - rewrite E6 in A. assert (De : ends_dark e) by (apply (ends_dark_app (f0 ++ gw0 ++ d) e); [rewrite <- !app_assoc, <- E5; exact Dg|exact Ne]).
      assert (Occ : forall s, occurs_nc s e -> occurs_nc s d0).
      { intros s (x & y & z & -> & S). exists (d ++ x), y, z. rewrite <- app_assoc. auto. }
      destruct A as (bb & Bb & [E7|(k & u & E7 & S)]).
      + rewrite <- E7 in Bb. apply Forall_app in Bb as [Bb _]. eapply ends_dark_blank; eauto.
      + assert (KI : forall s, spelt s k -> L s <> [] -> forallb (fun c => negb (Ascii.eqb c " ")) (List.tl (L s)) = true -> occurs_nc (L s) d0).
        { intros s S1 S2 S3. apply Occ. eapply keyword_inside; eauto. now apply nonblank_check. }
        destruct S as [S|[S|[S|S]]]; apply KI in S; try discriminate; auto. }
  destruct K as [-> E5]. clear E4 Hmin.
  (* 4. the right condition *)
  assert (K : r' = r).
  { destruct Hr as [(-> & -> & Nr)|(M2 & Ar & x & y & r1 & -> & Nx & Oy & Min)].
    - exfalso. cbn in E5. destruct (cut_rm m20 r (kS ++ uS) [] M20 Dr Lr AR Orest) as (cx & Rx).
      apply (Nr [] [] [(4, kS ++ uS); (3, r)]). rewrite E5. apply seq_inv. exists (kS ++ uS), [(3, r)]. split; [|apply tail_inv; auto].
      destruct Dr as (c0 & rr & -> & Nc0). apply seq_inv. eexists. exists []. split; [apply and_inv; eauto|]. apply grp_inv. exists (c0 :: rr), []. split; [reflexivity|]. split; [|reflexivity].
      apply seq_inv. exists (rr ++ kS ++ uS), []. split; [apply nonsp_inv; exists c0; auto|]. apply seq_inv. exists (kS ++ uS), []. split; [apply plus_dot_inv; exists rr|apply look_r_inv; repeat split; auto].
      repeat split; auto; [now inversion Or|destruct rr; [cbn in Lr; lia|discriminate]].
    - destruct Dr as (c0 & rr & -> & Nc0). apply between_unique in E5 as [-> E5]; auto.
      destruct rr as [|c1 rr]; [cbn in Lr; lia|]. injection E5 as <- <- E5.
      destruct (app_cmp _ _ _ _ E5) as [(e & Ne & E6 & E7)|[[-> _]|(e & Ne & E6 & E7)]]; [exfalso|auto|exfalso].
      + apply (Min rr e E6 Ne) with (c := []) (i2 := []) (c2 := [(4, e ++ tl')]); rewrite <- E7; [exact AR|apply tail_inv; auto].
      + rewrite E7 in Ar. assert (De : ends_dark e) by (apply (ends_dark_app (x :: y :: r1) e); [rewrite E6 in Er; exact Er|exact Ne]).
        assert (Occ : forall s, occurs_nc s e -> occurs_nc s (x :: y :: rr)).
        { intros s (q1 & q2 & q3 & -> & S). exists (x :: y :: r1 ++ q1), q2, q3. rewrite E6. cbn. rewrite <- app_assoc. auto. }
        destruct Ar as (bb & Bb & [E8|(k & u & E8 & S)]).
        * rewrite <- E8 in Bb. apply Forall_app in Bb as [Bb _]. eapply ends_dark_blank; eauto.
        * assert (KI : forall s, spelt s k -> no_overlap (L s) (L "HAVING") = true -> occurs_nc (L s) (x :: y :: rr)).
          { intros s S1 S2. apply Occ. destruct (app_cmp _ _ _ _ E8) as [(e2 & Ne2 & E9 & E10)|[[E9 _]|(e2 & Ne2 & E9 & _)]].
            - subst e. symmetry in E10. symmetry in E10. eapply (no_overlap_spec (L s) (L "HAVING") k) in E10 as (p' & -> & _); auto.
              exists bb, k, p'. split; [reflexivity|]. unfold spelt in S1. rewrite S1. symmetry. clear -S1. rewrite <- S1. clear. unfold upper. rewrite map_map. apply map_ext. intros a. all_bytes a; reflexivity.
            - subst e. exfalso. eapply ends_dark_blank; eauto.
            - exfalso. rewrite E9 in Bb. apply Forall_app in Bb as [Bb _]. eapply ends_dark_blank; eauto. }
          destruct S as [S|[S|S]]; apply KI in S; try reflexivity; auto. }
  rewrite K in C3. rewrite C1, C2. auto.
Qed.

Lemma cut_last kept pre l g m2 r k u : cut_end kept pre l g m2 r k u -> last_geometry (kept ++ m2 ++ r) pre l g r [].
Proof.
  intros [w m1 f gw d E W Np Dl El Ln O M1 Eg F G Dg NA NH NG NO M2 B2 Dr Er Lr RH RG RO KH NC NI].
  apply (last_geometry_intro _ _ _ _ _ _ w m1 m2 f gw d); auto.
  - subst kept. now rewrite !app_nil_r, <- !app_assoc.
  - rewrite !app_nil_r. rewrite !oneline_app in *. tauto.
  - right. auto 10.
  - left. constructor.
  - rewrite !app_nil_r. intros K. apply NC. rewrite !app_assoc in *. rewrite <- (app_assoc _ k u). now apply occurs_front.
  - rewrite !app_nil_r. intros K. apply NI. rewrite !app_assoc in *. rewrite <- (app_assoc _ k u). now apply occurs_front.
Qed.
Theorem cut_dropped kept pre l g m2 r k u : cut_end kept pre l g m2 r k u -> ~ In "$"%char (l ++ g ++ r) ->
  preprocess (kept ++ m2 ++ r ++ k ++ u) = preprocess (kept ++ m2 ++ r).
Proof.
  intros H D. pose proof (cut_last _ _ _ _ _ _ _ _ H) as HL.
  destruct (cut_match _ _ _ _ _ _ _ _ H) as (mm & Es & Ep & Esuf & C1 & C2 & C3).
  destruct (exact_match _ _ _ _ _ _ HL) as (mk & Ks & Kp & Ksuf & K1 & K2 & K3 & _).
  unfold preprocess. rewrite Es, Ks. unfold tweak_input_string. rewrite C1, C2, C3, K1, K2, K3.
  destruct (check_and_adjust_parens l g) as [e|[l' g']] eqn:E; [reflexivity|]. f_equal. unfold replace. rewrite Es, Ks, Ep, Kp, Esuf, Ksuf. f_equal. f_equal.
  assert (N : ~ In "$"%char (replacement l' g' r)).
  { intros K. apply replacement_chars in K as [K|[K|K]]; [cbn in K; intuition discriminate|cbn in K; intuition discriminate|].
    apply D. rewrite app_assoc in K |- *. apply in_app_iff in K as [K|K]; apply in_app_iff; [left|now right]. now apply (check_chars _ _ _ _ _ E). }
  now rewrite !format_plain.
Qed.
