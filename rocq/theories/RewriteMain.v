(** For WHERE clauses of the intended form the match is determined (main lemma). *)
From Verif Require Import Preprocess RegexProps RegexPrio TextLemmas Spec SpecRewrite ParenProofs RewriteProofs RewriteBest RewriteSound RewriteExact.

Lemma left_exists w l i c : spelt "WHERE " w -> starts_dark l -> ends_dark l -> (2 < length l)%nat -> oneline l ->
  exists a m b, l = a :: m ++ [b] /\ a <> " "%char /\ b <> " "%char /\ m <> [] /\ oneline m /\ rm r_left (w ++ l ++ i) c i ((1, l) :: c).
Proof.
  intros W (a & l' & -> & Na) (q & b & E & Nb) Ln O.
  destruct q as [|a' m]; [injection E as -> ->; cbn in Ln; lia|]. injection E as <- ->.
  assert (m <> []) by (destruct m; [cbn in Ln; lia|discriminate]).
  assert (oneline m) by (inversion O as [|? ? _ O']; subst; apply oneline_app in O' as [O' _]; exact O').
  exists a, m, b. repeat split; auto. apply left_inv. exists w, (a :: m ++ [b]). repeat split; auto. exists a, m, b. auto.
Qed.

(** Anything that ends with this rest: where can the geometry word of a match of [r_rest] be? *)
Lemma rest_position m1 f gw T m10 f0 gw0 T0 l2 :
  l2 ++ m1 ++ f ++ gw ++ T = m10 ++ f0 ++ gw0 ++ T0 ->
  and_between m1 -> flag f -> geometry_word gw -> and_between m10 -> flag f0 -> geometry_word gw0 ->
  ~ occurs_nc (L "CONTAINS") T0 -> ~ occurs_nc (L "INTERSECTS") T0 ->
  l2 ++ m1 ++ f = m10 ++ f0 /\ gw = gw0 /\ T = T0.
Proof.
  intros E M1 F G M10 F0 G0 N1 N2.
  assert (E' : (l2 ++ m1 ++ f) ++ gw ++ T = (m10 ++ f0) ++ gw0 ++ T0) by (rewrite <- !app_assoc; exact E).
  destruct (app_cmp _ _ _ _ E') as [(e & Ne & E1 & E2)|[[E1 E2]|(e & Ne & E1 & E2)]].
  - exfalso. apply gw_in_gw in E2 as (p' & -> & ->); auto. destruct G as [G|G]; [apply N1|apply N2]; exists p', gw, T; auto.
  - split; [exact E1|]. apply app_eq_len in E2; [exact E2|].
    destruct G as [G|G], G0 as [G0|G0]; rewrite (spelt_len _ _ G), (spelt_len _ _ G0); try reflexivity; exfalso;
      apply (f_equal upper) in E2; rewrite !upper_app in E2; unfold spelt in *; rewrite G, G0 in E2; discriminate.
  - exfalso. destruct (gw_not_andish _ G) as (c & u & -> & Nc). destruct e as [|x e]; [congruence|]. injection E2 as <- _.
    assert (A : Forall andish (m10 ++ f0)) by (apply Forall_app; split; [now apply between_andish|now apply flag_andish]).
    rewrite E1 in A. apply Forall_app in A as [_ A]. inversion A; subst. auto.
Qed.

Lemma between_starts m : and_between m -> forall l2 t t', m ++ t = l2 ++ t' -> l2 <> [] -> ends_dark l2 -> (1 <= countA l2)%nat.
Proof.
  intros (b1 & a & b2 & -> & B1 & A & B2) l2 t t' E N D. rewrite <- !app_assoc in E.
  destruct (app_cmp _ _ _ _ E) as [(e & Ne & E1 & E2)|[[E1 E2]|(e & Ne & E1 & E2)]].
  - exfalso. rewrite E1 in B1. apply Forall_app in B1 as [B1 _]. eapply ends_dark_blank; eauto.
  - exfalso. subst. eapply ends_dark_blank; eauto.
  - subst l2. rewrite countA_app. apply and_three in A as (x & y & z & -> & X & _). destruct e as [|x' e]; [congruence|]. injection E2 as <- _.
    unfold countA, is_A at 2. cbn [filter]. rewrite X. cbn. lia.
Qed.

Lemma exact_match input pre l g r tl : last_geometry input pre l g r tl ->
  exists mm, search the_regex input = Some mm /\ m_pre mm = pre /\ m_suf mm = [] /\
    cap_str 1 (m_caps mm) = l /\ cap_str 2 (m_caps mm) = g /\ cap_str 3 (m_caps mm) = r /\ cap_str 4 (m_caps mm) = tl.
Proof.
  intros [w0 m10 m20 f0 gw0 d0 Ei W0 Npre Dl El Ln O M10 Eg F0 G0 Dg NA NH NG NO R B NC NI].
  fold (right_spec m20 r) in R.
  rewrite !oneline_app in O. destruct O as (Ol & Om1 & Og & Om2 & Or & Ot).
  subst g. rewrite !oneline_app in Og. destruct Og as (_ & _ & Od).
  assert (Orest : oneline (m20 ++ r ++ tl)) by (rewrite !oneline_app; auto).
  pose proof (fun c => rest_rm m10 f0 gw0 d0 m20 r tl c M10 F0 G0 Od R B Orest) as Rest.
  rewrite <- !app_assoc in Ei.
  destruct (left_exists w0 l (m10 ++ f0 ++ gw0 ++ d0 ++ m20 ++ r ++ tl) [] W0 Dl El Ln Ol) as (a0 & m0 & b0 & El0 & Na0 & Nb0 & Nm0 & Om0 & Rl).
  destruct (Rest [(1, l)]) as (cR & RR).
  assert (Rall : rm the_regex (w0 ++ l ++ m10 ++ f0 ++ gw0 ++ d0 ++ m20 ++ r ++ tl) [] [] cR) by (apply seq_inv; eauto).
  destruct (search the_regex input) as [mm|] eqn:Es.
  2:{ exfalso. apply (search_none _ Es pre _ Ei [] [] cR). exact Rall. }
  exists mm. split; [reflexivity|]. apply search_best in Es as (Emm & Esuf & Best & First).
  destruct Best as [w a m b m1 f gw d m2 r' tl' l' Ej W Na Nb Nm Om M1 F G Od' A Hmax Hmin Hr Ot' C1 C2 C3 C4].
  (* 1. the WHERE *)
  assert (E1 : m_pre mm ++ m_all mm = pre ++ w0 ++ l ++ m10 ++ f0 ++ gw0 ++ d0 ++ m20 ++ r ++ tl) by congruence.
  assert (m_pre mm = pre /\ m_all mm = w0 ++ l ++ m10 ++ f0 ++ gw0 ++ d0 ++ m20 ++ r ++ tl) as [Hp Ha].
  { destruct (app_cmp _ _ _ _ E1) as [(e & Ne & E2 & E3)|[K|(e & Ne & E2 & E3)]]; [exfalso|exact K|exfalso].
    - apply (First pre e E2 Ne [] [] cR). rewrite <- E3. exact Rall.
    - rewrite Ej in E3. eapply (no_overlap_spec (L "WHERE ") (L "WHERE ") w) in E3 as (p' & -> & _); auto.
      apply Npre. exists (m_pre mm), w, p'. auto. }
  split; [exact Hp|]. split; [exact Esuf|].
  assert (E2 : w ++ l' ++ m1 ++ f ++ gw ++ d ++ m2 ++ r' ++ tl' = w0 ++ l ++ m10 ++ f0 ++ gw0 ++ d0 ++ m20 ++ r ++ tl) by congruence.
  apply app_eq_len in E2 as [-> E2]; [|now rewrite (spelt_len _ _ W), (spelt_len _ _ W0)].
  (* 2. the left condition and the place of the geometry *)
  assert (K : l' = l /\ m1 ++ f ++ gw ++ d ++ m2 ++ r' ++ tl' = m10 ++ f0 ++ gw0 ++ d0 ++ m20 ++ r ++ tl).
  { destruct (app_cmp _ _ _ _ E2) as [(e & Ne & E3 & E4)|[K|(e & Ne & E3 & E4)]]; [exfalso|exact K|exfalso].
    - (* longer: the AND would have to be in front of itself *)
      symmetry in E4. destruct (rest_position _ _ _ _ _ _ _ _ _ E4 M1 F G M10 F0 G0 NC NI) as (E5 & _ & _).
      assert (De : ends_dark e) by (apply (ends_dark_app l e); [rewrite <- E3; exists (a :: m), b; auto|exact Ne]).
      pose proof (between_starts m10 M10 e f0 (m1 ++ f) (eq_sym E5) Ne De) as H1.
      apply (f_equal countA) in E5. rewrite !countA_app, (countA_between _ M1), (countA_between _ M10), (countA_flag _ F), (countA_flag _ F0) in E5. lia.
    - (* shorter *)
      assert (De : ends_dark e) by (apply (ends_dark_app l' e); [rewrite <- E3; exact El|exact Ne]).
      apply (Hmax e _ E4) with (c := [(1, l)]) (i2 := []) (c2 := cR); [|exact De|exact RR].
      rewrite E3 in Ol. subst l'. constructor.
      + rewrite oneline_app in Ol. destruct Ol as [Ol _]. inversion Ol as [|? ? _ Ol']; subst. apply oneline_app in Ol' as [_ Ol']. now inversion Ol'.
      + apply oneline_app in Ol as [_ Ol]. destruct De as (q & c & -> & _). rewrite removelast_last. apply oneline_app in Ol. tauto. }
  clear E2. destruct K as [El' E2].
  destruct (rest_position _ _ _ _ _ _ _ _ [] E2 M1 F G M10 F0 G0 NC NI) as (E3 & -> & E4).
  assert (m1 = m10 /\ f = f0) as [-> ->].
  { assert (E5 : (m1 ++ f) ++ gw0 = (m10 ++ f0) ++ gw0) by (cbn in E3; now rewrite E3). rewrite <- !app_assoc in E5.
    destruct (between_unique _ _ _ _ E5 M1 M10) as [-> E6].
    - rewrite <- (app_nil_r gw0). now apply flag_gw_dark.
    - rewrite <- (app_nil_r gw0). now apply flag_gw_dark.
    - split; [reflexivity|]. apply app_inv_tail in E6. exact E6. }
  clear E2 E3 E1 Ej Hmax First.
  (* 3. the end of the geometry *)
  assert (Br : breaks (m20 ++ r ++ tl)).
  { assert (Bt : breaks tl).
    { destruct B as [B|(b2 & k & u & -> & _)]; [|right; eauto]. destruct tl as [|c t]; [now left|right]. inversion B; subst. eauto. }
    destruct R as [(-> & ->)|(MM & [ -> |(u & -> )] & _)]; [exact Bt| |right; eexists; reflexivity].
    apply countA_between in MM. discriminate. }
  assert (K : d = d0 /\ m2 ++ r' ++ tl' = m20 ++ r ++ tl).
  { destruct (app_cmp _ _ _ _ E4) as [(e & Ne & E5 & E6)|[K|(e & Ne & E5 & E6)]]; [exfalso|exact K|exfalso].
    - destruct (right_rm m20 r tl [] R B Orest) as (cx & Rx).
      apply (Hmin d0 e E5 Ne) with (c := []) (i2 := []) (c2 := cx); rewrite <- E6; [now apply right_ahead_g|exact Rx].
    - rewrite E6 in A. assert (De : ends_dark e) by (apply (ends_dark_app (f0 ++ gw0 ++ d) e); [rewrite <- !app_assoc, <- E5; exact Dg|exact Ne]).
      assert (Occ : forall s, occurs_nc s e -> occurs_nc s d0).
      { intros s (x & y & z & -> & S). exists (d ++ x), y, z. rewrite <- app_assoc. auto. }
      destruct A as (bb & Bb & [E7|(k & u & E7 & S)]).
      + rewrite <- E7 in Bb. apply Forall_app in Bb as [Bb _]. eapply ends_dark_blank; eauto.
      + assert (KI : forall s, spelt s k -> L s <> [] -> forallb (fun c => negb (Ascii.eqb c " ")) (List.tl (L s)) = true -> occurs_nc (L s) d0).
        { intros s S1 S2 S3. apply Occ. eapply keyword_inside; eauto. now apply nonblank_check. }
        destruct S as [S|[S|[S|S]]]; apply KI in S; try discriminate; auto. }
  destruct K as [-> E5]. clear E4 Hmin.
  (* 4. the right condition *)
  assert (K : r' = r /\ tl' = tl).
  { destruct R as [(-> & ->)|(M20 & B20 & Dr & Er & Lr & RH & RG & RO)].
    - cbn in E5. destruct Hr as [(-> & -> & _)|(M2 & _ & _)]; [auto|]. exfalso.
      destruct M2 as (b1 & aa & b2 & -> & B1 & Aa & B2).
      assert (Da : dark_or_nil ((aa ++ b2) ++ r' ++ tl')) by (rewrite <- app_assoc; eapply spelt_dark; [exact Aa|cbn; discriminate]).
      rewrite <- app_assoc in E5.
      destruct B as [B|(bb & k & u & -> & Bb & Kk)].
      + rewrite <- E5 in B. apply Forall_app in B as [_ B]. apply Forall_app in B as [B _]. apply Forall_app in B as [B _].
        apply and_three in Aa as (x & y & z & -> & X & _). inversion B; subst. discriminate.
      + change (" "%char :: bb ++ k ++ u) with ((" "%char :: bb) ++ k ++ u) in E5.
        assert (exists s, spelt s k /\ match L s with [] => False | c :: _ => c <> " "%char end /\ compat (L "AND") (L s) = false) as (s & S1 & S2 & S3).
        { destruct Kk as [K|[K|K]]; eexists; (split; [exact K|split; [cbn; discriminate|reflexivity]]). }
        apply blanks_unique in E5 as [_ E5]; auto; [|now constructor|eapply spelt_dark; eauto].
        rewrite <- app_assoc in E5. apply (f_equal upper) in E5. rewrite !upper_app in E5. unfold spelt in *. rewrite Aa, S1 in E5.
        apply compat_app in E5. congruence.
    - destruct Hr as [(-> & -> & Nr)|(M2 & Ar & x & y & r1 & -> & Nx & Oy & Min)].
      + exfalso. cbn in E5. apply (Nr [] [] [(4, tl); (3, r)]). rewrite E5. apply seq_inv. exists tl, [(3, r)]. split; [|apply tail_inv; auto].
        destruct Dr as (c0 & rr & -> & Nc0). apply seq_inv. eexists. exists []. split; [apply and_inv; eauto|]. apply grp_inv. exists (c0 :: rr), []. split; [reflexivity|]. split; [|reflexivity].
        apply seq_inv. exists (rr ++ tl), []. split; [apply nonsp_inv; exists c0; auto|]. apply seq_inv. exists tl, []. split; [apply plus_dot_inv; exists rr|apply look_r_inv; repeat split; auto; now apply behind_ahead_r].
        repeat split; auto; [now inversion Or|destruct rr; [cbn in Lr; lia|discriminate]].
      + destruct Dr as (c0 & rr & -> & Nc0). apply between_unique in E5 as [-> E5]; auto.
        destruct rr as [|c1 rr]; [cbn in Lr; lia|]. injection E5 as <- <- E5.
        destruct (app_cmp _ _ _ _ E5) as [(e & Ne & E6 & E7)|[[-> ->]|(e & Ne & E6 & E7)]]; [exfalso|auto|exfalso].
        * apply (Min rr e E6 Ne) with (c := []) (i2 := []) (c2 := [(4, e ++ tl')]); rewrite <- E7; [now apply behind_ahead_r|apply tail_inv; auto].
        * rewrite E7 in Ar. assert (De : ends_dark e) by (apply (ends_dark_app (x :: y :: r1) e); [rewrite E6 in Er; exact Er|exact Ne]).
          assert (Bt : breaks tl).
          { destruct B as [B|(b2 & k & u & -> & _)]; [|right; eauto]. destruct tl as [|c t]; [now left|right]. inversion B; subst. eauto. }
          assert (Occ : forall s, occurs_nc s e -> occurs_nc s (x :: y :: rr)).
          { intros s (q1 & q2 & q3 & -> & S). exists (x :: y :: r1 ++ q1), q2, q3. rewrite E6. cbn. rewrite <- app_assoc. auto. }
          destruct Ar as (bb & Bb & [E8|(k & u & E8 & S)]).
          -- rewrite <- E8 in Bb. apply Forall_app in Bb as [Bb _]. eapply ends_dark_blank; eauto.
          -- assert (KI : forall s, spelt s k -> L s <> [] -> forallb (fun c => negb (Ascii.eqb c " ")) (List.tl (L s)) = true -> occurs_nc (L s) (x :: y :: rr)).
             { intros s S1 S2 S3. apply Occ. eapply keyword_inside; eauto. now apply nonblank_check. }
             destruct S as [S|[S|S]]; apply KI in S; try discriminate; auto. }
  destruct K as [-> ->]. rewrite C1, C2, C3, C4. auto.
Qed.

(** The rewriting of such a text. *)
Lemma rewrite_exact input pre l g r tl : last_geometry input pre l g r tl ->
  match check_and_adjust_parens l g with
  | inl e => preprocess input = inl e
  | inr (l', g') => ~ In "$"%char (l ++ g ++ r) -> preprocess input = inr (moved pre l' g' r)
  end.
Proof.
  intros H. destruct (exact_match _ _ _ _ _ _ H) as (mm & Es & Ep & Esuf & C1 & C2 & C3 & C4).
  unfold preprocess. rewrite Es. unfold tweak_input_string. rewrite C1, C2, C3.
  destruct (check_and_adjust_parens l g) as [e|[l' g']] eqn:Ec; [reflexivity|]. intros Nd.
  unfold replace. rewrite Es, Ep, Esuf, app_nil_r, format_plain; [now rewrite replacement_moved|].
  intros K. apply replacement_chars in K as [K|[K|K]].
  - cbn in K. intuition discriminate.
  - cbn in K. intuition discriminate.
  - apply Nd. rewrite !in_app_iff in *. pose proof (fun c => check_chars _ _ _ _ c Ec) as Hc. setoid_rewrite in_app_iff in Hc.
    destruct K as [K|[K|K]]; [destruct (Hc _ (or_introl K))|destruct (Hc _ (or_intror K))|]; auto.
Qed.
Lemma rewrite_intended input pre l g r tl : last_geometry input pre l g r tl -> ~ In "$"%char (l ++ g ++ r) ->
    shallow (peak 0 (l ++ g)) ->
    (forall l' g', enclosed l g l' g' -> preprocess input = inr (moved pre l' g' r)) /\
    (balanced l -> well_closed g -> preprocess input = inr (moved pre l g r)).
Proof.
  intros H Nd Sh. pose proof (rewrite_exact _ _ _ _ _ _ H) as K. split.
  - intros l' g' En. assert (check_and_adjust_parens l g = inr (l', g')) as E by (apply check_iff; auto). rewrite E in K. auto.
  - intros Bl Wg. assert (check_and_adjust_parens l g = inr (l, g)) as E by (apply check_iff; auto 8). rewrite E in K. auto.
Qed.
Lemma occurs_mid a w b : occurs w (a ++ w ++ b).
Proof. exists a, b. reflexivity. Qed.
Lemma pieces_kept input pre l g r tl : last_geometry input pre l g r tl -> blank tl -> ~ In "$"%char (l ++ g ++ r) ->
    shallow (peak 0 (l ++ g)) -> balanced l -> well_closed g ->
    exists t, preprocess input = inr t /\ occurs pre t /\ occurs l t /\ occurs g t /\ occurs r t.
Proof.
  intros H _ Nd Sh Bl Wg. destruct (rewrite_intended _ _ _ _ _ _ H Nd Sh) as [_ K]. eexists. split; [apply K; auto|]. unfold moved.
  split; [exists []; eexists; reflexivity|]. split; [exists (pre ++ L "WHERE " ++ g ++ L " AND "); eexists; rewrite <- !app_assoc; reflexivity|].
  split; [exists (pre ++ L "WHERE "); eexists; rewrite <- !app_assoc; reflexivity|].
  exists (pre ++ L "WHERE " ++ g ++ L " AND " ++ l ++ match r with [] => [] | _ => L " AND " end), []. rewrite app_nil_r, <- !app_assoc.
  destruct r; [now rewrite !app_nil_r|]. reflexivity.
Qed.
Lemma rest_ignored input input' pre l g r tl tl' : last_geometry input pre l g r tl -> last_geometry input' pre l g r tl' ->
    ~ In "$"%char (l ++ g ++ r) -> preprocess input = preprocess input'.
Proof.
  intros H H' Nd. apply rewrite_exact in H, H'. destruct (check_and_adjust_parens l g) as [e|[l' g']]; [congruence|]. rewrite H, H'; auto.
Qed.
Lemma true_depth l g : shallow (peak 0 (l ++ g)) ->
    (check_and_adjust_parens l g = inl Premature_I <-> ~ well_closed l) /\
    (forall n, nest 0 l = Some (S (S n)) -> check_and_adjust_parens l g = inl Inappropriate_I).
Proof.
  intros Sh. split; [now apply check_premature_I|]. intros n Hn. destruct (peak_app _ _ _ Sh) as [H1 _].
  unfold check_and_adjust_parens. rewrite (left_loop_true l 0) by assumption. rewrite Hn.
  replace (1 <? N.of_nat (S (S n)))%N with true by (symmetry; apply N.ltb_lt; lia). reflexivity.
Qed.

(** ** Nesting of depth 65536 *)
Definition deep_text (n : nat) : text := repeat "("%char n ++ ")"%char :: repeat ")"%char (pred n).
Lemma deep_balanced n : 0 < n -> balanced (deep_text n).
Proof.
  intros H. unfold balanced, deep_text. rewrite nest_opens, Nat.add_0_r. change (")"%char :: repeat ")"%char (pred n)) with (repeat ")"%char (S (pred n))).
  replace (S (pred n)) with n by lia. apply nest_closes.
Qed.
Lemma Forall_repeat {A} (P : A -> Prop) x n : P x -> Forall P (repeat x n).
Proof. intros H. induction n; constructor; auto. Qed.
Lemma deep_form n : 1 < n ->
  last_geometry (L "select * from t where " ++ deep_text n ++ L " and contains(p,q)") (L "select * from t ") (deep_text n) (L "contains(p,q)") [] [].
Proof.
  intros H.
  assert (GenP : forall c s t, ~ In c (upper t) -> In c (upper s) -> ~ occurs_nc s t).
  { intros c s t N I (a & m & b & E & U). apply N. rewrite E, !upper_app, U, !in_app_iff. auto. }
  apply (last_geometry_intro _ _ _ _ _ _ (L "where ") (L " and ") [] [] (L "contains") (L "(p,q)")); try reflexivity.
  - apply (GenP "W"%char); cbn; intuition discriminate.
  - destruct n; [lia|]. exists "("%char. eexists. split; [reflexivity|discriminate].
  - unfold deep_text. exists (repeat "("%char n ++ repeat ")"%char (pred n)), ")"%char. split; [|discriminate].
    rewrite <- app_assoc. f_equal. now rewrite repeat_cons.
  - unfold deep_text. rewrite app_length. cbn [length]. rewrite !repeat_length. lia.
  - rewrite !oneline_app. unfold deep_text, oneline. repeat split; try (repeat constructor; discriminate).
    apply Forall_app. split; [apply Forall_repeat; split; discriminate|]. constructor; [split; discriminate|]. apply Forall_repeat; split; discriminate.
  - exists [" "%char], (L "and"), [" "%char]. repeat split; repeat constructor.
  - constructor.
  - now left.
  - exists (L "contains(p,q"), ")"%char. split; [reflexivity|discriminate].
  - apply (GenP "A"%char); cbn; intuition discriminate.
  - apply (GenP "A"%char); cbn; intuition discriminate.
  - apply (GenP "G"%char); cbn; intuition discriminate.
  - apply (GenP "O"%char); cbn; intuition discriminate.
  - now left.
  - left. constructor.
  - apply (GenP "C"%char); cbn; intuition discriminate.
  - apply (GenP "I"%char); cbn; intuition discriminate.
Qed.
Lemma deep_input : exists input pre l g, last_geometry input pre l g [] [] /\ balanced l /\ balanced g /\ preprocess input = inl Premature_I.
Proof.
  pose (n := N.to_nat 65536). assert (Hn : N.of_nat n = 65536%N) by apply N2Nat.id. assert (1 < n) by lia. clearbody n.
  exists (L "select * from t where " ++ deep_text n ++ L " and contains(p,q)"), (L "select * from t "), (deep_text n), (L "contains(p,q)").
  pose proof (deep_form n H) as F. split; [exact F|]. split; [apply deep_balanced; lia|]. split; [reflexivity|].
  apply rewrite_exact in F. unfold deep_text at 1 in F. rewrite deep_rejected in F; auto.
Qed.
Lemma deep_unbalanced : exists l g, nest 0 l = Some (N.to_nat 65536) /\ balanced g /\ check_and_adjust_parens l g = inr (l, g).
Proof.
  pose (n := N.to_nat 65536). assert (Hn : N.of_nat n = 65536%N) by apply N2Nat.id. fold n. clearbody n.
  exists ("x"%char :: repeat "("%char n), (L "contains(p,q)"). split.
  - cbn [nest]. change (Ascii.eqb "x" "(") with false. change (Ascii.eqb "x" ")") with false. cbv iota.
    rewrite <- (app_nil_r (repeat _ n)), nest_opens. cbn. f_equal. lia.
  - split; [reflexivity|]. apply deep_accepted; [exact Hn|discriminate|reflexivity].
Qed.
