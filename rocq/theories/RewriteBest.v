(** The match that the regular expression chooses. *)
From Verif Require Import Preprocess RegexProps RegexPrio TextLemmas Spec SpecRewrite ParenProofs RewriteProofs.

Definition r_rest : re := RSeq r_and (RSeq r_geom (RSeq r_right r_tail)).
Definition r_look_r : re := RLook (RSeq r_sp (RAlts [r_word "HAVING"; r_word " GROUP"; r_word " ORDER"; REnd])).
Definition r_look_g : re := RLook (RSeq r_sp (RAlts [r_word "AND"; r_word "HAVING"; r_word "GROUP"; r_word "ORDER"; REnd])).
Definition r_rbody : re := RSeq r_and (RGrp 3 (RSeq r_nonsp (RSeq (RPlus false RDot) r_look_r))).

(** The decomposition found and in what sense it is the preferred one. *)
Inductive best (i : text) (c' : caps) : Prop :=
| best_intro w a m b m1 f gw d m2 r tl :
    let l := a :: m ++ [b] in
    i = w ++ l ++ m1 ++ f ++ gw ++ d ++ m2 ++ r ++ tl ->
    spelt "WHERE " w -> a <> " "%char -> b <> " "%char -> m <> [] -> oneline m ->
    and_between m1 -> flag f -> geometry_word gw -> oneline d -> ahead_g (m2 ++ r ++ tl) ->
    (* no longer left condition is possible *)
    (forall l2 j, m1 ++ f ++ gw ++ d ++ m2 ++ r ++ tl = l2 ++ j -> oneline (b :: removelast l2) -> ends_dark l2 ->
       forall c i2 c2, ~ rm r_rest j c i2 c2) ->
    (* no shorter geometry *)
    (forall d1 d2, d = d1 ++ d2 -> d2 <> [] -> ahead_g (d2 ++ m2 ++ r ++ tl) ->
       forall c i2 c2, ~ rm (RSeq r_right r_tail) (d2 ++ m2 ++ r ++ tl) c i2 c2) ->
    (* the right condition *)
    (m2 = [] /\ r = [] /\ (forall c i2 c2, ~ rm (RSeq r_rbody r_tail) tl c i2 c2)) \/
    (and_between m2 /\ ahead_r tl /\ exists x y r1, r = x :: y :: r1 /\ x <> " "%char /\ oneline (y :: r1) /\
      forall r2 r3, r1 = r2 ++ r3 -> r3 <> [] -> ahead_r (r3 ++ tl) -> forall c i2 c2, ~ rm r_tail (r3 ++ tl) c i2 c2) ->
    oneline tl ->
    cap_str 1 c' = l -> cap_str 2 c' = f ++ gw ++ d -> cap_str 3 c' = r -> cap_str 4 c' = tl ->
    best i c'.

Definition kf (i : text) (c : caps) : option (text * caps) := Some (i, c).
Lemma mt_seq X a b i c (k : text -> caps -> option X) : mt (RSeq a b) i c k = mt a i c (fun i' c' => mt b i' c' k).
Proof. reflexivity. Qed.
Lemma mt_grp X n a i c (k : text -> caps -> option X) : mt (RGrp n a) i c k = mt a i c (fun i' c' => k i' ((n, upto i i') :: c')).
Proof. reflexivity. Qed.

(** None of the parts looks at the groups: a match with some groups is a match with any groups. *)
Fixpoint caps_ok (r : re) : bool :=
  match r with
  | RSeq a b | RAlt a b => caps_ok a && caps_ok b
  | RStar _ a => caps_ok a
  | RGrp _ a => caps_ok a
  | RLook a => nogroup a && caps_ok a
  | _ => true
  end.
Lemma rm_caps r i c i' c' : rm r i c i' c' -> caps_ok r = true -> forall e, exists e', rm r i e i' e'.
Proof.
  intros R. induction R; cbn [caps_ok]; intros W e; try (apply andb_true_iff in W as [W1 W2]); try (eexists; constructor; auto; fail).
  - destruct (IHR1 W1 e) as (e1 & K1). destruct (IHR2 W2 e1) as (e2 & K2). eexists. econstructor; eauto.
  - destruct (IHR W1 e) as (e1 & K1). eexists. apply rm_alt1. eauto.
  - destruct (IHR W2 e) as (e1 & K1). eexists. apply rm_alt2. eauto.
  - destruct (IHR1 W e) as (e1 & K1). destruct (IHR2 W e1) as (e2 & K2). eexists. eapply rm_star1; eauto.
  - destruct (IHR W e) as (e1 & K1). eexists. constructor. eauto.
  - destruct (IHR W2 e) as (e1 & K1). exists e. rewrite (rm_nogroup _ _ _ _ _ K1 W1) in K1. econstructor; eauto.
Qed.
(** If the matcher fails, nothing matches, with whatever groups. *)
Lemma mt_none r i c (k : text -> caps -> option (text * caps)) : lookwf r = true -> caps_ok r = true -> (forall i c, k i c <> None) ->
  mt r i c k = None -> forall c0 i2 c2, ~ rm r i c0 i2 c2.
Proof.
  intros W C K H c0 i2 c2 R. destruct (rm_caps _ _ _ _ _ R C c) as (e & R'). apply (K i2 e). eapply mt_complete; eauto.
Qed.

Lemma right_best i c (k : text -> caps -> option (text * caps)) x : (forall i c, k i c <> None) ->
  mt (RSeq r_right r_tail) i c k = Some x ->
  exists m2 r tl, i = m2 ++ r ++ tl /\ oneline tl /\
    ((m2 = [] /\ r = [] /\ (forall c i2 c2, ~ rm (RSeq r_rbody r_tail) tl c i2 c2) /\ Some x = k [] ((4, tl) :: c)) \/
    (and_between m2 /\ ahead_r tl /\ (exists x y r1, r = x :: y :: r1 /\ x <> " "%char /\ oneline (y :: r1) /\
      forall r2 r3, r1 = r2 ++ r3 -> r3 <> [] -> ahead_r (r3 ++ tl) -> forall c i2 c2, ~ rm r_tail (r3 ++ tl) c i2 c2) /\
     Some x = k [] ((4, tl) :: (3, r) :: c))).
Proof.
  intros Kn. rewrite mt_seq. change r_right with (RAlt r_rbody REps). cbn [mt].
  change (mt r_rbody i c (fun i' c' => mt r_tail i' c' k)) with (mt (RSeq r_rbody r_tail) i c k).
  destruct (mt (RSeq r_rbody r_tail) i c k) as [x'|] eqn:E.
  - intros H; injection H as ->. unfold r_rbody in E. rewrite !mt_seq in E.
    apply mt_sound in E as (i1 & c1 & R1 & E); [|reflexivity]. apply and_inv in R1 as (m2 & -> & M2 & ->).
    rewrite mt_grp, mt_seq in E. apply mt_sound in E as (i2 & c2 & R2 & E); [|reflexivity]. apply nonsp_inv in R2 as (a & -> & Na & ->).
    unfold RPlus in E. rewrite !mt_seq in E. apply mt_sound in E as (i3 & c3 & R3 & E); [|reflexivity].
    unfold RDot in R3. apply chr_inv in R3 as (b & -> & Db & ->).
    apply star_lazy in E as (r1 & j & -> & D & E & Min).
    apply mt_sound in E as (i4 & c4 & R4 & E); [|reflexivity]. apply look_r_inv in R4 as (-> & -> & A).
    change (a :: b :: r1 ++ j) with ((a :: b :: r1) ++ j) in *. rewrite upto_app in E.
    apply mt_sound in E as (i5 & c5 & R5 & E); [|reflexivity]. apply tail_inv in R5 as (-> & O & ->).
    exists m2, (a :: b :: r1), j. split; [reflexivity|]. split; [exact O|]. right. split; [exact M2|]. split; [exact A|]. split; [|auto].
    exists a, b, r1. split; [reflexivity|]. split; [exact Na|]. split; [apply dots_oneline; cbn; now rewrite Db, D|].
    intros r2 r3 -> N3 A3 c0 i2 c2 R. specialize (Min _ _ eq_refl N3). cbv beta in Min.
    assert (K : rm r_look_r (r3 ++ j) c (r3 ++ j) c) by (apply look_r_inv; auto).
    pose proof (mt_complete r_look_r eq_refl _ _ _ _ Min _ _ K) as M1. cbv beta in M1.
    refine (mt_none r_tail _ _ k eq_refl eq_refl Kn M1 _ _ _ R).
  - intros H. apply mt_sound in H as (i5 & c5 & R5 & H); [|reflexivity]. apply tail_inv in R5 as (-> & O & ->).
    exists [], [], i. split; [reflexivity|]. split; [exact O|]. left. repeat split; auto.
    exact (mt_none (RSeq r_rbody r_tail) _ _ k eq_refl eq_refl Kn E).
Qed.

Lemma the_best i i' c' : mt the_regex i [] kf = Some (i', c') -> i' = [] /\ best i c'.
Proof.
  intros E. unfold the_regex, r_left in E. rewrite !mt_seq in E.
  apply mt_sound in E as (i1 & c1 & R1 & E); [|reflexivity]. apply word_inv in R1 as (w & -> & W & ->); [|reflexivity].
  rewrite mt_grp, mt_seq in E. apply mt_sound in E as (i2 & c2 & R2 & E); [|reflexivity]. apply nonsp_inv in R2 as (a & -> & Na & ->).
  unfold RPlus in E. rewrite !mt_seq in E. apply mt_sound in E as (i3 & c3 & R3 & E); [|reflexivity].
  unfold RDot in R3. apply chr_inv in R3 as (a' & -> & Da & ->).
  apply star_greedy in E as (m' & j & -> & D & E & Max).
  apply mt_sound in E as (i4 & c4 & R4 & E); [|reflexivity]. apply nonsp_inv in R4 as (b & -> & Nb & ->).
  (* AND *)
  rewrite mt_seq in E. apply mt_sound in E as (i5 & c5 & R5 & E); [|reflexivity]. apply and_inv in R5 as (m1 & -> & M1 & ->).
  replace (a :: a' :: m' ++ b :: m1 ++ i5) with ((a :: a' :: m' ++ [b]) ++ m1 ++ i5) in E by (cbn; now rewrite <- app_assoc).
  rewrite upto_app in E.
  (* geometry *)
  rewrite mt_seq in E. unfold r_geom in E. rewrite mt_grp, mt_seq in E.
  apply mt_sound in E as (i6 & c6 & R6 & E); [|reflexivity]. apply flag_inv in R6 as (f & -> & F & ->).
  rewrite mt_seq in E. apply mt_sound in E as (i7 & c7 & R7 & E); [|reflexivity]. rewrite alt_inv, !word_inv in R7 by reflexivity.
  assert (exists gw, i6 = gw ++ i7 /\ geometry_word gw /\ c7 = [(1, a :: a' :: m' ++ [b])]) as (gw & -> & G & ->).
  { unfold geometry_word. destruct R7 as [(gw & -> & K & ->)|(gw & -> & K & ->)]; eauto. }
  clear R7. rewrite mt_seq in E. unfold RDot in E. apply star_lazy in E as (d & j & -> & Dd & E & Min).
  apply mt_sound in E as (i8 & c8 & R8 & E); [|reflexivity]. apply look_g_inv in R8 as (-> & -> & A).
  replace (f ++ gw ++ d ++ j) with ((f ++ gw ++ d) ++ j) in E by (now rewrite !app_assoc). rewrite upto_app in E.
  apply right_best in E as (m2 & r & tl & -> & Ot & E); [|discriminate].
  assert (Hmin : forall d1 d2, d = d1 ++ d2 -> d2 <> [] -> ahead_g (d2 ++ m2 ++ r ++ tl) ->
       forall c i2 c2, ~ rm (RSeq r_right r_tail) (d2 ++ m2 ++ r ++ tl) c i2 c2).
  { intros d1 d2 -> N2 A2 c0 i2 c2 R. specialize (Min _ _ eq_refl N2). cbv beta in Min.
    assert (K : rm r_look_g (d2 ++ m2 ++ r ++ tl) [(1, a :: a' :: m' ++ [b])] (d2 ++ m2 ++ r ++ tl) [(1, a :: a' :: m' ++ [b])]) by (apply look_g_inv; auto).
    pose proof (mt_complete r_look_g eq_refl _ _ _ _ Min _ _ K) as H1. cbv beta in H1.
    refine (mt_none (RSeq r_right r_tail) _ _ kf eq_refl eq_refl _ H1 _ _ _ R). discriminate. }
  assert (Hmax : forall l2 j, m1 ++ f ++ gw ++ d ++ m2 ++ r ++ tl = l2 ++ j -> oneline (b :: removelast l2) -> ends_dark l2 ->
       forall c i2 c2, ~ rm r_rest j c i2 c2).
  { intros l2 j El Ol (q & e & -> & Ne) c0 i2 c2 R. rewrite removelast_last in Ol.
    assert (Ej : b :: m1 ++ f ++ gw ++ d ++ m2 ++ r ++ tl = (b :: q) ++ e :: j) by (rewrite El, <- app_assoc; reflexivity).
    apply dots_oneline in Ol. specialize (Max _ _ Ej ltac:(discriminate) Ol). cbv beta in Max.
    assert (K : rm r_nonsp (e :: j) [] j []) by (apply nonsp_inv; exists e; auto).
    pose proof (mt_complete r_nonsp eq_refl _ _ _ _ Max _ _ K) as H1. cbv beta in H1.
    refine (mt_none r_rest _ _ kf eq_refl eq_refl _ H1 _ _ _ R). discriminate. }
  assert (i' = [] /\ exists cr, c' = (4, tl) :: cr ++ [(2, f ++ gw ++ d); (1, a :: a' :: m' ++ [b])] /\ ((r = [] /\ cr = []) \/ cr = [(3, r)])) as (-> & cr & -> & Hcr).
  { destruct E as [(-> & -> & _ & E)|(_ & _ & _ & E)]; injection E as -> ->; (split; [reflexivity|]); eexists.
    - split; [|left; split; reflexivity]. reflexivity.
    - split; [|right; reflexivity]. reflexivity. }
  split; [reflexivity|].
  apply (best_intro _ _ w a (a' :: m') b m1 f gw d m2 r tl); auto.
  - cbn. rewrite <- !app_assoc. reflexivity.
  - discriminate.
  - apply dots_oneline. cbn. now rewrite Da, D.
  - now apply dots_oneline.
  - destruct E as [(-> & -> & E & _)|(E1 & E2 & E3 & _)]; [left|right]; auto.
  - destruct Hcr as [[-> ->]| ->]; reflexivity.
  - destruct Hcr as [[-> ->]| ->]; reflexivity.
  - destruct Hcr as [[-> ->]| ->]; reflexivity.
Qed.
