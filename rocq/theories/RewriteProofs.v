(** What the regular expression of Query.cxx matches, and the rewriting. *)
From Verif Require Import Preprocess RegexProps TextLemmas Spec SpecRewrite ParenProofs.

(** * Inversion *)
Lemma seq_inv a b i c i2 c2 : rm (RSeq a b) i c i2 c2 <-> exists i1 c1, rm a i c i1 c1 /\ rm b i1 c1 i2 c2.
Proof. split; [intros R; inversion R; subst; eauto|]. intros (i1 & c1 & H1 & H2). econstructor; eauto. Qed.
Lemma alt_inv a b i c i2 c2 : rm (RAlt a b) i c i2 c2 <-> rm a i c i2 c2 \/ rm b i c i2 c2.
Proof. split; [intros R; inversion R; subst; auto|]. intros [H|H]; [now apply rm_alt1|now apply rm_alt2]. Qed.
Lemma eps_inv i c i2 c2 : rm REps i c i2 c2 <-> i2 = i /\ c2 = c.
Proof. split; [intros R; inversion R; subst; auto|]. intros [-> ->]. constructor. Qed.
Lemma chr_inv f i c i2 c2 : rm (RChr f) i c i2 c2 <-> exists a, i = a :: i2 /\ f a = true /\ c2 = c.
Proof. split; [intros R; inversion R; subst; eauto|]. intros (a & -> & F & ->). now constructor. Qed.
Lemma grp_inv n a i c i2 c2 : rm (RGrp n a) i c i2 c2 <-> exists t c1, i = t ++ i2 /\ rm a i c i2 c1 /\ c2 = (n, t) :: c1.
Proof.
  split.
  - intros R; inversion R; subst. match goal with H : rm a i c i2 _ |- _ => destruct (rm_suffix _ _ _ _ _ H) as (t & E) end.
    exists t. eexists. split; [exact E|]. split; [eassumption|]. rewrite E, upto_app. reflexivity.
  - intros (t & c1 & E & H & ->). replace t with (upto i i2) by (rewrite E; apply upto_app). now constructor.
Qed.
Lemma look_inv a i c i2 c2 : rm (RLook a) i c i2 c2 <-> i2 = i /\ c2 = c /\ exists i1, rm a i c i1 c.
Proof. split; [intros R; inversion R; subst; eauto|]. intros (-> & -> & i1 & H). econstructor; eauto. Qed.
Lemma end_inv i c i2 c2 : rm REnd i c i2 c2 <-> i = [] /\ i2 = [] /\ c2 = c.
Proof. split; [intros R; inversion R; subst; auto|]. intros (-> & -> & ->). constructor. Qed.

Lemma eq_nc_blank c : eq_nc " " c = true <-> c = " "%char.
Proof.
  unfold eq_nc. split; [|intros ->; reflexivity]. intros H. apply Ascii.eqb_eq in H. symmetry in H.
  destruct c as [[] [] [] [] [] [] [] []]; vm_compute in H; congruence.
Qed.
Lemma eq_nc_same a c : upc a = a -> (forall x, upc x = a -> x = a) -> eq_nc a c = true <-> c = a.
Proof.
  intros U S. unfold eq_nc. split; [|intros ->; apply Ascii.eqb_refl]. intros H. apply Ascii.eqb_eq in H. apply S. congruence.
Qed.
Ltac all_bytes x := destruct x as [[] [] [] [] [] [] [] []].
Lemma eq_nc_0 c : eq_nc "0" c = true <-> c = "0"%char.
Proof. apply eq_nc_same; [reflexivity|]. intros x H. all_bytes x; vm_compute in H; congruence. Qed.
Lemma eq_nc_1 c : eq_nc "1" c = true <-> c = "1"%char.
Proof. apply eq_nc_same; [reflexivity|]. intros x H. all_bytes x; vm_compute in H; congruence. Qed.
Lemma eq_nc_eq c : eq_nc "=" c = true <-> c = "="%char.
Proof. apply eq_nc_same; [reflexivity|]. intros x H. all_bytes x; vm_compute in H; congruence. Qed.

Lemma sp_inv i c i2 c2 : rm r_sp i c i2 c2 <-> exists b, i = b ++ i2 /\ blank b /\ c2 = c.
Proof.
  unfold r_sp, RCi. rewrite rm_star_chr. unfold blank. split; intros (w & -> & F & ->); exists w; (split; [auto|split; [|auto]]).
  - rewrite forallb_forall in F. apply Forall_forall. intros x Hx. apply eq_nc_blank. auto.
  - apply forallb_forall. rewrite Forall_forall in F. intros x Hx. apply eq_nc_blank. auto.
Qed.
Lemma word_inv s i c i2 c2 : upper (L s) = L s -> rm (r_word s) i c i2 c2 <-> exists w, i = w ++ i2 /\ spelt s w /\ c2 = c.
Proof. intros U. unfold r_word, spelt. rewrite rm_lit, U. tauto. Qed.
Lemma nonsp_inv i c i2 c2 : rm r_nonsp i c i2 c2 <-> exists a, i = a :: i2 /\ a <> " "%char /\ c2 = c.
Proof.
  unfold r_nonsp. rewrite chr_inv. split; intros (a & -> & F & ->); exists a; (split; [auto|split; [|auto]]).
  - intros ->. discriminate.
  - apply negb_true_iff. now apply Ascii.eqb_neq.
Qed.
Lemma is_dot_iff c : is_dot c = true <-> code c <> 10%N /\ code c <> 13%N.
Proof. unfold is_dot. rewrite negb_true_iff, orb_false_iff, !N.eqb_neq. tauto. Qed.
Lemma dots_oneline w : forallb is_dot w = true <-> oneline w.
Proof. unfold oneline. rewrite forallb_forall, Forall_forall. split; intros H x Hx; apply is_dot_iff; auto. Qed.
Lemma star_dot_inv g i c i2 c2 : rm (RStar g RDot) i c i2 c2 <-> exists w, i = w ++ i2 /\ oneline w /\ c2 = c.
Proof. unfold RDot. rewrite rm_star_chr. split; intros (w & -> & F & ->); exists w; (split; [auto|split; [|auto]]); now apply dots_oneline. Qed.
Lemma plus_dot_inv g i c i2 c2 : rm (RPlus g RDot) i c i2 c2 <-> exists w, i = w ++ i2 /\ oneline w /\ w <> [] /\ c2 = c.
Proof.
  unfold RPlus. rewrite seq_inv. split.
  - intros (i1 & c1 & H1 & H2). unfold RDot in H1. apply chr_inv in H1 as (a & -> & F & ->). apply star_dot_inv in H2 as (w & -> & O & ->).
    exists (a :: w). split; [reflexivity|]. split; [|split; [discriminate|reflexivity]]. constructor; [now apply is_dot_iff|exact O].
  - intros (w & -> & O & N & ->). destruct w as [|a w]; [congruence|]. exists (w ++ i2), c. split.
    + unfold RDot. apply chr_inv. exists a. split; [reflexivity|]. split; [|reflexivity]. apply is_dot_iff. now inversion O.
    + apply star_dot_inv. exists w. split; [reflexivity|]. split; [|reflexivity]. now inversion O.
Qed.

(** * The parts of the regular expression *)
Lemma left_inv i c i2 c2 : rm r_left i c i2 c2 <->
  exists w l, i = w ++ l ++ i2 /\ spelt "WHERE " w /\
    (exists a m b, l = a :: m ++ [b] /\ a <> " "%char /\ b <> " "%char /\ m <> [] /\ oneline m) /\ c2 = (1, l) :: c.
Proof.
  unfold r_left. rewrite seq_inv. split.
  - intros (i1 & c1 & H1 & H2). apply word_inv in H1 as (w & -> & W & ->); [|reflexivity].
    apply grp_inv in H2 as (l & c3 & -> & H & ->). apply seq_inv in H as (i3 & c4 & H3 & H4).
    apply nonsp_inv in H3 as (a & E & Na & ->). apply seq_inv in H4 as (i5 & c5 & H5 & H6).
    apply plus_dot_inv in H5 as (m & -> & O & Nm & ->). apply nonsp_inv in H6 as (b & -> & Nb & ->).
    exists w, l. split; [reflexivity|]. split; [exact W|]. split; [|reflexivity].
    exists a, m, b. split; [|auto]. apply app_inv_tail with i2. rewrite E. cbn. now rewrite <- app_assoc.
  - intros (w & l & -> & W & (a & m & b & -> & Na & Nb & Nm & O) & ->).
    eexists. exists c. split; [apply word_inv; [reflexivity|]; eauto|].
    apply grp_inv. eexists. exists c. split; [reflexivity|]. split; [|reflexivity].
    apply seq_inv. exists (m ++ [b] ++ i2), c. split; [apply nonsp_inv; exists a; split; auto|].
    { cbn. now rewrite <- app_assoc. }
    apply seq_inv. exists (b :: i2), c. split; [apply plus_dot_inv; eauto|]. apply nonsp_inv; eauto.
Qed.

Lemma and_inv i c i2 c2 : rm r_and i c i2 c2 <-> exists m, i = m ++ i2 /\ and_between m /\ c2 = c.
Proof.
  unfold r_and. rewrite seq_inv. split.
  - intros (i1 & c1 & H1 & H2). apply sp_inv in H1 as (b1 & -> & B1 & ->). apply seq_inv in H2 as (i3 & c3 & H2 & H3).
    apply word_inv in H2 as (a & -> & A & ->); [|reflexivity]. apply sp_inv in H3 as (b2 & -> & B2 & ->).
    exists (b1 ++ a ++ b2). split; [now rewrite !app_assoc|]. split; [|reflexivity]. exists b1, a, b2; auto.
  - intros (m & -> & (b1 & a & b2 & -> & B1 & A & B2) & ->).
    exists (a ++ b2 ++ i2), c. split; [apply sp_inv; exists b1; rewrite !app_assoc; auto|].
    apply seq_inv. exists (b2 ++ i2), c. split; [apply word_inv; [reflexivity|]; eauto|]. apply sp_inv; eauto.
Qed.

(** The look-ahead behind the geometry / behind the right condition. *)
Definition ahead_g (j : text) : Prop :=
  exists b, blank b /\ (j = b \/ exists k r, j = b ++ k ++ r /\ (spelt "AND" k \/ spelt "HAVING" k \/ spelt "GROUP" k \/ spelt "ORDER" k)).
Definition ahead_r (j : text) : Prop :=
  exists b, blank b /\ (j = b \/ exists k r, j = b ++ k ++ r /\ (spelt "HAVING" k \/ spelt " GROUP" k \/ spelt " ORDER" k)).

Lemma look_g_inv i c i2 c2 :
  rm (RLook (RSeq r_sp (RAlts [r_word "AND"; r_word "HAVING"; r_word "GROUP"; r_word "ORDER"; REnd]))) i c i2 c2 <->
  i2 = i /\ c2 = c /\ ahead_g i.
Proof.
  rewrite look_inv. apply and_iff_compat_l, and_iff_compat_l. unfold ahead_g. split.
  - intros (i1 & H). apply seq_inv in H as (i3 & c3 & H1 & H2). apply sp_inv in H1 as (b & -> & B & ->). exists b. split; [exact B|].
    cbn [RAlts] in H2. rewrite !alt_inv, end_inv, !word_inv in H2 by reflexivity.
    destruct H2 as [(w & -> & W & _)|[(w & -> & W & _)|[(w & -> & W & _)|[(w & -> & W & _)|(-> & -> & _)]]]].
    1-4: right; exists w, i1; split; [reflexivity|tauto].
    left. now rewrite app_nil_r.
  - intros (b & B & [->|(k & r & -> & K)]).
    + exists []. apply seq_inv. exists [], c. split; [apply sp_inv; exists b; rewrite app_nil_r; auto|].
      cbn [RAlts]. rewrite !alt_inv, end_inv. tauto.
    + exists r. apply seq_inv. exists (k ++ r), c. split; [apply sp_inv; eauto|].
      cbn [RAlts]. rewrite !alt_inv, !word_inv by reflexivity. destruct K as [K|[K|[K|K]]]; [left|right; left|right; right; left|right; right; right; left]; eauto.
Qed.
Lemma look_r_inv i c i2 c2 :
  rm (RLook (RSeq r_sp (RAlts [r_word "HAVING"; r_word " GROUP"; r_word " ORDER"; REnd]))) i c i2 c2 <->
  i2 = i /\ c2 = c /\ ahead_r i.
Proof.
  rewrite look_inv. apply and_iff_compat_l, and_iff_compat_l. unfold ahead_r. split.
  - intros (i1 & H). apply seq_inv in H as (i3 & c3 & H1 & H2). apply sp_inv in H1 as (b & -> & B & ->). exists b. split; [exact B|].
    cbn [RAlts] in H2. rewrite !alt_inv, end_inv, !word_inv in H2 by reflexivity.
    destruct H2 as [(w & -> & W & _)|[(w & -> & W & _)|[(w & -> & W & _)|(-> & -> & _)]]].
    1-3: right; exists w, i1; split; [reflexivity|tauto].
    left. now rewrite app_nil_r.
  - intros (b & B & [->|(k & r & -> & K)]).
    + exists []. apply seq_inv. exists [], c. split; [apply sp_inv; exists b; rewrite app_nil_r; auto|].
      cbn [RAlts]. rewrite !alt_inv, end_inv. tauto.
    + exists r. apply seq_inv. exists (k ++ r), c. split; [apply sp_inv; eauto|].
      cbn [RAlts]. rewrite !alt_inv, !word_inv by reflexivity. destruct K as [K|[K|K]]; [left|right; left|right; right; left]; eauto.
Qed.

Lemma flag_inv i c i2 c2 :
  rm (ROpt (RSeq (RAlt (RCi "0") (RCi "1")) (RSeq r_sp (RSeq (RCi "=") r_sp)))) i c i2 c2 <->
  exists f, i = f ++ i2 /\ flag f /\ c2 = c.
Proof.
  unfold ROpt. rewrite alt_inv, eps_inv. split.
  - intros [H|[-> ->]].
    + apply seq_inv in H as (i1 & c1 & H1 & H2). apply seq_inv in H2 as (i3 & c3 & H2 & H3). apply seq_inv in H3 as (i4 & c4 & H3 & H4).
      unfold RCi in H1, H3. rewrite alt_inv, !chr_inv in H1. apply sp_inv in H2 as (b1 & -> & B1 & ->).
      apply chr_inv in H3 as (e & -> & E & ->). apply sp_inv in H4 as (b2 & -> & B2 & ->). apply eq_nc_eq in E. subst e.
      destruct H1 as [(d & -> & D & ->)|(d & -> & D & ->)]; exists (d :: b1 ++ "="%char :: b2);
        (split; [cbn; now rewrite <- app_assoc|]; split; [|reflexivity]; constructor; auto).
      * left. now apply eq_nc_0. * right. now apply eq_nc_1.
    + exists []. split; [reflexivity|]. split; [constructor|reflexivity].
  - intros (f & -> & F & ->). destruct F as [|d b1 b2 D B1 B2]; [now right|]. left.
    apply seq_inv. exists (b1 ++ "="%char :: b2 ++ i2), c. split.
    { unfold RCi. rewrite alt_inv, !chr_inv. cbn. rewrite <- app_assoc. cbn. destruct D as [ -> | -> ]; [left|right]; eexists; split; eauto. }
    apply seq_inv. exists ("="%char :: b2 ++ i2), c. split; [apply sp_inv; eauto|].
    apply seq_inv. exists (b2 ++ i2), c. split; [|apply sp_inv; eauto]. unfold RCi. apply chr_inv. eexists. split; eauto.
Qed.

Lemma geom_inv i c i2 c2 : rm r_geom i c i2 c2 <->
  exists f gw d, i = f ++ gw ++ d ++ i2 /\ flag f /\ geometry_word gw /\ oneline d /\ ahead_g i2 /\ c2 = (2, f ++ gw ++ d) :: c.
Proof.
  unfold r_geom. rewrite grp_inv. split.
  - intros (t & c1 & E & H & ->). apply seq_inv in H as (i3 & c3 & H1 & H2). apply flag_inv in H1 as (f & -> & F & ->).
    apply seq_inv in H2 as (i4 & c4 & H2 & H3). rewrite alt_inv, !word_inv in H2 by reflexivity.
    apply seq_inv in H3 as (i5 & c5 & H3 & H4). apply star_dot_inv in H3 as (d & -> & O & ->). apply look_g_inv in H4 as (-> & -> & A).
    assert (exists gw, i3 = gw ++ d ++ i5 /\ geometry_word gw /\ c4 = c) as (gw & -> & G & ->).
    { unfold geometry_word. destruct H2 as [(w & -> & W & ->)|(w & -> & W & ->)]; eauto. }
    exists f, gw, d. repeat (split; [auto|]). f_equal. f_equal. apply app_inv_tail with i5. rewrite <- E. now rewrite !app_assoc.
  - intros (f & gw & d & -> & F & G & O & A & ->). exists (f ++ gw ++ d), c. split; [now rewrite !app_assoc|]. split; [|reflexivity].
    apply seq_inv. exists (gw ++ d ++ i2), c. split; [apply flag_inv; eauto|].
    apply seq_inv. exists (d ++ i2), c. split; [rewrite alt_inv, !word_inv by reflexivity; destruct G; [left|right]; eauto|].
    apply seq_inv. exists i2, c. split; [apply star_dot_inv; eauto|]. apply look_g_inv; auto.
Qed.

Lemma right_inv i c i2 c2 : rm r_right i c i2 c2 <->
  (i2 = i /\ c2 = c) \/
  exists m r, i = m ++ r ++ i2 /\ and_between m /\ (exists a r', r = a :: r' /\ a <> " "%char /\ r' <> [] /\ oneline r') /\ ahead_r i2 /\ c2 = (3, r) :: c.
Proof.
  unfold r_right, ROpt. rewrite alt_inv, eps_inv. split.
  - intros [H|H]; [right|now left]. apply seq_inv in H as (i1 & c1 & H1 & H2). apply and_inv in H1 as (m & -> & M & ->).
    apply grp_inv in H2 as (r & c3 & -> & H & ->). apply seq_inv in H as (i3 & c4 & H3 & H4).
    apply nonsp_inv in H3 as (a & E & Na & ->). apply seq_inv in H4 as (i5 & c5 & H5 & H6). apply plus_dot_inv in H5 as (r' & -> & O & Nm & ->).
    apply look_r_inv in H6 as (-> & -> & A). exists m, r. repeat (split; [auto|]); [|auto].
    exists a, r'. split; [|auto]. apply app_inv_tail with i5. now rewrite E.
  - intros [H|(m & r & -> & M & (a & r' & -> & Na & N & O) & A & ->)]; [now right|left].
    apply seq_inv. eexists. exists c. split; [apply and_inv; eauto|]. apply grp_inv. eexists. exists c. split; [reflexivity|]. split; [|reflexivity].
    apply seq_inv. exists (r' ++ i2), c. split; [apply nonsp_inv; exists a; auto|]. apply seq_inv. exists i2, c. split; [apply plus_dot_inv; eauto|].
    apply look_r_inv; auto.
Qed.

Lemma tail_inv i c i2 c2 : rm r_tail i c i2 c2 <-> i2 = [] /\ oneline i /\ c2 = (4, i) :: c.
Proof.
  unfold r_tail. rewrite seq_inv. split.
  - intros (i1 & c1 & H1 & H2). apply end_inv in H2 as (-> & -> & ->). apply grp_inv in H1 as (t & c3 & -> & H & ->).
    rewrite app_nil_r in *. apply star_dot_inv in H as (w & E & O & ->). rewrite app_nil_r in E. subst. auto.
  - intros (-> & O & ->). exists [], ((4, i) :: c). split; [|now apply end_inv]. apply grp_inv. exists i, c. rewrite app_nil_r. split; [auto|]. split; [|auto].
    apply star_dot_inv. exists i. rewrite app_nil_r. auto.
Qed.
