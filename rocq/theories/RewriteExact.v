(** For WHERE clauses of the intended form the match is determined. *)
From Verif Require Import Preprocess RegexProps RegexPrio TextLemmas Spec SpecRewrite ParenProofs RewriteProofs RewriteBest RewriteSound.

(** * Comparing two decompositions of a text *)
Lemma app_cmp {A} (a b c d : list A) : a ++ b = c ++ d ->
  (exists e, e <> [] /\ a = c ++ e /\ d = e ++ b) \/ (a = c /\ b = d) \/ (exists e, e <> [] /\ c = a ++ e /\ b = e ++ d).
Proof.
  revert c. induction a as [|x a IH]; intros [|y c]; cbn; intros H.
  - auto. - right; right. exists (y :: c). repeat split; auto. discriminate.
  - left. exists (x :: a). repeat split; auto. discriminate.
  - injection H as -> H. destruct (IH _ H) as [(e & N & -> & ->)|[[-> ->]|(e & N & -> & ->)]]; eauto 8.
Qed.

Lemma upc_blank c : upc c = " "%char -> c = " "%char.
Proof. intros H. apply eq_nc_blank. unfold eq_nc. rewrite H. reflexivity. Qed.

Lemma blank_cons_inv c t : blank (c :: t) <-> c = " "%char /\ blank t.
Proof. split; [intros H; now inversion H|intros [-> H]; now constructor]. Qed.

(** Two runs of blanks in front of something dark. *)
Definition dark_or_nil (t : text) : Prop := match t with [] => True | c :: _ => c <> " "%char end.
Lemma blanks_unique b1 : forall b2 t1 t2, b1 ++ t1 = b2 ++ t2 -> blank b1 -> blank b2 -> dark_or_nil t1 -> dark_or_nil t2 -> b1 = b2 /\ t1 = t2.
Proof.
  induction b1 as [|x b1 IH]; intros [|y b2] t1 t2; cbn; intros H B1 B2 D1 D2; auto.
  - subst t1. inversion B2; subst. cbn in D1. congruence.
  - subst t2. inversion B1; subst. cbn in D2. congruence.
  - injection H as -> H. inversion B1; inversion B2; subst. destruct (IH b2 t1 t2) as [-> ->]; auto.
Qed.

Lemma spelt_dark s w t : spelt s w -> match L s with [] => False | c :: _ => c <> " "%char end -> dark_or_nil (w ++ t).
Proof.
  unfold spelt. destruct (L s) as [|c s']; [tauto|]. destruct w as [|x w]; cbn; [discriminate|]. intros H N ->. injection H as H _. change (upc " "%char) with " "%char in H. congruence.
Qed.
Lemma spelt_len s w : spelt s w -> length w = length (L s).
Proof. unfold spelt. intros H. now rewrite <- H, upper_len. Qed.

Lemma flag_dark f t : flag f -> f <> [] -> dark_or_nil (f ++ t).
Proof. intros F N. destruct F as [|d b1 b2 D _ _]; [congruence|]. cbn. destruct D as [ -> | -> ]; discriminate. Qed.
Lemma gw_dark g t : geometry_word g -> dark_or_nil (g ++ t).
Proof. intros [G|G]; eapply spelt_dark; try exact G; cbn; discriminate. Qed.
Lemma flag_gw_dark f g t : flag f -> geometry_word g -> dark_or_nil (f ++ g ++ t).
Proof. intros F G. destruct f; [exact (gw_dark g t G)|]. apply flag_dark; [exact F|discriminate]. Qed.

(** The characters of AND, blanks, flags. *)
Definition andish (c : ascii) : Prop :=
  c = " "%char \/ upc c = "A"%char \/ upc c = "N"%char \/ upc c = "D"%char \/ c = "0"%char \/ c = "1"%char \/ c = "="%char.
Lemma blank_andish b : blank b -> Forall andish b.
Proof. intros H. eapply Forall_impl; [|exact H]. intros c ->. now left. Qed.
Lemma and_three a : spelt "AND" a -> exists x y z, a = [x; y; z] /\ upc x = "A"%char /\ upc y = "N"%char /\ upc z = "D"%char.
Proof. unfold spelt. destruct a as [|x [|y [|z [|u a]]]]; cbn; try discriminate. intros H. injection H as H1 H2 H3. eauto 10. Qed.
Lemma between_andish m : and_between m -> Forall andish m.
Proof.
  intros (b1 & a & b2 & -> & B1 & A & B2). apply and_three in A as (x & y & z & -> & X & Y & Z).
  repeat (apply Forall_app; split); try now apply blank_andish. unfold andish. repeat constructor; tauto.
Qed.
Lemma flag_andish f : flag f -> Forall andish f.
Proof.
  intros [|d b1 b2 D B1 B2]; [constructor|]. constructor; [unfold andish; tauto|]. apply Forall_app. split; [now apply blank_andish|].
  constructor; [unfold andish; tauto|now apply blank_andish].
Qed.
Lemma gw_not_andish g : geometry_word g -> exists c r, g = c :: r /\ ~ andish c.
Proof.
  unfold geometry_word, spelt. intros [G|G]; (destruct g as [|c r]; [discriminate|]; exists c, r; split; [reflexivity|]; cbn in G; injection G as G _;
    unfold andish; intros [ -> |[K|[K|[K|[ -> |[ -> | -> ]]]]]]; try discriminate; rewrite G in K; discriminate).
Qed.

(** The letters A: one in AND. *)
Definition is_A (c : ascii) : bool := Ascii.eqb (upc c) "A".
Definition countA (t : text) : nat := length (filter is_A t).
Lemma countA_app a b : countA (a ++ b) = countA a + countA b.
Proof. unfold countA. now rewrite filter_app, app_length. Qed.
Lemma countA_blank b : blank b -> countA b = 0.
Proof. intros H. induction H as [|c b -> H IH]; [reflexivity|]. exact IH. Qed.
Lemma countA_between m : and_between m -> countA m = 1.
Proof.
  intros (b1 & a & b2 & -> & B1 & A & B2). rewrite !countA_app, (countA_blank b1), (countA_blank b2) by assumption.
  apply and_three in A as (x & y & z & -> & X & Y & Z). unfold countA, is_A. cbn [filter]. rewrite X, Y, Z. reflexivity.
Qed.
Lemma countA_flag f : flag f -> countA f = 0.
Proof.
  intros [|d b1 b2 D B1 B2]; [reflexivity|]. change (d :: b1 ++ "="%char :: b2) with ([d] ++ b1 ++ ["="%char] ++ b2).
  rewrite !countA_app, (countA_blank b1), (countA_blank b2) by assumption. destruct D as [ -> | -> ]; reflexivity.
Qed.

(** A geometry word inside a geometry word. *)
Fixpoint compat (a b : text) : bool :=
  match a, b with x :: a', y :: b' => Ascii.eqb x y && compat a' b' | _, _ => true end.
Lemma compat_app a : forall b x y, a ++ x = b ++ y -> compat a b = true.
Proof.
  induction a as [|c a IH]; intros [|d b] x y; cbn; intros H; auto. injection H as -> H. rewrite Ascii.eqb_refl. eapply IH; eauto.
Qed.
(** [a] does not start inside [b] (at a positive offset). *)
Definition no_overlap (b a : text) : bool := forallb (fun k => negb (compat (skipn k b) a)) (seq 1 (length b - 1)).
Lemma no_overlap_spec u0 u g0 t0 p g t : no_overlap u0 u = true -> upper g0 = u0 -> upper g = u -> g0 ++ t0 = p ++ g ++ t -> p <> [] ->
  exists p', p = g0 ++ p' /\ t0 = p' ++ g ++ t.
Proof.
  intros O G0 G E N. destruct (app_cmp _ _ _ _ E) as [(e & Ne & E1 & E2)|[[E1 E2]|(e & Ne & E1 & E2)]].
  - exfalso. unfold no_overlap in O. rewrite forallb_forall in O. specialize (O (length p)).
    assert (K : skipn (length p) u0 = upper e).
    { rewrite <- G0, E1, upper_app, <- (upper_len p), skipn_app, skipn_all, Nat.sub_diag. reflexivity. }
    rewrite K in O. apply (f_equal upper) in E2. rewrite !upper_app, G in E2. symmetry in E2. apply compat_app in E2.
    rewrite E2 in O. apply (f_equal (@length _)) in E1. rewrite app_length in E1. rewrite <- G0, upper_len in O.
    discriminate O. apply in_seq. destruct p; [congruence|]. destruct e; [congruence|]. cbn in *. lia.
  - exists []. subst. rewrite app_nil_r. auto.
  - exists e. auto.
Qed.
Lemma gw_in_gw g0 t0 p g t : geometry_word g0 -> geometry_word g -> g0 ++ t0 = p ++ g ++ t -> p <> [] ->
  exists p', p = g0 ++ p' /\ t0 = p' ++ g ++ t.
Proof.
  intros [G0|G0] [G|G] E N; (eapply no_overlap_spec; [|exact G0|exact G|exact E|exact N]); reflexivity.
Qed.

Lemma oneline_app a b : oneline (a ++ b) <-> oneline a /\ oneline b.
Proof. apply Forall_app. Qed.

Lemma behind_ahead_r tl : behind tl -> ahead_r tl.
Proof.
  intros [B|(b & k & r & -> & B & K)].
  - exists tl. auto.
  - destruct K as [K|K].
    + exists (" "%char :: b). split; [now constructor|]. right. exists k, r. auto.
    + exists b. split; [exact B|]. right. exists (" "%char :: k), r. split.
      * change ((" "%char :: b) ++ k ++ r = b ++ [" "%char] ++ k ++ r). rewrite (app_assoc b [" "%char]). f_equal.
        clear -B. induction B as [|c b -> B IH]; [reflexivity|]. cbn. cbn in IH. now rewrite IH.
      * unfold spelt in *. cbn [upper map]. unfold upper in K. destruct K as [K|K]; rewrite K; auto.
Qed.
Lemma behind_ahead_g tl : behind tl -> ahead_g tl.
Proof.
  intros [B|(b & k & r & -> & B & K)].
  - exists tl. auto.
  - exists (" "%char :: b). split; [now constructor|]. right. exists k, r. split; [reflexivity|]. tauto.
Qed.
Lemma between_ahead_g m t : and_between m -> ahead_g (m ++ t).
Proof.
  intros (b1 & a & b2 & -> & B1 & A & B2). exists b1. split; [exact B1|]. right. exists a, (b2 ++ t). rewrite <- !app_assoc. auto.
Qed.

(** The right part, as the specification has it. *)
Definition right_spec (m2 r : text) : Prop :=
  (m2 = [] /\ r = []) \/
  (and_between m2 /\ breaks m2 /\ starts_dark r /\ ends_dark r /\ (1 < length r)%nat /\
   ~ occurs_nc (L "HAVING") r /\ ~ occurs_nc (L " GROUP") r /\ ~ occurs_nc (L " ORDER") r).

Lemma right_rm m2 r tl c : right_spec m2 r -> behind tl -> oneline (m2 ++ r ++ tl) ->
  exists c2, rm (RSeq r_right r_tail) (m2 ++ r ++ tl) c [] c2.
Proof.
  intros R B O. rewrite !oneline_app in O. destruct O as (O1 & O2 & O3).
  destruct R as [(-> & ->)|(M & _ & (a & r' & -> & Na) & _ & Lr & _)].
  - eexists. apply seq_inv. exists tl, c. split; [apply right_inv; now left|]. apply tail_inv. repeat split; auto.
  - eexists. apply seq_inv. exists tl, ((3, a :: r') :: c). split.
    + apply right_inv. right. exists m2, (a :: r'). repeat split; auto; [|now apply behind_ahead_r].
      exists a, r'. repeat split; auto; [|now inversion O2]. destruct r'; [cbn in Lr; lia|discriminate].
    + apply tail_inv. repeat split; auto.
Qed.
Lemma right_ahead_g m2 r tl : right_spec m2 r -> behind tl -> ahead_g (m2 ++ r ++ tl).
Proof.
  intros [(-> & ->)|(M & _)] B; [now apply behind_ahead_g|]. now apply between_ahead_g.
Qed.
Lemma rest_rm m1 f gw d m2 r tl c : and_between m1 -> flag f -> geometry_word gw -> oneline d -> right_spec m2 r -> behind tl ->
  oneline (m2 ++ r ++ tl) -> exists c2, rm r_rest (m1 ++ f ++ gw ++ d ++ m2 ++ r ++ tl) c [] c2.
Proof.
  intros M F G Od R B O. destruct (right_rm m2 r tl ((2, f ++ gw ++ d) :: c) R B O) as (c2 & K). exists c2.
  apply seq_inv. eexists. exists c. split; [apply and_inv; eauto|]. apply seq_inv. eexists. eexists. split; [|exact K].
  apply geom_inv. exists f, gw, d. repeat split; auto. now apply right_ahead_g.
Qed.

(** Uniqueness of the separators. *)
Lemma between_unique m m' t t' : m ++ t = m' ++ t' -> and_between m -> and_between m' -> dark_or_nil t -> dark_or_nil t' -> m = m' /\ t = t'.
Proof.
  intros E (b1 & a & b2 & -> & B1 & A & B2) (b1' & a' & b2' & -> & B1' & A' & B2') D D'. rewrite <- !app_assoc in E.
  apply blanks_unique in E as [-> E]; auto; try (eapply spelt_dark; eauto; cbn; discriminate).
  apply app_eq_len in E as [-> E]; [|now rewrite (spelt_len _ _ A), (spelt_len _ _ A')].
  apply blanks_unique in E as [-> ->]; auto.
Qed.
Lemma flag_gw_unique f f' t t' : f ++ t = f' ++ t' -> flag f -> flag f' ->
  (exists c r, t = c :: r /\ ~ andish c) -> (exists c r, t' = c :: r /\ ~ andish c) -> f = f' /\ t = t'.
Proof.
  intros E F F' (c & u & -> & Nc) (c' & u' & -> & Nc'). apply flag_andish in F, F'.
  destruct (app_cmp _ _ _ _ E) as [(e & Ne & -> & E2)|[K|(e & Ne & -> & E2)]]; auto; exfalso.
  - destruct e as [|x e]; [congruence|]. injection E2 as -> _. apply Forall_app in F as [_ F]. inversion F; subst. auto.
  - destruct e as [|x e]; [congruence|]. injection E2 as -> _. apply Forall_app in F' as [_ F']. inversion F'; subst. auto.
Qed.

Lemma ends_dark_app a b : ends_dark (a ++ b) -> b <> [] -> ends_dark b.
Proof.
  intros (r & c & E & N) Nb. destruct b as [|y b'] using rev_ind; [congruence|]. clear IHb'. rewrite app_assoc in E. apply app_inj_tail in E as [_ ->].
  exists b', c. auto.
Qed.
Lemma ends_dark_blank b : ends_dark b -> blank b -> False.
Proof. intros (r & c & -> & N) B. apply Forall_app in B as [_ B]. inversion B; subst. congruence. Qed.

(** A word found at the beginning of [e ++ t], where [e] ends dark and [t] is empty or starts with a blank. *)
Lemma word_in_dark e t k r : e <> [] -> breaks t -> e ++ t = k ++ r -> Forall (fun c => c <> " "%char) (tl k) -> k <> [] ->
  exists s, e = k ++ s.
Proof.
  intros Ne Bt E Nk Nk0. destruct (app_cmp _ _ _ _ E) as [(s & _ & -> & _)|[[-> _]|(s & Ns & -> & Et)]].
  - eauto. - exists []. now rewrite app_nil_r.
  - exfalso. destruct Bt as [ -> |(u & -> )].
    + destruct s; [congruence|discriminate].
    + destruct s as [|x s]; [congruence|]. injection Et as <- _. destruct e as [|y e]; [congruence|]. cbn in Nk. apply Forall_app in Nk as [_ Nk]. inversion Nk; subst. congruence.
Qed.
Lemma spelt_nonblank s w : Forall (fun c => c <> " "%char) (L s) -> spelt s w -> Forall (fun c => c <> " "%char) w.
Proof.
  unfold spelt. intros F E. rewrite <- E in F. unfold upper in F. rewrite Forall_map in F. eapply Forall_impl; [|exact F]. cbn. intros c K ->. now apply K.
Qed.
Lemma spelt_nonblank_tl s w : Forall (fun c => c <> " "%char) (tl (L s)) -> spelt s w -> Forall (fun c => c <> " "%char) (tl w).
Proof.
  unfold spelt. intros F E. rewrite <- E in F. destruct w as [|x w]; [constructor|]. cbn in *. rewrite Forall_map in F. eapply Forall_impl; [|exact F]. cbn. intros c K ->. now apply K.
Qed.
Lemma nonblank_check s : forallb (fun c => negb (Ascii.eqb c " ")) s = true -> Forall (fun c => c <> " "%char) s.
Proof. rewrite forallb_forall, Forall_forall. intros H x Hx ->. specialize (H _ Hx). discriminate. Qed.

(** In [e ++ t] as above, blanks and then a keyword: the keyword is in [e]. *)
Lemma keyword_inside e t b k r s : e <> [] -> ends_dark e -> breaks t -> blank b -> e ++ t = b ++ k ++ r -> spelt s k -> L s <> [] ->
  Forall (fun c => c <> " "%char) (tl (L s)) -> occurs_nc (L s) e.
Proof.
  intros Ne De Bt Bb E S Ns Fs. destruct (app_cmp _ _ _ _ E) as [(e' & Ne' & -> & E2)|[[-> _]|(e' & _ & -> & _)]].
  - symmetry in E2. apply word_in_dark in E2 as (u & ->); auto.
    + exists b, k, u. split; [now rewrite ?app_assoc|]. unfold spelt in S. rewrite S. symmetry. clear -S. rewrite <- S. clear. unfold upper. rewrite map_map. apply map_ext. intros a. all_bytes a; reflexivity.
    + eapply spelt_nonblank_tl; eauto.
    + intros ->. unfold spelt in S. cbn in S. congruence.
  - exfalso. eapply ends_dark_blank; eauto.
  - exfalso. apply Forall_app in Bb as [Bb _]. eapply ends_dark_blank; eauto.
Qed.
