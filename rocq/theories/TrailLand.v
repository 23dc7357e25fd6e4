(** White space behind a text (C04): where tokens end. *)
From Verif Require Import Query Spec SpecTrail PegProps PegSpec PegEquiv TextLemmas LexProofs TrailLex.
From Verif Require WhitePeg.

Definition edge (r : text) : Prop := match r with [] => True | c :: _ => is_idchar c = false end.
(** from a place where a word may start to another one *)
Definition stop (c r : text) : Prop := forall a, bound a \/ edge (c ++ r) -> bound (a ++ c) \/ edge r.
Definition halt (c r : text) : Prop := forall a, bound (a ++ c) \/ edge r.
Definition firm (c : text) : Prop := exists x y, c = x ++ [y] /\ (is_idchar y = false \/ is_digit y = true).
Lemma stop_nil r : stop [] r.
Proof. intros a H. now rewrite app_nil_r. Qed.
Lemma stop_app a b r : stop a (b ++ r) -> stop b r -> stop (a ++ b) r.
Proof. intros A B x H. rewrite app_assoc. apply B, A. now rewrite app_assoc. Qed.
Lemma halt_stop c r : halt c r -> stop c r.
Proof. intros H a _. apply H. Qed.
Lemma halt_app a b r : halt b r -> halt (a ++ b) r.
Proof. intros H x. rewrite app_assoc. apply H. Qed.
Lemma firm_halt c r : firm c -> halt c r.
Proof. intros (x & y & -> & F) a. left. rewrite app_assoc. now apply bound_mark. Qed.
Lemma edge_halt c r : edge r -> halt c r.
Proof. intros E a. now right. Qed.
Lemma firm_app a b : firm b -> firm (a ++ b).
Proof. intros (x & y & -> & F). exists (a ++ x), y. now rewrite app_assoc. Qed.
Definition first_id (s : text) : bool := match s with c :: _ => is_idchar c | [] => false end.
Definition glued (v : text) : Prop := exists w, In w glued_words /\ upper v = upper (L w).
Lemma glued_first v : glued v -> exists c x, v = c :: x /\ is_idchar c = true.
Proof.
  intros (w & I & U). assert (F : forallb (fun w => first_id (upper (L w))) glued_words = true) by (vm_compute; reflexivity).
  rewrite forallb_forall in F. specialize (F _ I). rewrite <- U in F. destruct v as [|c v]; [discriminate|]. exists c, v. split; [reflexivity|].
  cbn in F. destruct (is_idchar c) eqn:E; [reflexivity|]. exfalso. destruct c as [[] [] [] [] [] [] [] []]; try discriminate E; discriminate F.
Qed.
Lemma glued_stop v r : glued v -> stop v r.
Proof.
  intros G a [B|E].
  - left. destruct G as (w & I & U). now apply bound_word with w.
  - exfalso. destruct (glued_first v G) as (c & x & -> & C). cbn in E. now rewrite C in E.
Qed.
(** words of the grammar *)
Definition firm_charb (c : ascii) : bool := negb (is_idchar c) || is_digit c.
Lemma firm_upc c : firm_charb (upc c) = firm_charb c.
Proof. destruct c as [[] [] [] [] [] [] [] []]; reflexivity. Qed.
Definition landb (s : text) : bool :=
  match rev s with c :: _ => firm_charb c | [] => true end || existsb (fun w => text_eqb (upper s) (upper (L w))) glued_words.
Lemma strip_exact s i m r : strip false s i = Some (m, r) -> m = s.
Proof.
  revert i m r. induction s as [|a s IH]; intros i m r E; [injection E as <- _; reflexivity|].
  destruct i as [|c i]; [discriminate|]. cbn in E. destruct (Ascii.eqb a c) eqn:A; [|discriminate]. destruct (strip false s i) as [[u v]|] eqn:S; [|discriminate]. injection E as <- _. apply Ascii.eqb_eq in A. subst. f_equal. eauto.
Qed.
Lemma strip_land nc s i m r : landb s = true -> strip nc s i = Some (m, r) -> i = m ++ r /\ stop m r.
Proof.
  intros H E. split; [now apply strip_rest in E|]. assert (U : upper m = upper s).
  { destruct nc; [now apply strip_nc_iff in E|]. now rewrite (strip_exact _ _ _ _ E). }
  unfold landb in H. apply orb_true_iff in H as [H|H].
  - destruct s as [|c s _] using rev_ind; [destruct m; [apply stop_nil|discriminate]|]. rewrite rev_unit in H. destruct m as [|d m _] using rev_ind; [destruct s; discriminate|].
    unfold upper in U. rewrite !map_app in U. apply app_inj_tail in U as [_ U]. apply halt_stop, firm_halt. exists m, d. split; [reflexivity|]. cbn in U.
    rewrite <- firm_upc, <- U, firm_upc in H. unfold firm_charb in H. apply orb_true_iff in H. now rewrite negb_true_iff in H.
  - apply existsb_exists in H as (w & I & E'). apply text_eqb_iff in E'. apply glued_stop. exists w. split; [exact I|now rewrite U].
Qed.

(** * Rules for bytes *)
Lemma sev_suffix e acc i o : sev e acc i o -> match o with SOk _ r => exists c, i = c ++ r | _ => True end.
Proof.
  induction 1; auto; try (now exists []); try (now eexists [_]); try (match goal with E : strip _ _ _ = _ |- _ => apply strip_rest in E; eauto end);
    try (destruct o; auto); repeat match goal with H : exists c, _ = _ ++ _ |- _ => destruct H as (? & ->) end; rewrite ?app_assoc; eauto.
Qed.
Definition lands (e : se) : Prop := forall acc i a r, sev e acc i (SOk a r) -> exists c, i = c ++ r /\ stop c r.
Definition halts (e : se) : Prop := forall acc i a r, sev e acc i (SOk a r) -> exists c, i = c ++ r /\ halt c r.
Lemma halts_lands e : halts e -> lands e.
Proof. intros H acc i a r S. destruct (H _ _ _ _ S) as (c & E & K). eauto using halt_stop. Qed.
Lemma lands_seq a b : lands a -> lands b -> lands (SSeq a b).
Proof.
  intros A B acc i v r S. inversion S; subst. match goal with X : sev a _ _ _ |- _ => apply A in X as (c & -> & X) end. match goal with X : sev b _ _ _ |- _ => apply B in X as (d & -> & ?) end.
  exists (c ++ d). rewrite app_assoc. eauto using stop_app.
Qed.
Lemma halts_seq a b : halts b -> halts (SSeq a b).
Proof.
  intros B acc i v r S. inversion S; subst. match goal with X : sev a _ _ _ |- _ => apply sev_suffix in X as (c & ->) end. match goal with X : sev b _ _ _ |- _ => apply B in X as (d & -> & ?) end.
  exists (c ++ d). rewrite app_assoc. eauto using halt_app.
Qed.
Lemma lands_seq3 a b c : halts b -> lands c -> lands (SSeq a (SSeq b c)).
Proof.
  intros B C acc i v r S. inversion S; subst. match goal with X : sev a _ _ _ |- _ => apply sev_suffix in X as (x & ->) end. match goal with X : sev (SSeq b c) _ _ _ |- _ => inversion X; subst end.
  match goal with X : sev b _ _ _ |- _ => apply B in X as (y & -> & X) end. match goal with X : sev c _ _ _ |- _ => apply C in X as (z & -> & ?) end.
  exists ((x ++ y) ++ z). rewrite <- !app_assoc. split; [reflexivity|]. rewrite app_assoc. apply stop_app; [|assumption]. now apply halt_stop, halt_app.
Qed.
Lemma halts_exp a b : halts b -> halts (SExp a b).
Proof.
  intros B acc i v r S. inversion S; subst. match goal with X : sev a _ _ _ |- _ => apply sev_suffix in X as (c & ->) end. match goal with X : sev b _ _ _ |- _ => apply B in X as (d & -> & ?) end.
  exists (c ++ d). rewrite app_assoc. eauto using halt_app.
Qed.
Lemma lands_exp a b : lands a -> lands b -> lands (SExp a b).
Proof.
  intros A B acc i v r S. inversion S; subst. match goal with X : sev a _ _ _ |- _ => apply A in X as (c & -> & X) end. match goal with X : sev b _ _ _ |- _ => apply B in X as (d & -> & ?) end.
  exists (c ++ d). rewrite app_assoc. eauto using stop_app.
Qed.
Lemma lands_alt a b : lands a -> lands b -> lands (SAlt a b).
Proof. intros A B acc i v r S. inversion S; subst; eauto. Qed.
Lemma halts_alt a b : halts a -> halts b -> halts (SAlt a b).
Proof. intros A B acc i v r S. inversion S; subst; eauto. Qed.
Lemma lands_opt a : lands a -> lands (SOpt a).
Proof. intros A acc i v r S. inversion S; subst; eauto. exists []. split; [reflexivity|apply stop_nil]. Qed.
Lemma lands_hold a : lands a -> lands (SHold a).
Proof. intros A acc i v r S. inversion S; subst; eauto. Qed.
Lemma halts_hold a : halts a -> halts (SHold a).
Proof. intros A acc i v r S. inversion S; subst; eauto. Qed.
Lemma lands_diff a b : lands a -> lands (SDiff a b).
Proof. intros A acc i v r S. inversion S; subst; eauto. Qed.
Lemma halts_diff a b : halts a -> halts (SDiff a b).
Proof. intros A acc i v r S. inversion S; subst; eauto. Qed.
Lemma lands_map m a : lands a -> lands (SMap m a).
Proof. intros A acc i v r S. inversion S; subst; eauto. Qed.
Lemma lands_star a : lands a -> lands (SStar a).
Proof.
  intros A acc i v r S. remember (SStar a) as e. remember (SOk v r) as o. revert Heqe v r Heqo. induction S; intros [= ->] v0 r0 E0; inversion E0; subst.
  - exists []. split; [reflexivity|apply stop_nil].
  - apply A in S1 as (c & -> & C). destruct (IHS2 eq_refl _ _ eq_refl) as (d & -> & D). exists (c ++ d). rewrite app_assoc. eauto using stop_app.
Qed.
Lemma lands_plus a : lands a -> lands (SPlus a).
Proof.
  intros A acc i v r S. inversion S; subst. match goal with X : sev a _ _ _ |- _ => apply A in X as (c & -> & X) end. match goal with X : sev (SStar a) _ _ _ |- _ => apply (lands_star a A) in X as (d & -> & ?) end.
  exists (c ++ d). rewrite app_assoc. eauto using stop_app.
Qed.
Lemma halts_plus a : halts a -> halts (SPlus a).
Proof.
  intros A acc i v r S. inversion S; subst. match goal with X : sev a _ _ _ |- _ => apply A in X as (c & -> & X); rename X into Hc end.
  match goal with X : sev (SStar a) _ _ _ |- _ => apply (lands_star a (halts_lands a A)) in X as (d & -> & Hd) end.
  exists (c ++ d). rewrite app_assoc. split; [reflexivity|]. intros x. destruct (Hc x) as [B|E]; rewrite app_assoc; apply Hd; auto.
Qed.
(** all bytes of a class *)
Definition firm_class (f : ascii -> bool) : Prop := forall c, f c = true -> firm_charb c = true.
Lemma halts_chr f : firm_class f -> halts (SChr f).
Proof.
  intros F acc i v r S. inversion S; subst. exists [c]. split; [reflexivity|]. apply firm_halt. exists [], c. split; [reflexivity|].
  match goal with X : f c = true |- _ => apply F in X; unfold firm_charb in X; apply orb_true_iff in X; rewrite negb_true_iff in X; exact X end.
Qed.
Lemma firm_one c : firm_charb c = true -> firm_class (fun x => Ascii.eqb x c).
Proof. intros H d E. apply Ascii.eqb_eq in E. now subst. Qed.
Lemma firm_digit : firm_class is_digit.
Proof. intros c H. unfold firm_charb. rewrite H. now destruct (is_idchar c). Qed.
Lemma halts_one c : firm_charb c = true -> halts (chr c).
Proof. intros H. apply halts_chr. now apply firm_one. Qed.
(** as many bytes of names as there are *)
Lemma halts_many f : (forall c, is_idchar c = true -> f c = true) -> halts (SStar (SChr f)).
Proof.
  intros F acc i v r S. remember (SStar (SChr f)) as e. remember (SOk v r) as o. revert Heqe v r Heqo. induction S; intros [= ->] v0 r0 E0; inversion E0; subst.
  - exists []. split; [reflexivity|]. apply edge_halt. inversion S; subst; cbn; auto. destruct (is_idchar c) eqn:C; auto. apply F in C. congruence.
  - inversion S1; subst. destruct (IHS2 eq_refl _ _ eq_refl) as (d & -> & D). exists (c :: d). split; [reflexivity|]. now apply (halt_app [c]).
Qed.
Lemma halts_ahead f : (forall c, f c = true -> is_idchar c = false) -> halts (SAnd (SChr f)).
Proof.
  intros F acc i v r S. inversion S; subst. exists []. split; [reflexivity|]. apply edge_halt. match goal with X : sev (SChr f) _ _ _ |- _ => inversion X; subst end. cbn. auto.
Qed.
Lemma space_no_id c : is_space c = true -> is_idchar c = false.
Proof. destruct c as [[] [] [] [] [] [] [] []]; intros H; try discriminate H; reflexivity. Qed.
Lemma lands_str nc s : landb s = true -> lands (SStr nc s).
Proof. intros H acc i v r S. inversion S; subst. match goal with E : strip _ _ _ = _ |- _ => apply (strip_land _ _ _ _ _ H) in E; eauto end. Qed.
Lemma lands_lit nc s : landb s = true -> lands (SLit nc s).
Proof. intros H acc i v r S. inversion S; subst. match goal with E : strip _ _ _ = _ |- _ => apply (strip_land _ _ _ _ _ H) in E; eauto end. Qed.
Lemma lands_alts es : (forall e, In e es -> lands e) -> lands (alts es).
Proof.
  induction es as [|e es IH]; cbn [alts]; intros H; [intros acc i v r S; inversion S; discriminate|]. apply lands_alt; [apply H; now left|]. apply IH. intros x I. apply H. now right.
Qed.
Lemma lands_strs ws : forallb (fun w => landb (L w)) ws = true -> lands (strs_nc ws).
Proof. intros P. apply lands_alts. intros e I. apply in_map_iff in I as (w & <- & I). apply lands_str. exact (proj1 (forallb_forall _ _) P w I). Qed.
Lemma lands_strs_cs ws : forallb (fun w => landb (L w)) ws = true -> lands (strs_cs ws).
Proof. intros P. apply lands_alts. intros e I. apply in_map_iff in I as (w & <- & I). apply lands_str. exact (proj1 (forallb_forall _ _) P w I). Qed.

(** * The tokens *)
Lemma halts_then a : halts (SSeq a ahead_space).
Proof. apply halts_seq, halts_ahead, space_no_id. Qed.
Lemma halts_hard a : halts (SExp a ahead_space).
Proof. apply halts_exp, halts_ahead, space_no_id. Qed.
Lemma halts_held_space a : halts (SHold (SSeq a ahead_space)).
Proof. apply halts_hold, halts_then. Qed.
Lemma halts_held_nonid a : halts (SHold (SSeq a ahead_nonid)).
Proof. apply halts_hold, halts_seq, halts_ahead. intros c. apply negb_true_iff. Qed.
Lemma halts_regular : halts s_regular_identifier.
Proof. apply halts_diff, halts_seq, halts_many. auto. Qed.
Lemma halts_delimited : halts s_delimited_identifier.
Proof. apply halts_seq, halts_seq, halts_one. reflexivity. Qed.
Lemma halts_identifier : halts s_identifier.
Proof. apply halts_alt; [apply halts_regular|apply halts_delimited]. Qed.
Lemma halts_map m a : halts a -> halts (SMap m a).
Proof. intros A acc i v r S. inversion S; subst; eauto. Qed.
Lemma halts_tap m : halts (s_tap_upload m).
Proof. apply halts_exp, halts_map, halts_identifier. Qed.
Lemma halts_table m : halts (s_table_name m).
Proof. unfold s_table_name. repeat first [apply halts_tap|apply halts_identifier|apply halts_alt|apply halts_hold|apply halts_seq]. Qed.
Lemma halts_qstar m : halts (s_qualifier_star m).
Proof.
  apply halts_seq. intros acc i v r S. inversion S; subst. match goal with E : strip _ _ _ = _ |- _ => rename E into X end.
  eexists. split; [apply (strip_rest _ _ _ _ _ X)|]. rewrite (strip_exact _ _ _ _ X). apply firm_halt. exists ["."%char], "*"%char. split; [reflexivity|now left].
Qed.
Lemma halts_digits : halts s_unsigned_integer.
Proof. apply halts_plus, halts_chr, firm_digit. Qed.
Lemma lands_exact : lands s_exact_numeric.
Proof.
  apply lands_alt; [apply lands_seq; [apply halts_lands, halts_digits|apply lands_opt, halts_lands, halts_seq, halts_digits]|]. apply halts_lands, halts_seq, halts_digits.
Qed.
Lemma lands_sign : lands s_sign.
Proof. apply lands_alt; apply halts_lands, halts_one; reflexivity. Qed.
Lemma lands_numeric : lands s_unsigned_numeric.
Proof. apply lands_alt; [|apply lands_exact]. apply halts_lands, halts_hold, halts_seq, halts_seq, halts_seq, halts_digits. Qed.
Lemma lands_string : lands s_character_string.
Proof.
  apply lands_seq; [apply halts_lands, halts_one; reflexivity|]. apply lands_seq3; [apply halts_one; reflexivity|]. apply lands_star, halts_lands, halts_hold, halts_seq, halts_seq, halts_seq, halts_one. reflexivity.
Qed.
