(** Letter case does not matter: the preprocessing (C12). *)
From Verif Require Import Query TextLemmas SpecCase CaseLex.

(** * The regular expression *)
(** Every character class of [r] ignores letter case. *)
Fixpoint cire (r : re) : Prop :=
  match r with
  | RChr f => cinv f
  | REps | REnd => True
  | RSeq a b | RAlt a b => cire a /\ cire b
  | RStar _ a | RGrp _ a | RLook a => cire a
  end.
Lemma cire_ci c : cire (RCi c).
Proof. cbn. intros x y H. unfold eq_nc. now rewrite H. Qed.
Lemma cire_lit s : cire (RLit s).
Proof. induction s as [|c s IH]; [exact I|split; [apply cire_ci|exact IH]]. Qed.
Lemma cire_dot : cire RDot.
Proof. unfold cire, RDot. cinv. Qed.
Lemma cire_nonsp : cire r_nonsp.
Proof. unfold cire, r_nonsp. cinv. Qed.
Lemma cire_alts l : Forall cire l -> cire (RAlts l).
Proof.
  induction 1 as [|a l Ha Hl IH]; [exact I|]. destruct l as [|b l]; [exact Ha|]. split; [exact Ha|exact IH].
Qed.
Ltac ci :=
  repeat first [ exact I | apply cire_ci | apply cire_lit | apply cire_dot | apply cire_nonsp
               | apply cire_alts; repeat constructor
               | match goal with |- cire (RSeq _ _) => split | |- cire (RAlt _ _) => split
                 | |- cire (RStar _ ?a) => change (cire a) | |- cire (RGrp _ ?a) => change (cire a)
                 | |- cire (RLook ?a) => change (cire a) | |- cire (RPlus _ ?a) => split; [|change (cire a)]
                 | |- cire (ROpt ?a) => split | |- cire (r_word _) => apply cire_lit
                 | |- cire ?a => unfold a end ].
Lemma cire_regex : cire the_regex.
Proof. ci. Qed.

(** * The matcher *)
Definition caps_like (c c' : caps) : Prop :=
  Forall2 (fun p p' => fst p = fst p' /\ ueq (snd p) (snd p')) c c'.
Definition orel {X : Type} (R : X -> X -> Prop) (o o' : option X) : Prop :=
  match o, o' with Some x, Some y => R x y | None, None => True | _, _ => False end.
Lemma ueq_firstn n a b : ueq a b -> ueq (firstn n a) (firstn n b).
Proof.
  revert a b. induction n as [|n IH]; intros a b H; [reflexivity|].
  destruct a as [|c a]; [apply ueq_nil in H; subst; reflexivity|].
  destruct (ueq_cons _ _ _ H) as (d & b' & -> & U & H'). cbn [firstn]. apply ueq_cons_i; auto.
Qed.
Lemma upto_ueq i i' r r' : ueq i i' -> ueq r r' -> ueq (upto i r) (upto i' r').
Proof. intros H H'. unfold upto. rewrite (ueq_len _ _ H), (ueq_len _ _ H'). now apply ueq_firstn. Qed.

Section Matcher.
Context {X : Type} (R : X -> X -> Prop).
Definition klike (k k' : text -> caps -> option X) : Prop :=
  forall i i' c c', ueq i i' -> caps_like c c' -> orel R (k i c) (k' i' c').
Lemma mstar_like (b : text -> caps -> (text -> caps -> option X) -> option X) g :
  (forall i i' c c' k k', ueq i i' -> caps_like c c' -> klike k k' -> orel R (b i c k) (b i' c' k')) ->
  forall n i i' c c' k k', ueq i i' -> caps_like c c' -> klike k k' ->
  orel R (mstar b g n i c k) (mstar b g n i' c' k').
Proof.
  intros Hb. induction n as [|n IH]; intros i i' c c' k k' Hi Hc Hk; cbn [mstar].
  - pose proof (Hk _ _ _ _ Hi Hc) as H. destruct g; [exact H|].
    destruct (k i c), (k' i' c'); cbn in *; auto.
  - pose proof (Hk _ _ _ _ Hi Hc) as H.
    assert (B : orel R
      (b i c (fun i1 c1 => if (length i1 <? length i)%nat then mstar b g n i1 c1 k else None))
      (b i' c' (fun i1 c1 => if (length i1 <? length i')%nat then mstar b g n i1 c1 k' else None))).
    { apply Hb; auto. intros i1 i1' c1 c1' Hi1 Hc1. rewrite (ueq_len _ _ Hi1), (ueq_len _ _ Hi).
      destruct (length i1' <? length i')%nat; [auto|exact I]. }
    destruct g.
    + destruct (b i c _), (b i' c' _); cbn in *; auto; contradiction.
    + destruct (k i c), (k' i' c'); cbn in *; auto; contradiction.
Qed.
End Matcher.
Lemma mt_like r : cire r -> forall (X : Type) (R : X -> X -> Prop) i i' c c' k k',
  ueq i i' -> caps_like c c' -> klike R k k' -> orel R (mt r i c k) (mt r i' c' k').
Proof.
  induction r as [f| |a IHa b IHb|a IHa b IHb|g a IHa|n a IHa|a IHa|]; intros Hr X R i i' c c' k k' Hi Hc Hk; cbn [mt].
  - destruct i as [|x i]; [apply ueq_nil in Hi; subst; exact I|].
    destruct (ueq_cons _ _ _ Hi) as (y & j & -> & U & Hj). rewrite (Hr _ _ U). destruct (f y); [now apply Hk|exact I].
  - now apply Hk.
  - destruct Hr as [Ha Hb]. apply IHa; auto. intros i1 i1' c1 c1' H1 H2. now apply IHb.
  - destruct Hr as [Ha Hb]. pose proof (IHa Ha X R _ _ _ _ _ _ Hi Hc Hk) as H1. pose proof (IHb Hb X R _ _ _ _ _ _ Hi Hc Hk) as H2.
    destruct (mt a i c k), (mt a i' c' k'); cbn in *; auto; contradiction.
  - rewrite (ueq_len _ _ Hi). apply mstar_like; auto; intros; now apply IHa.
  - apply IHa; auto. intros i1 i1' c1 c1' H1 H2. apply Hk; auto. constructor; [|exact H2]. split; [reflexivity|now apply upto_ueq].
  - pose proof (IHa Hr caps caps_like i i' c c' (fun _ c' => Some c') (fun _ c' => Some c') Hi Hc) as H.
    assert (K : klike caps_like (fun (_ : text) c' => Some c') (fun (_ : text) c' => Some c')) by (intros ? ? ? ? _ Hcc; exact Hcc).
    specialize (H K). destruct (mt a i c _), (mt a i' c' _); cbn in H; try contradiction; [now apply Hk|exact I].
  - destruct i as [|x i]; [apply ueq_nil in Hi; subst; now apply Hk|].
    destruct (ueq_cons _ _ _ Hi) as (y & j & -> & _). exact I.
Qed.

Definition rm_like (a b : rmatch) : Prop :=
  ueq (m_pre a) (m_pre b) /\ ueq (m_all a) (m_all b) /\ ueq (m_suf a) (m_suf b) /\ caps_like (m_caps a) (m_caps b).
Lemma search_from_like r : cire r -> forall i i' p p', ueq i i' -> ueq p p' -> orel rm_like (search_from r p i) (search_from r p' i').
Proof.
  intros Hr. induction i as [|x i IH]; intros i' p p' Hi Hp.
  - apply ueq_nil in Hi. subst. cbn [search_from].
    pose proof (mt_like r Hr (text * caps) (fun x y => ueq (fst x) (fst y) /\ caps_like (snd x) (snd y)) [] [] [] []
      (fun i' c' => Some (i', c')) (fun i' c' => Some (i', c')) eq_refl (Forall2_nil _)) as H.
    assert (K : klike (fun x y : text * caps => ueq (fst x) (fst y) /\ caps_like (snd x) (snd y))
      (fun i' c' => Some (i', c')) (fun i' c' => Some (i', c'))) by (intros ? ? ? ? ? ?; split; assumption).
    specialize (H K). destruct (mt r [] [] _) as [[j c]|]; [|exact I]. destruct H as [_ H]. repeat split; auto.
  - destruct (ueq_cons _ _ _ Hi) as (y & j & -> & U & Hj). cbn [search_from].
    pose proof (mt_like r Hr (text * caps) (fun x y => ueq (fst x) (fst y) /\ caps_like (snd x) (snd y)) (x :: i) (y :: j) [] []
      (fun i' c' => Some (i', c')) (fun i' c' => Some (i', c')) Hi (Forall2_nil _)) as H.
    assert (K : klike (fun x y : text * caps => ueq (fst x) (fst y) /\ caps_like (snd x) (snd y))
      (fun i' c' => Some (i', c')) (fun i' c' => Some (i', c'))) by (intros ? ? ? ? ? ?; split; assumption).
    specialize (H K). destruct (mt r (x :: i) [] _) as [[a c]|], (mt r (y :: j) [] _) as [[a' c']|]; cbn in H; try contradiction.
    + destruct H as [H1 H2]. repeat split; cbn [m_pre m_all m_suf m_caps]; auto. now apply upto_ueq.
    + apply IH; auto. apply ueq_app; [exact Hp|]. apply ueq_cons_i; [exact U|reflexivity].
Qed.
Lemma search_like i i' : ueq i i' -> orel rm_like (search the_regex i) (search the_regex i').
Proof. intros H. apply search_from_like; [exact cire_regex|exact H|reflexivity]. Qed.
Lemma cap_like k c c' : caps_like c c' -> ueq (cap_str k c) (cap_str k c').
Proof.
  unfold cap_str. induction 1 as [|[n a] [n' a'] c c' [E H] _ IH]; [reflexivity|]. cbn [fst snd] in *. subst. cbn [cap].
  destruct (Nat.eqb k n'); [exact H|exact IH].
Qed.

(** * The replacement text *)
Lemma group_like a b n k : rm_like a b -> ueq (group_text a n k) (group_text b n k).
Proof.
  intros (_ & H & _ & C). unfold group_text. destruct (n <? k)%nat; [reflexivity|]. destruct k; [exact H|now apply cap_like].
Qed.
Lemma digit_same c d : is_digit c = true -> upc c = upc d -> c = d.
Proof.
  intros H U. assert (C : caseless d = true).
  { rewrite (cinv_digit _ _ U) in H. unfold caseless, is_letter, is_upper, is_lower. unfold is_digit in H.
    apply andb_prop in H as [H1 H2]. apply N.leb_le in H1, H2. apply negb_true_iff, orb_false_iff.
    split; apply andb_false_iff; left; apply N.leb_gt; lia. }
  now apply caseless_eq.
Qed.
Lemma format_like a b n : rm_like a b -> forall len f f', (length f <= len)%nat -> ueq f f' -> ueq (format a n f) (format b n f').
Proof.
  intros H. pose proof H as (Hp & Ha & Hs & _).
  induction len as [|len IH]; intros f f' L E; (destruct f as [|c f1]; [apply ueq_nil in E; subst; reflexivity|]); cbn [length] in L; [lia|].
  destruct (ueq_cons _ _ _ E) as (c' & f1' & -> & U & E1). cbn [format].
  rewrite <- (cinv_chr "$" eq_refl _ _ U). destruct (Ascii.eqb c "$").
  2:{ apply ueq_cons_i; [exact U|apply IH; [lia|exact E1]]. }
  destruct f1 as [|d f2]; [apply ueq_nil in E1; subst; reflexivity|].
  destruct (ueq_cons _ _ _ E1) as (d' & f2' & -> & U1 & E2). cbn [length] in L.
  assert (T : ueq (format a n f2) (format b n f2')) by (apply IH; [lia|exact E2]).
  rewrite <- (cinv_chr "$" eq_refl _ _ U1). destruct (Ascii.eqb d "$"); [now apply ueq_cons_i|].
  rewrite <- (cinv_chr "&" eq_refl _ _ U1). destruct (Ascii.eqb d "&"); [now apply ueq_app|].
  rewrite <- (cinv_chr "`" eq_refl _ _ U1). destruct (Ascii.eqb d "`"); [now apply ueq_app|].
  rewrite <- (cinv_chr "'" eq_refl _ _ U1). destruct (Ascii.eqb d "'"); [now apply ueq_app|].
  rewrite <- (cinv_digit _ _ U1). destruct (is_digit d) eqn:Dd.
  2:{ apply ueq_cons_i; [reflexivity|]. apply IH; [cbn [length]; lia|exact E1]. }
  rewrite <- (digit_same _ _ Dd U1).
  destruct f2 as [|e f3]; [apply ueq_nil in E2; subst; now apply group_like|].
  destruct (ueq_cons _ _ _ E2) as (e' & f3' & -> & U2 & E3). cbn [length] in L.
  rewrite <- (cinv_digit _ _ U2). destruct (is_digit e) eqn:De.
  - rewrite <- (digit_same _ _ De U2). apply ueq_app; [now apply group_like|apply IH; [lia|exact E3]].
  - apply ueq_app; [now apply group_like|exact T].
Qed.

(** * The parenthesis check *)
Lemma left_loop_like s s' d w : ueq s s' -> left_loop s d w = left_loop s' d w.
Proof.
  revert s' d w. induction s as [|c s IH]; intros s' d w H; [apply ueq_nil in H; subst; reflexivity|].
  destruct (ueq_cons _ _ _ H) as (c' & t & -> & U & H'). cbn [left_loop].
  rewrite <- (cinv_chr "(" eq_refl _ _ U), <- (cinv_chr ")" eq_refl _ _ U).
  destruct (Ascii.eqb c "("); [now apply IH|]. destruct (Ascii.eqb c ")"); [|now apply IH].
  destruct (d =? 0)%N; [reflexivity|now apply IH].
Qed.
Lemma geom_loop_like w s s' d b : ueq s s' -> geom_loop w s d b = geom_loop w s' d b.
Proof.
  revert s' d b. induction s as [|c s IH]; intros s' d b H; [apply ueq_nil in H; subst; reflexivity|].
  destruct (ueq_cons _ _ _ H) as (c' & t & -> & U & H'). cbn [geom_loop]. destruct b; [reflexivity|].
  rewrite <- (cinv_chr "(" eq_refl _ _ U), <- (cinv_chr ")" eq_refl _ _ U).
  destruct (Ascii.eqb c "("); [now apply IH|]. destruct (Ascii.eqb c ")"); [|now apply IH].
  destruct (d =? 0)%N; [reflexivity|now apply IH].
Qed.
Definition ends_like {A : Type} (R : A -> A -> Prop) (x y : paren_error + A) : Prop :=
  match x, y with inl e, inl e' => e = e' | inr a, inr b => R a b | _, _ => False end.
Lemma ueq_tl a b : ueq a b -> ueq (tl a) (tl b).
Proof. intros H. destruct a as [|c a]; [apply ueq_nil in H; subst; reflexivity|]. destruct (ueq_cons _ _ _ H) as (d & b' & -> & _ & H'). exact H'. Qed.
Lemma ueq_removelast a b : ueq a b -> ueq (removelast a) (removelast b).
Proof. intros H. rewrite !removelast_firstn_len, (ueq_len _ _ H). now apply ueq_firstn. Qed.
Lemma parens_like l l' g g' : ueq l l' -> ueq g g' ->
  ends_like (fun x y => ueq (fst x) (fst y) /\ ueq (snd x) (snd y)) (check_and_adjust_parens l g) (check_and_adjust_parens l' g').
Proof.
  intros Hl Hg. unfold check_and_adjust_parens.
  assert (W : match l with c :: _ => Ascii.eqb c "(" | [] => false end = match l' with c :: _ => Ascii.eqb c "(" | [] => false end).
  { destruct l as [|c l]; [apply ueq_nil in Hl; subst; reflexivity|]. destruct (ueq_cons _ _ _ Hl) as (d & b' & -> & U & _).
    exact (cinv_chr "(" eq_refl _ _ U). }
  rewrite <- W, <- (left_loop_like _ _ _ _ Hl).
  destruct (left_loop l 0 _) as [e|[d w]]; [reflexivity|].
  destruct ((1 <? d)%N || (d =? 1)%N && negb w); [reflexivity|]. rewrite <- (geom_loop_like _ _ _ _ _ Hg).
  destruct (geom_loop w g d false) as [e|[]]; [reflexivity| |]; split; cbn [fst snd]; auto using ueq_tl, ueq_removelast.
Qed.

(** The preprocessing of texts that differ in letter case only. *)
Lemma preprocess_like i i' : ueq i i' -> ends_like ueq (preprocess i) (preprocess i').
Proof.
  intros H. unfold preprocess. pose proof (search_like _ _ H) as S.
  destruct (search the_regex i) as [a|] eqn:Ea, (search the_regex i') as [b|] eqn:Eb; cbn in S; try contradiction; [|exact H].
  unfold tweak_input_string. pose proof S as (Sp & _ & Ss & Sc).
  pose proof (parens_like _ _ _ _ (cap_like 1 _ _ Sc) (cap_like 2 _ _ Sc)) as P.
  destruct (check_and_adjust_parens (cap_str 1 (m_caps a)) _) as [e|[l g]], (check_and_adjust_parens (cap_str 1 (m_caps b)) _) as [e'|[l' g']];
    cbn in P; try contradiction; [exact P|]. destruct P as [Pl Pg].
  cbn [ends_like]. unfold replace. rewrite Ea, Eb. apply ueq_app; [exact Sp|]. apply ueq_app; [|exact Ss].
  eapply format_like; [exact S|reflexivity|]. unfold replacement. pose proof (cap_like 3 _ _ Sc) as C3.
  rewrite (ueq_is_nil _ _ C3). repeat (apply ueq_app; [first [reflexivity|assumption]|]).
  destruct (is_nil (cap_str 3 (m_caps b))); [reflexivity|]. now apply ueq_app.
Qed.
