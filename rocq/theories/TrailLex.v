(** White space behind a text (C04): character level rules. *)
From Verif Require Import Query Spec SpecTrail PegProps PegSpec PegEquiv QueryProofs LexProofs TextLemmas.

Definition R (i j : text) : Prop := exists w, white w /\ j = i ++ w.
Lemma R_rest i w : white w -> R i (i ++ w).
Proof. intros W. now exists w. Qed.
Lemma R_skip i j : R i j -> R (skip i) (skip j).
Proof.
  intros (w & W & ->). induction i as [|c i IH].
  - exists []. split; [constructor|]. cbn. induction W as [|c w C _ IHw]; [reflexivity|]. cbn. now rewrite C.
  - cbn [app skip]. destruct (is_space c) eqn:C; [exact IH|]. now apply (R_rest (c :: i)).
Qed.

Definition osim (l : bool) (o o' : sout) : Prop :=
  match o, o' with
  | SOk a r, SOk a' r' => a = a' /\ R r r'
  | SFail a, SFail a' => l = true \/ a = a'
  | _, _ => False
  end.
Definition calm (o : sout) : Prop := match o with SThrow _ => False | _ => True end.
Definition sg (l : bool) (e : se) : Prop := forall acc i j o, R i j -> sev e acc i o -> calm o -> exists o', sev e acc j o' /\ osim l o o'.
Ltac go H := match type of H with sg _ ?e => match goal with X : R ?i ?j, Y : sev e _ ?i _ |- _ =>
  let o := fresh "o" in let S := fresh "S" in let E := fresh "E" in destruct (H _ _ _ _ X Y) as (o & S & E); [first [exact I|assumption]|]; clear Y end end.
Ltac use H := go H; match goal with E : osim _ _ ?o |- _ => destruct o; cbn [osim] in E; try contradiction;
  match type of E with _ = _ /\ _ => destruct E as [<- E] | false = true \/ _ => destruct E as [E|E]; [discriminate|subst] | _ => idtac end end.
Lemma sg_lax e : sg false e -> sg true e.
Proof. intros H acc i j o K S C. destruct (H _ _ _ _ K S C) as (o' & S' & E). exists o'. split; [exact S'|]. destruct o, o'; cbn in *; auto. Qed.
Lemma sg_weak l e : sg false e -> sg l e.
Proof. destruct l; auto using sg_lax. Qed.
Lemma sg_seq l a b : sg l a -> sg l b -> sg l (SSeq a b).
Proof.
  intros Ha Hb acc i j o K H C. inversion H; subst.
  - use Ha. go Hb. eexists. split; [econstructor; eauto|eassumption].
  - go Ha. destruct o; cbn in E; try contradiction. eexists. split; [eapply sev_seq_no; eauto|exact E].
  - contradiction.
Qed.
Lemma sg_alt l a b : sg false a -> sg l b -> sg l (SAlt a b).
Proof.
  intros Ha Hb acc i j o K H C. inversion H; subst.
  - use Ha. eexists. split; [eapply sev_alt_1; eauto|now split].
  - use Ha. go Hb. eexists. split; [eapply sev_alt_2; eauto|eassumption].
  - contradiction.
Qed.
Lemma sg_star a : sg false a -> sg false (SStar a).
Proof.
  intros Ha acc i j o K H. remember (SStar a) as e. revert a Heqe Ha j K. induction H; intros a' [= <-] Ha j K C.
  - use Ha. eexists. split; [eapply sev_star_stop; eauto|now split].
  - use Ha. destruct (IHsev2 _ eq_refl Ha _ E C) as (o' & S' & E'). exists o'. split; [eapply sev_star_more; eauto|exact E'].
  - contradiction.
Qed.
Lemma sg_plus a : sg false a -> sg false (SPlus a).
Proof.
  intros Ha acc i j o K H C. inversion H; subst.
  - use Ha. pose proof (sg_star a Ha) as Hs. go Hs. eexists. split; [eapply sev_plus_ok; eauto|eassumption].
  - use Ha. eexists. split; [eapply sev_plus_no; eauto|now right].
  - contradiction.
Qed.
Lemma sg_opt a : sg false a -> sg false (SOpt a).
Proof.
  intros Ha acc i j o K H C. inversion H; subst; [use Ha|use Ha|contradiction].
  - eexists. split; [eapply sev_opt_ok; eauto|now split].
  - eexists. split; [eapply sev_opt_no; eauto|now split].
Qed.
Lemma sg_hold a : sg true a -> sg false (SHold a).
Proof.
  intros Ha acc i j o K H C. inversion H; subst; [use Ha|use Ha|contradiction].
  - eexists. split; [eapply sev_hold_ok; eauto|now split].
  - eexists. split; [eapply sev_hold_no; eauto|now right].
Qed.
Lemma sg_and a : sg true a -> sg false (SAnd a).
Proof.
  intros Ha acc i j o K H C. inversion H; subst; [use Ha|use Ha|contradiction].
  - eexists. split; [eapply sev_and_ok; eauto|now split].
  - eexists. split; [eapply sev_and_no; eauto|now right].
Qed.
Lemma sg_not a : sg true a -> sg false (SNot a).
Proof.
  intros Ha acc i j o K H C. inversion H; subst; [use Ha|use Ha|contradiction].
  - eexists. split; [eapply sev_not_ok; eauto|now split].
  - eexists. split; [eapply sev_not_no; eauto|now right].
Qed.
Lemma sg_diff l a b : sg l a -> sg true b -> sg l (SDiff a b).
Proof.
  intros Ha Hb acc i j o K H C. inversion H; subst; [use Hb|use Hb|contradiction].
  - go Ha. eexists. split; [eapply sev_diff_ok; eauto|eassumption].
  - eexists. split; [eapply sev_diff_no; eauto|now right].
Qed.
(** The second part of an expectation must be met. *)
Lemma sg_exp l a b : sg l a -> sg true b -> sg l (SExp a b).
Proof.
  intros Ha Hb acc i j o K H C. inversion H; subst; try contradiction.
  - use Ha. use Hb. eexists. split; [eapply sev_exp_ok; eauto|now split].
  - go Ha. destruct o; cbn in E; try contradiction. eexists. split; [eapply sev_exp_no; eauto|exact E].
Qed.
Lemma sg_map m a : sg true a -> sg false (SMap m a).
Proof.
  intros Ha acc i j o K H C. inversion H; subst; try contradiction; use Ha.
  - eexists. split; [eapply sev_map_ok; eauto|now split].
  - eexists. split; [eapply sev_map_no; eauto|now right].
Qed.

(** Bytes and words. *)
Definition dark_class (f : ascii -> bool) : bool := forallb (fun c => negb (f c)) (map ascii_of_nat [9; 10; 11; 12; 13; 32]).
Lemma dark_class_ok f c : dark_class f = true -> is_space c = true -> f c = false.
Proof.
  intros D S. unfold dark_class in D. apply (proj1 (forallb_forall _ _)) with (x := c) in D; [now apply negb_true_iff|].
  destruct c as [[] [] [] [] [] [] [] []]; try discriminate S; vm_compute; tauto.
Qed.
Lemma sg_chr f : dark_class f = true -> sg false (SChr f).
Proof.
  intros D acc i j o (w & W & ->) H C. inversion H; subst; cbn [app].
  - eexists. split; [now apply sev_chr_ok|]. split; [reflexivity|]. now apply R_rest.
  - eexists. split; [now apply sev_chr_no|now right].
  - exists (SFail acc). split; [|now right]. destruct W as [|c w S _]; [constructor|]. apply sev_chr_no. now apply dark_class_ok.
Qed.
Definition last_dark (s : text) : bool := match rev s with c :: _ => negb (is_space c) | [] => true end.
Lemma eq_space nc a c : eq_ch nc a c = true -> is_space c = true -> is_space a = true.
Proof.
  intros E S. destruct nc; cbn in E; [|apply Ascii.eqb_eq in E; now subst].
  destruct c as [[] [] [] [] [] [] [] []]; try discriminate S; destruct a as [[] [] [] [] [] [] [] []]; try discriminate E; reflexivity.
Qed.
Lemma strip_white nc s w m r : white w -> strip nc s w = Some (m, r) -> forallb is_space s = true.
Proof.
  revert w m r. induction s as [|a s IH]; intros w m r W H; [reflexivity|]. destruct W as [|c w C W]; [discriminate|]. cbn in H.
  destruct (eq_ch nc a c) eqn:E; [|discriminate]. destruct (strip nc s w) as [[m' r']|] eqn:S; [|discriminate]. cbn. rewrite (eq_space nc a c E C). cbn. eapply IH; eauto.
Qed.
Lemma strip_app nc s i w : last_dark s = true -> white w ->
  strip nc s (i ++ w) = match strip nc s i with Some (m, r) => Some (m, r ++ w) | None => None end.
Proof.
  intros D W. revert i D. induction s as [|a s IH]; intros i D; [reflexivity|]. destruct i as [|c i].
  - cbn [app strip]. destruct (strip nc (a :: s) w) as [[m r]|] eqn:E; [|now cbn in E]. exfalso. apply strip_white in E; [|exact W].
    unfold last_dark in D. destruct (rev (a :: s)) as [|x l] eqn:V; [apply (f_equal (@length ascii)) in V; rewrite rev_length in V; discriminate|].
    rewrite forallb_forall in E. rewrite (E x) in D; [discriminate|]. apply in_rev. rewrite V. now left.
  - cbn [app strip]. destruct (eq_ch nc a c); [|reflexivity]. rewrite IH; [now destruct (strip nc s i) as [[? ?]|]|].
    unfold last_dark in *. cbn [rev] in D. destruct (rev s); [reflexivity|exact D].
Qed.
Lemma strip_rest nc s i m r : strip nc s i = Some (m, r) -> i = m ++ r.
Proof.
  revert i m r. induction s as [|a s IH]; intros i m r H; [injection H as <- <-; reflexivity|]. destruct i as [|c i]; [discriminate|]. cbn in H.
  destruct (eq_ch nc a c); [|discriminate]. destruct (strip nc s i) as [[m' r']|] eqn:S; [|discriminate]. injection H as <- <-. cbn. f_equal. eauto.
Qed.
Lemma sg_lit nc s : last_dark s = true -> sg false (SLit nc s).
Proof.
  intros D acc i j o (w & W & ->) H C. inversion H; subst.
  - eexists. split; [eapply sev_lit_ok; rewrite strip_app by assumption; match goal with E : strip _ _ _ = _ |- _ => rewrite E end; reflexivity|]. split; [reflexivity|].
    now apply R_rest.
  - eexists. split; [eapply sev_lit_no; rewrite strip_app by assumption; match goal with E : strip _ _ _ = _ |- _ => rewrite E end; reflexivity|]. now right.
Qed.
Lemma sg_str nc s : last_dark s = true -> sg false (SStr nc s).
Proof.
  intros D acc i j o (w & W & ->) H C. inversion H; subst.
  - eexists. split; [eapply sev_str_ok; rewrite strip_app by assumption; match goal with E : strip _ _ _ = _ |- _ => rewrite E end; reflexivity|]. split; [reflexivity|].
    now apply R_rest.
  - eexists. split; [eapply sev_str_no; rewrite strip_app by assumption; match goal with E : strip _ _ _ = _ |- _ => rewrite E end; reflexivity|]. now right.
Qed.
Lemma sg_alts l es : (forall e, In e es -> sg false e) -> sg l (alts es).
Proof.
  intros H. apply sg_weak. induction es as [|e es IH]; cbn [alts].
  - apply sg_chr. reflexivity.
  - apply sg_alt; [apply H; now left|]. apply IH. intros e' I. apply H. now right.
Qed.
Definition dark_words (ws : list string) : bool := forallb (fun w => last_dark (L w)) ws.
Lemma sg_lits l ws : dark_words ws = true -> sg l (lits_nc ws).
Proof. intros P. apply sg_alts. intros e I. apply in_map_iff in I as (w & <- & I). apply sg_lit. exact (proj1 (forallb_forall _ _) P w I). Qed.
Lemma sg_strs l ws : dark_words ws = true -> sg l (strs_nc ws).
Proof. intros P. apply sg_alts. intros e I. apply in_map_iff in I as (w & <- & I). apply sg_str. exact (proj1 (forallb_forall _ _) P w I). Qed.
Lemma sg_strs_cs l ws : dark_words ws = true -> sg l (strs_cs ws).
Proof. intros P. apply sg_alts. intros e I. apply in_map_iff in I as (w & <- & I). apply sg_str. exact (proj1 (forallb_forall _ _) P w I). Qed.

(** Words that must be followed by a certain byte: not at the end of the text. *)
Definition apart (x : text) : Prop := x = [] \/ exists y c, x = y ++ [c] /\ is_idchar c = false.
Definition open_word (i : text) : Prop := exists w x v, In w end_words /\ i = x ++ v /\ apart x /\ upper v = L w.
Definition sgo (l : bool) (e : se) : Prop := forall acc i j o, R i j -> ~ open_word i -> sev e acc i o -> calm o -> exists o', sev e acc j o' /\ osim l o o'.
Lemma sg_sgo l e : sg l e -> sgo l e.
Proof. intros H acc i j o K _. now apply H. Qed.
Lemma sgo_lax e : sgo false e -> sgo true e.
Proof. intros H acc i j o K N S C. destruct (H _ _ _ _ K N S C) as (o' & S' & E). exists o'. split; [exact S'|]. destruct o, o'; cbn in *; auto. Qed.
Definition apartb (x : text) : bool := match rev x with [] => true | c :: _ => negb (is_idchar c) end.
Lemma apartb_ok x : apartb x = true -> apart x.
Proof. unfold apartb, apart. destruct x as [|c x _] using rev_ind; [now left|]. rewrite rev_unit. intros H. right. exists x, c. split; [reflexivity|now apply negb_true_iff]. Qed.
Definition end_word (w : string) : bool :=
  existsb (fun e => let k := length (L w) - length (L e) in text_eqb (skipn k (L w)) (L e) && apartb (firstn k (L w))) end_words && text_eqb (upper (L w)) (L w).
Lemma idchar_upc c d : upc c = d -> is_idchar d = false -> is_idchar c = false.
Proof. intros <-. destruct c as [[] [] [] [] [] [] [] []]; intros H; try discriminate H; reflexivity. Qed.
Lemma apart_upper x y : upper x = y -> apart y -> apart x.
Proof.
  intros E [->|(z & c & -> & C)]; [left; now destruct x|]. right. destruct x as [|d x _] using rev_ind; [destruct z; discriminate|].
  unfold upper in E. rewrite map_app in E. apply app_inj_tail in E as [_ E]. exists x, d. split; [reflexivity|]. eapply idchar_upc; eauto.
Qed.
Lemma end_word_open w m : end_word w = true -> upper m = L w -> open_word m.
Proof.
  unfold end_word. intros H U. apply andb_true_iff in H as [H _]. apply existsb_exists in H as (e & I & E). cbn zeta in E. apply andb_true_iff in E as [E A]. apply LexProofs.text_eqb_iff in E.
  set (k := length (L w) - length (L e)) in *. exists e, (firstn k m), (skipn k m). split; [exact I|]. split; [symmetry; apply firstn_skipn|]. split.
  - apply apart_upper with (firstn k (L w)); [|now apply apartb_ok]. rewrite <- U. unfold upper. now rewrite firstn_map.
  - rewrite <- E, <- U. unfold upper. now rewrite skipn_map.
Qed.
Lemma strip_nc_upper w i m r : end_word w = true -> strip true (L w) i = Some (m, r) -> upper m = L w.
Proof.
  intros H E. unfold end_word in H. apply andb_true_iff in H as [_ H]. apply LexProofs.text_eqb_iff in H. apply strip_nc_iff in E as [_ E]. congruence.
Qed.
Definition closing (a : se) : Prop := forall acc i acc', sev a acc i (SOk acc' []) -> open_word i.
Lemma closing_lit w : end_word w = true -> closing (SLit true (L w)).
Proof.
  intros H acc i acc' S. inversion S; subst. match goal with E : strip _ _ _ = _ |- _ => rename E into X end.
  rewrite (strip_rest _ _ _ _ _ X), app_nil_r. eapply end_word_open; [exact H|]. eapply strip_nc_upper; eauto.
Qed.
Lemma closing_str w : end_word w = true -> closing (SStr true (L w)).
Proof.
  intros H acc i acc' S. inversion S; subst. match goal with E : strip _ _ _ = _ |- _ => rename E into X end.
  rewrite (strip_rest _ _ _ _ _ X), app_nil_r. eapply end_word_open; [exact H|]. eapply strip_nc_upper; eauto.
Qed.
Lemma closing_strs ws : forallb end_word ws = true -> closing (strs_nc ws).
Proof.
  intros P. unfold strs_nc. induction ws as [|w ws IH]; cbn [map alts]; intros acc i acc' S.
  - inversion S; subst; discriminate.
  - cbn [forallb] in P. apply andb_true_iff in P as [P1 P2]. inversion S; subst; [eapply closing_str; eauto|eapply IH; eauto].
Qed.
Lemma sg_then a f : sg false a -> closing a -> sgo false (SSeq a (SAnd (SChr f))).
Proof.
  intros Ha Cl acc i j o K N H C. inversion H; subst; [|use Ha; eexists; split; [eapply sev_seq_no; eauto|now right]|contradiction].
  match goal with X : sev a _ _ (SOk _ ?r) |- _ => destruct r as [|c r]; [exfalso; exact (N (Cl _ _ _ X))|] end.
  use Ha. destruct E as (w & W & ->).
  match goal with X : sev (SAnd _) _ _ _ |- _ => inversion X; subst end; try (match goal with X : sev (SChr f) _ _ _ |- _ => inversion X; subst end).
  - eexists. split; [eapply sev_seq_ok; [eassumption|]; eapply sev_and_ok; cbn; now apply sev_chr_ok|]. split; [reflexivity|]. now apply R_rest.
  - eexists. split; [eapply sev_seq_ok; [eassumption|]; eapply sev_and_no; cbn; now apply sev_chr_no|]. now right.
Qed.
Lemma sg_hard a f : sg false a -> sg false (SExp a (SAnd (SChr f))).
Proof.
  intros Ha acc i j o K H C. inversion H; subst; try contradiction; [|use Ha; eexists; split; [eapply sev_exp_no; eauto|now right]].
  use Ha. destruct E as (w & W & ->). match goal with X : sev (SAnd _) _ _ _ |- _ => inversion X; subst end. match goal with X : sev (SChr f) _ _ _ |- _ => inversion X; subst end.
  eexists. split; [eapply sev_exp_ok; [eassumption|]; eapply sev_and_ok; cbn; now apply sev_chr_ok|]. split; [reflexivity|]. now apply R_rest.
Qed.
Lemma sg_hard1 a f : sg false a -> sg false (SExp a (SChr f)).
Proof.
  intros Ha acc i j o K H C. inversion H; subst; try contradiction; [|use Ha; eexists; split; [eapply sev_exp_no; eauto|now right]].
  use Ha. destruct E as (w & W & ->). match goal with X : sev (SChr f) _ _ _ |- _ => inversion X; subst end.
  eexists. split; [eapply sev_exp_ok; [eassumption|]; cbn; now apply sev_chr_ok|]. split; [reflexivity|]. now apply R_rest.
Qed.
Lemma sg_kw_soft w : end_word w = true -> last_dark (L w) = true -> sgo false (kw_soft w).
Proof. intros E D. apply sg_then; [now apply sg_lit|now apply closing_lit]. Qed.
Lemma sg_kws_soft ws : forallb end_word ws = true -> dark_words ws = true -> sgo false (kws_soft ws).
Proof. intros E D. apply sg_then; [now apply sg_strs|now apply closing_strs]. Qed.
Lemma sg_kw_hard w : last_dark (L w) = true -> sg false (kw_hard w).
Proof. intros D. apply sg_hard. now apply sg_lit. Qed.
Lemma sg_kws_hard w : last_dark (L w) = true -> sg false (kws_hard w).
Proof. intros D. apply sg_hard. now apply sg_str. Qed.
Lemma sg_held ws f : forallb end_word ws = true -> dark_words ws = true -> sgo false (SHold (SSeq (strs_nc ws) (SAnd (SChr f)))).
Proof.
  intros E D. assert (Ha : sgo false (SSeq (strs_nc ws) (SAnd (SChr f)))) by (apply sg_then; [now apply sg_strs|now apply closing_strs]).
  intros acc i j o K N H C. inversion H; subst; [..|contradiction]; (match goal with X : sev (SSeq _ _) _ _ _ |- _ => destruct (Ha _ _ _ _ K N X I) as (o' & S & Z) end); destruct o'; cbn in Z; try contradiction.
  - destruct Z as [<- Z]. eexists. split; [eapply sev_hold_ok; eauto|now split].
  - eexists. split; [eapply sev_hold_no; eauto|now right].
Qed.

(** Names, numbers and literals. *)
Lemma sg_keyword : sg false s_keyword.
Proof. apply sg_seq; [apply sg_alt; apply sg_lits; vm_compute; reflexivity|]. apply sg_and, sg_lax, sg_not, sg_lax, sg_chr. reflexivity. Qed.
Lemma sg_regular : sg false s_regular_identifier.
Proof. apply sg_diff; [|apply sg_lax, sg_keyword]. apply sg_seq; [apply sg_chr; reflexivity|]. apply sg_star, sg_chr. reflexivity. Qed.

Section Quoted.
Variable q : ascii.
Hypothesis Q : is_space q = false.
Definition part : se := SAlt (SChr (fun c => negb (Ascii.eqb c q))) (SStr false [q; q]).
Lemma eqb_self : Ascii.eqb q q = true. Proof. apply Ascii.eqb_refl. Qed.
Lemma no_quote_white w : white w -> ~ In q w.
Proof. intros W I. unfold white in W. rewrite Forall_forall in W. apply W in I. congruence. Qed.
Lemma body_all j : ~ In q j -> forall acc, sev (SStar part) acc j (SOk (acc ++ j) []).
Proof.
  induction j as [|c j IH]; intros N acc.
  - rewrite app_nil_r. apply sev_star_stop. eapply sev_alt_2; [constructor|]. now apply sev_str_no.
  - eapply sev_star_more; [apply sev_alt_1, sev_chr_ok; apply negb_true_iff, Ascii.eqb_neq; intros ->; apply N; now left|].
    replace (acc ++ c :: j) with ((acc ++ [c]) ++ j) by (now rewrite <- app_assoc). apply IH. intros I. apply N. now right.
Qed.
(** the text up to the closing quote *)
Lemma body_sim acc i o : sev (SStar part) acc i o -> forall j, R i j ->
  exists a r a' r', o = SOk a r /\ sev (SStar part) acc j (SOk a' r') /\
    (a = a' /\ R r r' /\ (exists x, r = q :: x) \/ r = [] /\ ~ In q r').
Proof.
  intros H. remember (SStar part) as e. revert Heqe. induction H; intros [= ->] j K.
  - (* stop *) destruct i as [|c i].
    + exists acc', []. destruct K as (w & W & ->). cbn [app]. eexists. eexists. split; [reflexivity|]. split; [apply body_all; now apply no_quote_white|right; now split].
    + destruct K as (w & W & ->). inversion H; subst; [].
      match goal with X : sev (SChr _) _ _ _ |- _ => inversion X; subst end. match goal with X : negb _ = false |- _ => apply negb_false_iff, Ascii.eqb_eq in X; subst end.
      match goal with X : sev (SStr _ _) _ _ _ |- _ => inversion X; subst end. match goal with X : strip _ _ _ = None |- _ => rename X into Y end.
      exists acc', (q :: i), acc', ((q :: i) ++ w). split; [reflexivity|]. split; [|left; split; [reflexivity|]; split; [now apply R_rest|eauto]].
      apply sev_star_stop. eapply sev_alt_2; [apply sev_chr_no; cbn; now rewrite eqb_self|]. apply sev_str_no. rewrite strip_app; [now rewrite Y| |exact W].
      unfold last_dark. cbn. now rewrite Q.
  - (* more *) destruct K as (w & W & ->). assert (S : sev part acc (i ++ w) (SOk acc' (i' ++ w)) /\ exists b, i = b ++ i').
    { inversion H; subst.
      - match goal with X : sev (SChr _) _ _ _ |- _ => inversion X; subst end. split; [apply sev_alt_1; cbn; now apply sev_chr_ok|]. now exists [c].
      - match goal with X : sev (SChr _) _ _ _ |- _ => inversion X; subst end; match goal with X : sev (SStr _ _) _ _ _ |- _ => inversion X; subst end.
        + split; [|match goal with X : strip _ _ _ = Some (?m, _) |- _ => exists m; now apply strip_rest in X end].
          eapply sev_alt_2; [cbn; apply sev_chr_no; eassumption|]. eapply sev_str_ok. rewrite (strip_app false [q; q] (c :: i0) w); [match goal with X : strip _ _ _ = Some _ |- _ => now rewrite X end| |exact W]. unfold last_dark. cbn. now rewrite Q.
        + discriminate. }
    destruct S as (S & b & ->). destruct (IHsev2 eq_refl (i' ++ w)) as (a & r & a' & r' & -> & S' & D); [now apply R_rest|].
    exists a, r, a', r'. split; [reflexivity|]. split; [eapply sev_star_more; eauto|exact D].
  - (* throw *) exfalso. inversion H; subst; match goal with X : sev (SChr _) _ _ (SThrow _) |- _ => inversion X | X : sev (SStr _ _) _ _ (SThrow _) |- _ => inversion X end.
Qed.
Lemma part_calm acc i x : ~ sev part acc i (SThrow x).
Proof. intros H. inversion H; subst; match goal with X : sev (SChr _) _ _ (SThrow _) |- _ => inversion X | X : sev (SStr _ _) _ _ (SThrow _) |- _ => inversion X end. Qed.
Lemma star_ok acc i o : sev (SStar part) acc i o -> exists a r, o = SOk a r.
Proof. intros H. remember (SStar part) as e. revert Heqe. induction H; intros [= ->]; eauto. now apply part_calm in H. Qed.
Lemma part_ok acc i acc' i' w : sev part acc i (SOk acc' i') -> white w -> sev part acc (i ++ w) (SOk acc' (i' ++ w)) /\ exists b, i = b ++ i'.
Proof.
  intros H W. inversion H; subst.
  - match goal with X : sev (SChr _) _ _ _ |- _ => inversion X; subst end. split; [apply sev_alt_1; cbn; now apply sev_chr_ok|]. now exists [c].
  - match goal with X : sev (SChr _) _ _ _ |- _ => inversion X; subst end; match goal with X : sev (SStr _ _) _ _ _ |- _ => inversion X; subst end.
    + split; [|match goal with X : strip _ _ _ = Some (?m, _) |- _ => exists m; now apply strip_rest in X end].
      eapply sev_alt_2; [cbn; apply sev_chr_no; eassumption|]. eapply sev_str_ok. rewrite (strip_app false [q; q] (c :: i0) w); [match goal with X : strip _ _ _ = Some _ |- _ => now rewrite X end| |exact W]. unfold last_dark. cbn. now rewrite Q.
    + discriminate.
Qed.
Lemma chr_q_end acc : sev (chr q) acc [] (SFail acc). Proof. constructor. Qed.
Lemma chr_q_no acc r : ~ In q r -> sev (chr q) acc r (SFail acc).
Proof.
  intros N. destruct r as [|c r]; [constructor|]. apply sev_chr_no. apply Ascii.eqb_neq. intros E. apply N. left. auto.
Qed.
(** a body with its closing quote, with at least one part or not *)
Lemma closed_sim e acc i o : (e = SStar part \/ e = SPlus part) -> forall j, R i j -> sev (SSeq e (chr q)) acc i o ->
  exists o', sev (SSeq e (chr q)) acc j o' /\ osim true o o' /\ calm o.
Proof.
  assert (Cq : sg false (chr q)).
  { apply sg_chr. unfold dark_class. apply forallb_forall. intros c I. apply negb_true_iff, Ascii.eqb_neq. intros E.
    subst. cbn in I. repeat (destruct I as [I|I]; [rewrite <- I in Q; discriminate|]). exact I. }
  assert (Fin : forall acc i j o, R i j -> sev (SSeq (SStar part) (chr q)) acc i o -> exists a' r' o', sev (SStar part) acc j (SOk a' r') /\ sev (chr q) a' r' o' /\ osim true o o' /\ calm o).
  { clear acc i o. intros acc i j o K H. inversion H as [| | | | | | |? ? ? ? a r ? S T|? ? ? ? ? S|? ? ? ? ? S| | | | | | | | | | | | | | | | | | | | | | | | | | | | | | | | |]; subst.
    - destruct (body_sim acc i _ S j K) as (a0 & r0 & a' & r' & [= <- <-] & S' & [(<- & Rr & x & ->)|[-> N]]).
      + inversion T; subst; [|match goal with X : Ascii.eqb _ _ = false |- _ => cbn in X; rewrite ?eqb_self in X; discriminate end].
        destruct Rr as (w & W & ->). eexists. eexists. eexists. split; [exact S'|]. split; [cbn; now apply sev_chr_ok|]. split; [|exact I]. split; [reflexivity|]. now apply R_rest.
      + inversion T; subst. eexists. eexists. eexists. split; [exact S'|]. split; [now apply chr_q_no|]. split; [now left|exact I].
    - destruct (body_sim acc i _ S j K) as (a0 & r0 & a' & r' & [=] & _).
    - destruct (body_sim acc i _ S j K) as (a0 & r0 & a' & r' & [=] & _). }
  intros [->| ->] j K H.
  - destruct (Fin _ _ _ _ K H) as (a' & r' & o' & S1 & S2 & Z). exists o'. split; [eapply sev_seq_ok; eauto|exact Z].
  - inversion H as [| | | | | | |? ? ? ? a r ? S T|? ? ? ? a S|? ? ? ? ? S| | | | | | | | | | | | | | | | | | | | | | | | | | | | | | | | |]; subst.
    + inversion S; subst. match goal with X : sev part _ _ (SOk _ _) |- _ => rename X into P end. destruct K as (w & W & ->).
      destruct (part_ok _ _ _ _ w P W) as (P' & b & ->). destruct (Fin acc' i' (i' ++ w) o) as (a' & r' & o' & S1 & S2 & Z); [now apply R_rest|eapply sev_seq_ok; eauto|].
      exists o'. split; [eapply sev_seq_ok; [eapply sev_plus_ok; eauto|exact S2]|exact Z].
    + inversion S; subst; [match goal with X : sev (SStar part) _ _ (SFail _) |- _ => apply star_ok in X as (? & ? & [=]) end|].
      match goal with X : sev part _ _ (SFail _) |- _ => rename X into P end. destruct K as (w & W & ->). destruct i as [|c i].
      * cbn [app]. destruct W as [|c w C W]; [eexists; split; [eapply sev_seq_no, sev_plus_no; eassumption|]; split; [now left|exact I]|].
        eexists. split; [eapply sev_seq_ok; [eapply sev_plus_ok; [apply sev_alt_1, sev_chr_ok; apply negb_true_iff, Ascii.eqb_neq; intros ->; congruence|apply body_all; now apply no_quote_white]|apply chr_q_end]|]. split; [now left|exact I].
      * inversion P; subst. match goal with X : sev (SChr _) _ _ _ |- _ => inversion X; subst end. match goal with X : sev (SStr _ _) _ _ _ |- _ => inversion X; subst end. match goal with X : strip _ _ _ = None |- _ => rename X into Y end.
        eexists. split; [eapply sev_seq_no, sev_plus_no; eapply sev_alt_2; [cbn; apply sev_chr_no; eassumption|]; apply sev_str_no; rewrite (strip_app false [q; q] (c :: i) w); [now rewrite Y| |exact W]; unfold last_dark; cbn; now rewrite Q|]. split; [now left|exact I].
    + exfalso. inversion S; subst; match goal with X : sev (SStar part) _ _ (SThrow _) |- _ => apply star_ok in X as (? & ? & [=]) | X : sev part _ _ (SThrow _) |- _ => now apply part_calm in X end.
Qed.
End Quoted.
Lemma sg_delimited : sg true s_delimited_identifier.
Proof.
  intros acc i j o K H C. inversion H; subst; [|..].
  - match goal with X : sev (chr _) _ _ _ |- _ => inversion X; subst end. destruct K as (w & W & ->). match goal with X : sev (SSeq _ _) _ _ _ |- _ => rename X into S end.
    match type of S with sev _ ?a ?r _ => destruct (closed_sim dquote eq_refl (SPlus (part dquote)) a r o (or_intror eq_refl) (r ++ w)) as (o' & S' & Z & _); [now apply R_rest|exact S|] end.
    exists o'. split; [cbn [app]; eapply sev_seq_ok; [now apply sev_chr_ok|exact S']|exact Z].
  - match goal with X : sev (chr _) _ _ _ |- _ => rename X into S end. assert (X : sg false (chr dquote)) by (apply sg_chr; reflexivity). destruct (X _ _ _ _ K S) as (o' & S' & Z); [exact I|].
    destruct o'; try contradiction. eexists. split; [eapply sev_seq_no; eauto|now left].
  - contradiction.
Qed.
Lemma sg_identifier : sg true s_identifier.
Proof. apply sg_alt; [apply sg_regular|apply sg_delimited]. Qed.
Lemma sg_dot : sg false (chr "."). Proof. apply sg_chr. reflexivity. Qed.
Lemma sg_tap m : sg false (s_tap_upload m).
Proof. apply sg_exp; [apply sg_lit; reflexivity|]. apply sg_lax, sg_map, sg_identifier. Qed.
Lemma sg_table m : sg true (s_table_name m).
Proof.
  apply sg_alt; [apply sg_tap|]. apply sg_alt; [|apply sg_alt; [|apply sg_identifier]]; apply sg_hold;
    repeat first [apply sg_identifier|apply sg_lax, sg_dot|apply sg_seq].
Qed.
Lemma sg_qstar m : sg true (s_qualifier_star m).
Proof. apply sg_seq; [apply sg_table|apply sg_lax, sg_str; reflexivity]. Qed.
Lemma sg_digit : sg false (SChr is_digit). Proof. apply sg_chr. reflexivity. Qed.
Lemma sg_unsigned : sg false s_unsigned_integer. Proof. apply sg_plus, sg_digit. Qed.
Lemma sg_exact : sg false s_exact_numeric.
Proof.
  apply sg_alt; [apply sg_seq; [apply sg_unsigned|apply sg_opt]|]; (apply sg_seq; [apply sg_dot|apply sg_unsigned]).
Qed.
Lemma sg_sign : sg false s_sign. Proof. apply sg_alt; apply sg_chr; reflexivity. Qed.
Lemma sg_numeric : sg false s_unsigned_numeric.
Proof.
  apply sg_alt; [|apply sg_exact]. apply sg_hold, sg_lax. apply sg_seq; [apply sg_exact|]. apply sg_seq; [apply sg_chr; reflexivity|]. apply sg_seq; [apply sg_opt, sg_sign|apply sg_unsigned].
Qed.

(** Strings in several pieces. *)
Definition group : se := SHold (SSeq (SPlus s_separator) (SSeq (chr quote) (SSeq (SStar s_character_representation) (chr quote)))).
Definition nq (t : text) : Prop := match t with c :: _ => c <> quote | [] => True end.
Lemma nq_white w : white w -> nq w.
Proof. intros [|c x C _]; [exact I|]. intros ->. discriminate C. Qed.
Definition noline : se := SStar (SChr (fun c => negb (Ascii.eqb c newline))).
Lemma line_end t : ~ In newline t -> forall acc, sev noline acc t (SOk (acc ++ t) []).
Proof.
  induction t as [|c t IH]; intros N acc; [rewrite app_nil_r; apply sev_star_stop; constructor|].
  eapply sev_star_more; [apply sev_chr_ok, negb_true_iff, Ascii.eqb_neq; intros ->; apply N; now left|].
  replace (acc ++ c :: t) with ((acc ++ [c]) ++ t) by (now rewrite <- app_assoc). apply IH. intros I. apply N. now right.
Qed.
Lemma line_break t u : ~ In newline t -> forall acc, sev noline acc (t ++ newline :: u) (SOk (acc ++ t) (newline :: u)).
Proof.
  induction t as [|c t IH]; intros N acc; [rewrite app_nil_r; apply sev_star_stop; cbn [app]; now apply sev_chr_no|].
  eapply sev_star_more; [apply sev_chr_ok, negb_true_iff, Ascii.eqb_neq; intros ->; apply N; now left|].
  replace (acc ++ c :: t) with ((acc ++ [c]) ++ t) by (now rewrite <- app_assoc). apply IH. intros I. apply N. now right.
Qed.
Lemma line_split t : ~ In newline t \/ exists a b, t = a ++ newline :: b /\ ~ In newline a.
Proof.
  induction t as [|c t [N|(a & b & -> & N)]]; [now left| |].
  - destruct (Ascii.eqb c newline) eqn:E; [apply Ascii.eqb_eq in E; subst; right; exists [], t; split; [reflexivity|intros []]|].
    apply Ascii.eqb_neq in E. left. intros [I|I]; auto.
  - destruct (Ascii.eqb c newline) eqn:E; [apply Ascii.eqb_eq in E; subst; right; exists [], (a ++ newline :: b); split; [reflexivity|intros []]|].
    apply Ascii.eqb_neq in E. right. exists (c :: a), b. split; [reflexivity|]. intros [I|I]; auto.
Qed.
Definition dashes : se := SSeq (chr "-") (SPlus (chr "-")).
(** what a separator does at the start of a text, and with white space behind *)
Inductive seps (i : text) : sout -> sout -> Prop :=
| seps_ok a r r' : R r r' -> seps i (SOk a r) (SOk a r')
| seps_no a a' : (forall x, i = quote :: x -> a = a') -> seps i (SFail a) (SFail a')
| seps_more a a' r : nq i -> white r -> seps i (SFail a) (SOk a' r).
Lemma sdet e acc i o o' : swf e = true -> sev e acc i o -> sev e acc i o' -> o = o'.
Proof. intros W A B. apply sev_iff in A; [|exact W]. apply sev_iff in B; [|exact W]. congruence. Qed.
Lemma white_app_r a b : white (a ++ b) -> white b.
Proof. unfold white. rewrite Forall_app. tauto. Qed.
Lemma sep_alone c acc i : c = " "%char \/ c = newline -> sev s_separator acc (c :: i) (SOk (acc ++ [c]) i).
Proof.
  intros C. eapply sev_alt_2; [eapply sev_seq_no, sev_seq_no, sev_chr_no; destruct C as [ -> | -> ]; reflexivity|].
  destruct C as [ -> | -> ]; [apply sev_alt_1; now apply sev_chr_ok|eapply sev_alt_2; [now apply sev_chr_no|now apply sev_chr_ok]].
Qed.
Lemma sep_none c acc i : c <> "-"%char -> c <> " "%char -> c <> newline -> sev s_separator acc (c :: i) (SFail acc).
Proof.
  intros A B C. eapply sev_alt_2; [eapply sev_seq_no, sev_seq_no, sev_chr_no; apply Ascii.eqb_neq; auto|].
  eapply sev_alt_2; apply sev_chr_no; apply Ascii.eqb_neq; auto.
Qed.
Lemma sep_nil acc : sev s_separator acc [] (SFail acc).
Proof. eapply sev_alt_2; [eapply sev_seq_no, sev_seq_no, sev_chr_end|]. eapply sev_alt_2; constructor. Qed.
Lemma dash_no acc i : sev (SAlt (chr " ") (chr newline)) acc ("-"%char :: i) (SFail acc).
Proof. eapply sev_alt_2; now apply sev_chr_no. Qed.
Lemma sg_dashes : sg false dashes.
Proof. apply sg_seq; [|apply sg_plus]; apply sg_chr; reflexivity. Qed.
Definition rest_of_line : se := SSeq noline (chr newline).
Lemma comment_sim acc i j : R i j ->
  (exists a r r', sev rest_of_line acc i (SOk a r) /\ sev rest_of_line acc j (SOk a r') /\ R r r') \/
  (exists a, sev rest_of_line acc i (SFail a)) /\ exists o, sev rest_of_line acc j o /\ match o with SOk _ r => white r | SFail _ => True | _ => False end.
Proof.
  intros (w & W & ->). destruct (line_split i) as [M|(a & b & -> & M)].
  - right. split; [eexists; eapply sev_seq_ok; [now apply line_end|constructor]|].
    destruct (line_split w) as [Mw|(a & b & -> & Mw)].
    + eexists. split; [eapply sev_seq_ok; [apply line_end; rewrite in_app_iff; tauto|constructor]|exact I].
    + eexists. split; [rewrite app_assoc; eapply sev_seq_ok; [apply line_break; rewrite in_app_iff; tauto|now apply sev_chr_ok]|].
      apply white_app_r in W. now inversion W.
  - left. eexists. eexists. exists (b ++ w). split; [eapply sev_seq_ok; [now apply line_break|now apply sev_chr_ok]|].
    split; [rewrite <- app_assoc; cbn [app]; eapply sev_seq_ok; [now apply line_break|now apply sev_chr_ok]|].
    now apply R_rest.
Qed.
Lemma sep_sim acc i j o : R i j -> sev s_separator acc i o -> exists o', sev s_separator acc j o' /\ seps i o o'.
Proof.
  intros K H. assert (W : swf s_separator = true) by reflexivity. pose proof K as (w & Ww & ->). destruct i as [|c i].
  - rewrite (sdet _ _ _ _ _ W H (sep_nil acc)). cbn [app]. destruct Ww as [|c w C Ww]; [eexists; split; [apply sep_nil|now constructor]|].
    destruct (Ascii.eqb c " ") eqn:E1; [|destruct (Ascii.eqb c newline) eqn:E2].
    + eexists. split; [apply sep_alone; left; now apply Ascii.eqb_eq|now constructor].
    + eexists. split; [apply sep_alone; right; now apply Ascii.eqb_eq|now constructor].
    + eexists. split; [apply sep_none; [intros ->; discriminate C|now apply Ascii.eqb_neq|now apply Ascii.eqb_neq]|now constructor].
  - cbn [app]. destruct (Ascii.eqb c "-") eqn:E0; [apply Ascii.eqb_eq in E0; subst c|].
    + assert (Wd : swf dashes = true) by reflexivity. pose proof (proj2 (sev_iff dashes acc ("-"%char :: i) _ Wd) eq_refl) as D.
      destruct (srun dashes acc ("-"%char :: i)) as [a1 r1|a1|x|] eqn:Ed.
      * destruct (sg_dashes _ _ _ _ K D I) as (o1 & D' & Z). destruct o1 as [a1' r1'| | |]; cbn in Z; try contradiction. destruct Z as [<- Z].
        destruct (comment_sim a1 r1 r1' Z) as [(a & r & r' & A & B & Rr)|((a & A) & o' & B & Q)].
        -- rewrite (sdet _ _ _ _ (SOk a r) W H); [|apply sev_alt_1; eapply sev_seq_ok; eauto]. eexists. split; [apply sev_alt_1; eapply sev_seq_ok; eauto|now constructor].
        -- rewrite (sdet _ _ _ _ (SFail a) W H); [|eapply sev_alt_2; [eapply sev_seq_ok; eauto|apply dash_no]].
           destruct o' as [a' r'|a'| |]; try contradiction.
           ++ eexists. split; [apply sev_alt_1; eapply sev_seq_ok; eauto|]. constructor; [discriminate|exact Q].
           ++ eexists. split; [eapply sev_alt_2; [eapply sev_seq_ok; eauto|apply dash_no]|]. constructor. intros x [=].
      * destruct (sg_dashes _ _ _ _ K D I) as (o1 & D' & Z). destruct o1 as [|a1'| |]; cbn in Z; try contradiction. destruct Z as [[=]|<-].
        rewrite (sdet _ _ _ _ (SFail a1) W H); [|eapply sev_alt_2; [eapply sev_seq_no; eauto|apply dash_no]].
        eexists. split; [eapply sev_alt_2; [eapply sev_seq_no; eauto|apply dash_no]|]. constructor. reflexivity.
      * exfalso. inversion D; subst; repeat match goal with X : sev (SPlus _) _ _ (SThrow _) |- _ => inversion X; clear X; subst | X : sev (chr _) _ _ (SThrow _) |- _ => inversion X end.
        match goal with X : sev (SStar _) _ _ (SThrow _) |- _ => clear - X; remember (SThrow x) as z; remember (SStar (chr "-")) as e; revert Heqz Heqe; induction X; try discriminate; intros E1 E2; inversion E2; subst; auto end. match goal with Y : sev (chr _) _ _ (SThrow _) |- _ => inversion Y end.
      * now apply srun_noloop in Ed.
    + apply Ascii.eqb_neq in E0. destruct (Ascii.eqb c " ") eqn:E1; [|destruct (Ascii.eqb c newline) eqn:E2].
      * assert (Q : c = " "%char \/ c = newline) by (left; now apply Ascii.eqb_eq). rewrite (sdet _ _ _ _ _ W H (sep_alone c acc i Q)).
        eexists. split; [now apply sep_alone|]. constructor. now apply R_rest.
      * assert (Q : c = " "%char \/ c = newline) by (right; now apply Ascii.eqb_eq). rewrite (sdet _ _ _ _ _ W H (sep_alone c acc i Q)).
        eexists. split; [now apply sep_alone|]. constructor. now apply R_rest.
      * apply Ascii.eqb_neq in E1, E2. rewrite (sdet _ _ _ _ _ W H (sep_none c acc i E0 E1 E2)). eexists. split; [now apply sep_none|]. now constructor.
Qed.
(** several of them, up to a quote *)
Lemma seps_white w : white w -> forall acc, exists a r, sev (SStar s_separator) acc w (SOk a r) /\ white r.
Proof.
  induction 1 as [|c w C W IH]; intros acc; [exists acc, []; split; [apply sev_star_stop, sep_nil|constructor]|].
  destruct (Ascii.eqb c " ") eqn:E1; [|destruct (Ascii.eqb c newline) eqn:E2].
  - destruct (IH (acc ++ [c])) as (a & r & S & Wr). exists a, r. split; [|exact Wr]. eapply sev_star_more; [|exact S]. apply sep_alone. left. now apply Ascii.eqb_eq.
  - destruct (IH (acc ++ [c])) as (a & r & S & Wr). exists a, r. split; [|exact Wr]. eapply sev_star_more; [|exact S]. apply sep_alone. right. now apply Ascii.eqb_eq.
  - exists acc, (c :: w). split; [|now constructor]. apply sev_star_stop. apply sep_none; [intros ->; discriminate C|now apply Ascii.eqb_neq|now apply Ascii.eqb_neq].
Qed.
Lemma nq_R i j : R i j -> nq i -> nq j.
Proof. intros (w & W & ->) N. destruct i; [now apply nq_white|exact N]. Qed.
Lemma q_or_nq i : (exists x, i = quote :: x) \/ nq i.
Proof. destruct i as [|c i]; [now right|]. destruct (Ascii.eqb c quote) eqn:E; [apply Ascii.eqb_eq in E; subst; left; eauto|right; now apply Ascii.eqb_neq]. Qed.
Definition after_seps (o o' : sout) : Prop :=
  match o, o' with SOk a r, SOk a' r' => a = a' /\ R r r' \/ nq r /\ nq r' | _, _ => False end.
Lemma seps_sim acc i o : sev (SStar s_separator) acc i o -> forall j, R i j -> calm o -> exists o', sev (SStar s_separator) acc j o' /\ after_seps o o'.
Proof.
  intros H. remember (SStar s_separator) as e. revert Heqe. induction H; intros [= ->] j K C; [| |contradiction].
  - destruct (sep_sim _ _ _ _ K H) as (o' & S & Z). inversion Z; subst.
    + eexists. split; [eapply sev_star_stop; eauto|]. cbn. destruct (q_or_nq i) as [(x & E)|Q]; [left; split; eauto|right; eauto using nq_R].
    + destruct (seps_white r) with (acc := a') as (a2 & r2 & S2 & W2); [assumption|]. eexists. split; [eapply sev_star_more; eauto|]. right. auto using nq_white.
  - destruct (sep_sim _ _ _ _ K H) as (o' & S & Z). inversion Z; subst. destruct (IHsev2 eq_refl r' ltac:(assumption) C) as (o2 & S2 & Z2).
    eexists. split; [eapply sev_star_more; eauto|exact Z2].
Qed.
Lemma chr_nq acc r : nq r -> sev (chr quote) acc r (SFail acc).
Proof. intros N. destruct r as [|c r]; [constructor|]. apply sev_chr_no. apply Ascii.eqb_neq. intros E. now apply N. Qed.
Definition closed : se := SSeq (SStar s_character_representation) (chr quote).
Lemma sg_closed : sg true closed.
Proof. intros acc i j o K H C. destruct (closed_sim quote eq_refl (SStar (part quote)) acc i o (or_introl eq_refl) j K H) as (o' & S & Z & _). eauto. Qed.
Lemma sg_opened : sg true (SSeq (chr quote) closed).
Proof. apply sg_seq; [apply sg_lax, sg_chr; reflexivity|apply sg_closed]. Qed.
Lemma opened_nq acc r : nq r -> sev (SSeq (chr quote) closed) acc r (SFail acc).
Proof. intros N. now apply sev_seq_no, chr_nq. Qed.
Lemma sg_group : sg false group.
Proof.
  apply sg_hold. intros acc i j o K H C. assert (Wo : swf (SSeq (chr quote) closed) = true) by reflexivity. inversion H; subst; [| |contradiction].
  - match goal with X : sev (SPlus _) _ _ _ |- _ => inversion X; subst end. destruct (sep_sim acc i j (SOk acc'0 i'0) K) as (o' & S & Z); [assumption|]. inversion Z; subst.
    match goal with X : sev (SStar _) _ _ _ |- _ => destruct (seps_sim _ _ _ X r' ltac:(assumption) I) as (o2 & S2 & Z2) end. destruct o2 as [a2 r2| | |]; cbn in Z2; try contradiction. destruct Z2 as [[<- Z2]|[Q Q']].
    + match goal with X : sev (SSeq _ _) _ _ _ |- _ => destruct (sg_opened _ _ _ _ Z2 X C) as (o3 & S3 & Z3) end. eexists. split; [eapply sev_seq_ok; [eapply sev_plus_ok; eauto|exact S3]|exact Z3].
    + match goal with X : sev (SSeq _ _) _ _ _ |- _ => rewrite (sdet _ _ _ _ _ Wo X (opened_nq _ _ Q)) end. eexists. split; [eapply sev_seq_ok; [eapply sev_plus_ok; eauto|now apply opened_nq]|now left].
  - match goal with X : sev (SPlus _) _ _ _ |- _ => inversion X; subst end.
    + exfalso. match goal with X : sev (SStar _) _ _ (SFail _) |- _ => clear - X; remember (SStar s_separator) as e; remember (SFail acc') as z; revert Heqe Heqz; induction X; try discriminate; intros E1 E2; auto end.
    + destruct (sep_sim acc i j (SFail acc') K) as (o' & S & Z); [assumption|]. inversion Z; subst.
      * eexists. split; [eapply sev_seq_no, sev_plus_no; eauto|now left].
      * match goal with X : white r |- _ => destruct (seps_white r X a') as (a2 & r2 & S2 & W2) end. eexists. split; [eapply sev_seq_ok; [eapply sev_plus_ok; eauto|apply opened_nq; now apply nq_white]|now left].
Qed.
Lemma seq_assoc a b c d acc i : srun (SSeq a (SSeq b (SSeq c d))) acc i = srun (SSeq (SSeq a (SSeq b c)) d) acc i.
Proof. cbn [srun]. destruct (srun a acc i) as [a1 r1| | |]; try reflexivity. destruct (srun b a1 r1) as [a2 r2| | |]; try reflexivity. Qed.
Lemma sg_string : sg true s_character_string.
Proof.
  assert (X : sg true (SSeq (SSeq (chr quote) closed) (SStar group))) by (apply sg_seq; [apply sg_opened|apply sg_lax, sg_star, sg_group]).
  assert (W : swf (SSeq (SSeq (chr quote) closed) (SStar group)) = true) by reflexivity. assert (W' : swf s_character_string = true) by reflexivity.
  intros acc i j o K H C. assert (T : forall t o, sev s_character_string acc t o <-> sev (SSeq (SSeq (chr quote) closed) (SStar group)) acc t o).
  { intros t z. rewrite !sev_iff by assumption. unfold s_character_string, closed, group. now rewrite seq_assoc. }
  apply T in H. destruct (X _ _ _ _ K H C) as (o' & S & Z). apply T in S. eauto.
Qed.
Lemma sg_bool : sg false s_boolean_literal.
Proof. apply sg_strs. reflexivity. Qed.
Lemma string_fail acc i a : sev s_character_string acc i (SFail a) -> a = acc \/ exists x, i = quote :: x.
Proof.
  intros H. inversion H; subst.
  - match goal with X : sev (chr _) _ _ _ |- _ => inversion X; subst end. match goal with X : Ascii.eqb _ _ = true |- _ => apply Ascii.eqb_eq in X; subst end. right. eauto.
  - match goal with X : sev (chr _) _ _ _ |- _ => inversion X; subst end; now left.
Qed.
Lemma bool_quote acc x : sev s_boolean_literal acc (quote :: x) (SFail acc).
Proof. apply sev_iff; reflexivity. Qed.
(** an unterminated string starts with a quote, where no truth value starts *)
Lemma sg_literal_tail : sg true (SAlt s_character_string s_boolean_literal).
Proof.
  intros acc i j o K H C. inversion H; subst; [| |contradiction].
  - pose proof sg_string as Hs. use Hs. eexists. split; [eapply sev_alt_1; eauto|now split].
  - pose proof sg_string as Hs. destruct (q_or_nq i) as [(x & ->)|Q].
    + match goal with X : sev s_boolean_literal _ _ _ |- _ => pose proof (sdet s_boolean_literal _ _ _ _ eq_refl X (bool_quote _ _)) as Eo; clear X; subst o end. use Hs. destruct K as (w & W & ->). eexists. split; [eapply sev_alt_2; [eauto|apply bool_quote]|now left].
    + match goal with X : sev s_character_string _ _ (SFail _) |- _ => pose proof (string_fail _ _ _ X) as [ -> |(x & ->)]; [|now destruct Q] end.
      assert (Qj : nq j) by eauto using nq_R. pose proof (sev_seq_no _ (SSeq (SStar s_character_representation) (SSeq (chr quote) (SStar group))) _ _ _ (chr_nq acc j Qj)) as Sj.
      pose proof sg_bool as Hb. go Hb. eexists. split; [eapply sev_alt_2; [exact Sj|eauto]|]. destruct o, o0; cbn in *; auto.
Qed.
Lemma sg_literal : sg true s_unsigned_literal.
Proof. apply sg_alt; [apply sg_numeric|apply sg_literal_tail]. Qed.
