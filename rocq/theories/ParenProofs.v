(** Proofs about check_and_adjust_parens: the 16-bit loops against the true nesting depth. *)
From Verif Require Import Preprocess SpecRewrite.

Ltac shl := unfold shallow in *; lia.
Lemma small_mod d : shallow (S d) -> ushort_inc (N.of_nat d) = N.of_nat (S d).
Proof. intros H. unfold ushort_inc, ushort_mod. rewrite N.mod_small; shl. Qed.

Lemma eqb_sym_paren c x : Ascii.eqb c x = true -> c = x.
Proof. apply Ascii.eqb_eq. Qed.

Lemma peak_ge t : forall d, d <= peak d t.
Proof. destruct t; intros d; cbn; shl. Qed.

Lemma peak_app a : forall d b, shallow (peak d (a ++ b)) ->
  shallow (peak d a) /\ (forall n, nest d a = Some n -> shallow (peak n b)).
Proof.
  induction a as [|c a IH]; intros d b; cbn [peak nest app].
  - intros H. pose proof (peak_ge b d). split; [shl|]. intros n E; injection E as <-; auto.
  - intros H. destruct (Ascii.eqb c "("); [|destruct (Ascii.eqb c ")")].
    + destruct (IH (S d) b) as [H1 H2]; [shl|]. split; [shl|auto].
    + destruct (IH (pred d) b) as [H1 H2]; [shl|]. split; [shl|]. destruct d; [discriminate|auto].
    + destruct (IH d b) as [H1 H2]; [shl|]. split; [shl|auto].
Qed.


(** From depth 0 (outside): [w] is kept until something is closed; from depth S d0 we track if depth 0 is reached. *)
Fixpoint reaches0 (d : nat) (s : text) : bool :=
  match s with
  | [] => false
  | c :: s' =>
      if Ascii.eqb c "(" then reaches0 (S d) s'
      else if Ascii.eqb c ")" then match d with O => false | 1 => true | S d' => reaches0 d' s' end
      else reaches0 d s'
  end.

Lemma left_loop_false s : forall d, shallow (peak d s) ->
  left_loop s (N.of_nat d) false =
  match nest d s with None => inl Premature_I | Some n => inr (N.of_nat n, false) end.
Proof.
  induction s as [|c s IH]; intros d H; cbn [left_loop nest peak] in *; auto.
  destruct (Ascii.eqb c "("); [|destruct (Ascii.eqb c ")")].
  - pose proof (peak_ge s (S d)). rewrite small_mod by shl. apply IH; shl.
  - destruct d as [|d]; auto. cbn [pred] in H.
    replace (N.of_nat (S d) =? 0)%N with false by (symmetry; apply N.eqb_neq; shl).
    replace (N.of_nat (S d) - 1)%N with (N.of_nat d) by shl.
    replace (if (N.of_nat d =? 0)%N then false else false) with false by (now destruct (_ =? _)%N). apply IH; shl.
  - apply IH; shl.
Qed.

Lemma left_loop_true s : forall d w, shallow (peak d s) ->
  left_loop s (N.of_nat d) w =
  match nest d s with None => inl Premature_I | Some n => inr (N.of_nat n, w && negb (reaches0 d s)) end.
Proof.
  induction s as [|c s IH]; intros d w H; cbn [left_loop nest peak reaches0] in *.
  - now rewrite andb_true_r.
  - destruct (Ascii.eqb c "("); [|destruct (Ascii.eqb c ")")].
    + pose proof (peak_ge s (S d)). rewrite small_mod by shl. apply IH; shl.
    + destruct d as [|d]; auto. cbn [pred] in H.
      replace (N.of_nat (S d) =? 0)%N with false by (symmetry; apply N.eqb_neq; shl).
      replace (N.of_nat (S d) - 1)%N with (N.of_nat d) by shl.
      destruct d as [|d].
      * cbn [N.of_nat N.eqb]. rewrite andb_false_r. apply (left_loop_false s 0). shl.
      * replace (N.of_nat (S d) =? 0)%N with false by (symmetry; apply N.eqb_neq; shl). apply IH; shl.
    + apply IH; shl.
Qed.

Lemma reaches0_nest s : forall d, reaches0 (S d) s = match nest d s with Some _ => false | None => true end.
Proof.
  induction s as [|c s IH]; intros d; cbn [reaches0 nest]; auto.
  destruct (Ascii.eqb c "("); [|destruct (Ascii.eqb c ")")]; auto. destruct d; auto.
Qed.
Lemma nest_S s : forall d n, nest d s = Some n -> nest (S d) s = Some (S n).
Proof.
  induction s as [|c s IH]; intros d n; cbn [nest]; [congruence|].
  destruct (Ascii.eqb c "("); [|destruct (Ascii.eqb c ")")]; auto. destruct d; [discriminate|auto].
Qed.

(** The loop over the geometry, outside of a pair of parentheses ... *)
Lemma geom_loop_false s : forall d, shallow (peak d s) ->
  geom_loop false s (N.of_nat d) false = match nest d s with None => inl Premature_II | Some _ => inr false end.
Proof.
  induction s as [|c s IH]; intros d H; cbn [geom_loop nest peak] in *; auto.
  destruct (Ascii.eqb c "("); [|destruct (Ascii.eqb c ")")].
  - pose proof (peak_ge s (S d)). rewrite small_mod by shl. apply IH; shl.
  - destruct d as [|d]; auto. cbn [pred] in H.
    replace (N.of_nat (S d) =? 0)%N with false by (symmetry; apply N.eqb_neq; shl).
    replace (N.of_nat (S d) - 1)%N with (N.of_nat d) by shl. rewrite andb_false_r. apply IH; shl.
  - apply IH; shl.
Qed.
(** ... and within one. *)
Fixpoint first_close (d : nat) (s : text) : option text :=
  match s with
  | [] => None
  | c :: s' =>
      if Ascii.eqb c "(" then first_close (S d) s'
      else if Ascii.eqb c ")" then match d with O => Some s' | S d' => first_close d' s' end
      else first_close d s'
  end.
Lemma geom_loop_true s : forall d, shallow (peak (S d) s) ->
  geom_loop true s (N.of_nat (S d)) false =
  match first_close d s with None => inr false | Some [] => inr true | Some _ => inl Inappropriate_II end.
Proof.
  induction s as [|c s IH]; intros d H; cbn [geom_loop first_close peak] in *; auto.
  destruct (Ascii.eqb c "("); [|destruct (Ascii.eqb c ")")].
  - pose proof (peak_ge s (S (S d))). rewrite small_mod by shl. apply IH; shl.
  - cbn [pred] in H. replace (N.of_nat (S d) =? 0)%N with false by (symmetry; apply N.eqb_neq; shl).
    replace (N.of_nat (S d) - 1)%N with (N.of_nat d) by shl. destruct d as [|d].
    + cbn. destruct s; reflexivity.
    + replace (N.of_nat (S d) =? 0)%N with false by (symmetry; apply N.eqb_neq; shl). cbn [andb]. apply IH; shl.
  - apply IH; shl.
Qed.
Lemma first_close_none s : forall d, first_close d s = None <-> nest d s <> None.
Proof.
  induction s as [|c s IH]; intros d; cbn [first_close nest].
  - split; [discriminate|auto].
  - destruct (Ascii.eqb c "("); [|destruct (Ascii.eqb c ")")]; auto. destruct d; [|auto]. split; [discriminate|congruence].
Qed.
Lemma first_close_some s : forall d r, first_close d s = Some r <-> exists a, s = a ++ ")"%char :: r /\ nest d a = Some 0.
Proof.
  induction s as [|c s IH]; intros d r; cbn [first_close].
  - split; [discriminate|]. intros (a & H & _). destruct a; discriminate.
  - assert (K : forall d', first_close d' s = Some r ->
      (if Ascii.eqb c "(" then d' = S d else if Ascii.eqb c ")" then d = S d' else d' = d) ->
      exists a, c :: s = a ++ ")"%char :: r /\ nest d a = Some 0).
    { intros d' E C. apply IH in E as (a & -> & N). exists (c :: a). split; [reflexivity|]. cbn [nest].
      destruct (Ascii.eqb c "("); [now subst|]. destruct (Ascii.eqb c ")"); now subst. }
    destruct (Ascii.eqb c "(") eqn:E1; [|destruct (Ascii.eqb c ")") eqn:E2].
    + split; [intros H; eapply K; eauto|]. intros ([|x a] & H & N); injection H as -> H.
      * discriminate. * subst. cbn [nest] in N. rewrite E1 in N. apply IH. eauto.
    + destruct d as [|d].
      * split.
        -- intros H; injection H as ->. exists []. apply Ascii.eqb_eq in E2. subst. auto.
        -- intros ([|x a] & H & N); [injection H as _ ->; reflexivity|injection H as -> H]. cbn [nest] in N. rewrite E1, E2 in N. discriminate.
      * split; [intros H; eapply K; eauto|]. intros ([|x a] & H & N).
        -- discriminate.
        -- injection H as -> H. subst. cbn [nest] in N. rewrite E1, E2 in N. apply IH. eauto.
    + split; [intros H; eapply K; eauto|]. intros ([|x a] & H & N); injection H as -> H.
      * discriminate. * subst. cbn [nest] in N. rewrite E1, E2 in N. apply IH. eauto.
Qed.

Lemma nest_open l : nest 0 ("("%char :: l) = nest 1 l.
Proof. reflexivity. Qed.

(** Exactly what is let through, and how it is changed. *)
Lemma check_iff l g l' g' : shallow (peak 0 (l ++ g)) ->
  (check_and_adjust_parens l g = inr (l', g') <->
   enclosed l g l' g' \/
   (l' = l /\ g' = g /\ well_closed g /\ (balanced l \/ exists l0, l = "("%char :: l0 /\ balanced l0))).
Proof.
  intros H. destruct (peak_app _ _ _ H) as [H1 H2]. unfold check_and_adjust_parens.
  rewrite (left_loop_true l 0) by assumption. unfold enclosed, balanced, well_closed.
  destruct (nest 0 l) as [n|] eqn:El.
  2:{ split; [discriminate|]. intros [(-> & _ & B & _)|(-> & -> & _ & [B|(l0 & -> & B)])].
      - rewrite nest_open, (nest_S _ _ _ B) in El. discriminate.
      - congruence.
      - rewrite nest_open, (nest_S _ _ _ B) in El. discriminate. }
  specialize (H2 n eq_refl).
  set (wi := (match l with c :: _ => Ascii.eqb c "(" | [] => false end) && negb (reaches0 0 l)).
  assert (W : wi = true <-> exists l0 m, l = "("%char :: l0 /\ nest 0 l0 = Some m).
  { subst wi. destruct l as [|c l0]; cbn [andb].
    - split; [discriminate|]. intros (? & ? & ? & _). discriminate.
    - destruct (Ascii.eqb_spec c "(") as [->|N]; cbn [andb].
      + cbn [reaches0]. change (Ascii.eqb "(" "(") with true. cbv iota. rewrite reaches0_nest.
        destruct (nest 0 l0) as [m|] eqn:Em; cbn; split; try discriminate; eauto.
        intros (l1 & m & E & Hm). injection E as ->. congruence.
      + split; [discriminate|]. intros (l1 & m & E & _). injection E as ->. congruence. }
  destruct wi.
  - destruct W as [W _]. destruct (W eq_refl) as (l0 & m & -> & Em). clear W.
    rewrite nest_open, (nest_S _ _ _ Em) in El. injection El as <-.
    destruct m as [|m].
    + change (N.of_nat 1) with 1%N. cbn [N.ltb N.compare Pos.compare Pos.compare_cont orb N.eqb Pos.eqb andb negb].
      change 1%N with (N.of_nat 1). rewrite geom_loop_true by assumption.
      destruct (first_close 0 g) as [[|c r]|] eqn:Ef.
      * apply first_close_some in Ef as (a & -> & Na). rewrite removelast_last. cbn [tl]. split.
        -- intros E; injection E as <- <-. left. auto.
        -- intros [(E1 & E2 & _ & _)|(-> & -> & N & _)].
           ++ injection E1 as <-. apply app_inj_tail in E2 as [<- _]. reflexivity.
           ++ exfalso. apply N. clear N. revert Na. enough (forall d, nest d a = Some 0 -> nest d (a ++ [")"%char]) = None) by auto. clear.
              induction a as [|c a IH]; intros d; cbn [nest app].
              ** intros E; injection E as ->. reflexivity.
              ** destruct (Ascii.eqb c "("); [|destruct (Ascii.eqb c ")")]; auto. destruct d; [discriminate|auto].
      * split; [discriminate|]. intros [(_ & E2 & _ & B)|(-> & -> & N & _)].
        -- assert (first_close 0 g = Some []) by (apply first_close_some; eauto). congruence.
        -- apply first_close_none in N. congruence.
      * apply first_close_none in Ef. split.
        -- intros E; injection E as <- <-. right. repeat split; eauto.
        -- intros [(_ & E2 & _ & B)|(-> & -> & _)]; [|reflexivity].
           assert (first_close 0 g = Some []) as K by (apply first_close_some; eauto). apply first_close_none in Ef. congruence.
    + replace (1 <? N.of_nat (S (S m)))%N with true by (symmetry; apply N.ltb_lt; shl). cbn [orb]. split; [discriminate|].
      intros [(E & _ & B & _)|(_ & _ & _ & [B|(l1 & E & B)])].
      * injection E as <-. congruence.
      * discriminate.
      * injection E as <-. congruence.
  - destruct n as [|n].
    + cbn [N.of_nat N.ltb N.compare orb N.eqb andb negb]. change 0%N with (N.of_nat 0); rewrite (geom_loop_false g 0) by assumption.
      destruct (nest 0 g) as [m|] eqn:Eg.
      * split.
        -- intros E; injection E as <- <-. right. repeat split; auto. discriminate.
        -- intros [(-> & _ & B & _)|(-> & -> & _)]; [|reflexivity]. rewrite nest_open, (nest_S _ _ _ B) in El. discriminate.
      * split; [discriminate|]. intros [(-> & _ & B & _)|(_ & _ & N & _)].
        -- rewrite nest_open, (nest_S _ _ _ B) in El. discriminate.
        -- congruence.
    + assert (((1 <? N.of_nat (S n)) || (N.of_nat (S n) =? 1) && negb false)%N = true) as ->.
      { destruct n; [reflexivity|]. replace (1 <? N.of_nat (S (S n)))%N with true; [reflexivity|]. symmetry; apply N.ltb_lt; shl. }
      assert (NW : ~ exists l0 m, l = "("%char :: l0 /\ nest 0 l0 = Some m) by (intros K; apply W in K; discriminate).
      split; [discriminate|]. intros [(-> & _ & B & _)|(_ & _ & _ & [B|(l1 & -> & B)])].
      * exfalso; apply NW; eauto. * congruence. * exfalso; apply NW; eauto.
Qed.

(** Which of the four complaints. *)
Lemma geom_never_I w g : forall d cl, geom_loop w g d cl <> inl Premature_I.
Proof.
  induction g as [|c g IH]; intros d cl; cbn [geom_loop]; [discriminate|].
  destruct cl; [discriminate|]. destruct (Ascii.eqb c "("); [apply IH|]. destruct (Ascii.eqb c ")"); [|apply IH].
  destruct (d =? 0)%N; [discriminate|apply IH].
Qed.
Lemma check_premature_I l g : shallow (peak 0 (l ++ g)) ->
  (check_and_adjust_parens l g = inl Premature_I <-> ~ well_closed l).
Proof.
  intros H. destruct (peak_app _ _ _ H) as [H1 _]. unfold check_and_adjust_parens, well_closed.
  rewrite (left_loop_true l 0) by assumption. destruct (nest 0 l) as [n|].
  - split; [|intros K; exfalso; apply K; discriminate].
    destruct (_ || _); [discriminate|]. intros E. exfalso.
    destruct (geom_loop _ g (N.of_nat n) false) as [e|b] eqn:G; [injection E as ->|destruct b; discriminate].
    exact (geom_never_I _ _ _ _ G).
  - split; [congruence|auto].
Qed.

(** * Behind 65535 *)
Lemma left_loop_opens n : forall d s w, left_loop (repeat "("%char n ++ s) d w = left_loop s (N.iter (N.of_nat n) ushort_inc d) w.
Proof.
  induction n as [|n IH]; intros d s w; [reflexivity|].
  cbn [repeat app left_loop]. change (Ascii.eqb "(" "(") with true. cbv iota. rewrite IH.
  f_equal. rewrite Nat2N.inj_succ, N.iter_succ_r. reflexivity.
Qed.
Lemma inc_iter n d : (d < ushort_mod)%N -> N.iter n ushort_inc d = ((d + n) mod ushort_mod)%N.
Proof.
  intros H. induction n as [|n IH] using N.peano_ind.
  - cbn. rewrite N.add_0_r, N.mod_small; auto.
  - rewrite N.iter_succ, IH. unfold ushort_inc. rewrite N.add_mod_idemp_l by discriminate. f_equal. shl.
Qed.
Lemma nest_opens n : forall d s, nest d (repeat "("%char n ++ s) = nest (n + d) s.
Proof. induction n as [|n IH]; intros d s; [reflexivity|]. cbn [repeat app nest]. change (Ascii.eqb "(" "(") with true. cbv iota. rewrite IH. f_equal. shl. Qed.
Lemma nest_closes n : nest n (repeat ")"%char n) = Some 0.
Proof. induction n as [|n IH]; [reflexivity|]. cbn [repeat nest]. exact IH. Qed.

Lemma deep_rejected n s g : N.of_nat n = 65536%N -> check_and_adjust_parens (repeat "("%char n ++ ")"%char :: s) g = inl Premature_I.
Proof.
  intros Hn. unfold check_and_adjust_parens. rewrite left_loop_opens, Hn, inc_iter by reflexivity.
  change ((0 + 65536) mod ushort_mod)%N with 0%N. cbn [left_loop]. reflexivity.
Qed.
Lemma deep_accepted n g : N.of_nat n = 65536%N -> well_closed g -> shallow (peak 0 g) ->
  check_and_adjust_parens ("x"%char :: repeat "("%char n) g = inr ("x"%char :: repeat "("%char n, g).
Proof.
  intros Hn H P. unfold check_and_adjust_parens.
  cbn [left_loop]. change (Ascii.eqb "x" "(") with false. change (Ascii.eqb "x" ")") with false. cbv iota.
  rewrite <- (app_nil_r (repeat "("%char n)) at 1. rewrite left_loop_opens, Hn, inc_iter by reflexivity.
  change ((0 + 65536) mod ushort_mod)%N with 0%N. cbn [left_loop N.ltb N.compare N.eqb orb andb negb].
  change 0%N with (N.of_nat 0). rewrite (geom_loop_false g 0) by assumption. unfold well_closed in H. destruct (nest 0 g); [reflexivity|congruence].
Qed.
