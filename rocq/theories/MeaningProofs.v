(** The truth value of the WHERE clause before and after the rewriting. *)
From Coq Require Import ZArith.
From Verif Require Import Preprocess TextLemmas Spec SpecRewrite ParenProofs RewriteProofs RewriteExact RewriteMain.

(** * Words *)
Lemma words_from_blank a : forall cur b, words_from cur (a ++ " "%char :: b) = words_from cur a ++ words b.
Proof.
  induction a as [|c a IH]; intros cur b; cbn [app words_from].
  - change (Ascii.eqb " " " ") with true. cbv iota. destruct cur; reflexivity.
  - destruct (Ascii.eqb c " "); [|apply IH]. destruct cur; [apply IH|]. cbn. f_equal. apply IH.
Qed.
Lemma words_blank a b : words (a ++ " "%char :: b) = words a ++ words b.
Proof. apply words_from_blank. Qed.
Lemma words_blanks b t : blank b -> words (b ++ t) = words t.
Proof. intros H. induction H as [|c b -> H IH]; [reflexivity|]. cbn. exact IH. Qed.
Lemma words_from_dark w : Forall (fun c => c <> " "%char) w -> forall cur, (w <> [] \/ cur <> []) -> words_from cur w = [rev cur ++ w].
Proof.
  induction 1 as [|c w N H IH]; intros cur K.
  - cbn. destruct cur; [destruct K; congruence|]. now rewrite app_nil_r.
  - cbn [words_from]. destruct (Ascii.eqb_spec c " "); [congruence|]. rewrite IH by (right; discriminate). cbn. now rewrite <- app_assoc.
Qed.

Lemma words_spaced m a b : spaced_and m -> exists w, upper w = L "AND" /\ words (a ++ m ++ b) = words a ++ w :: words b.
Proof.
  intros (b1 & w & b2 & -> & B1 & N1 & W & B2 & N2). exists w. split; [exact W|].
  destruct b1 as [|c b1]; [congruence|]. destruct b2 as [|c2 b2]; [congruence|]. inversion B1; inversion B2; subst.
  cbn [app]. rewrite words_blank, <- !app_assoc. f_equal. rewrite words_blanks by assumption. cbn [app]. rewrite words_blank.
  rewrite words_blanks by assumption. unfold words. rewrite words_from_dark; [reflexivity| |].
  - eapply spelt_nonblank; [|exact W]. apply nonblank_check. reflexivity.
  - left. intros ->. discriminate.
Qed.

(** * Depth of words *)
Open Scope Z_scope.
Fixpoint deltas (ws : list text) : Z := match ws with [] => 0 | w :: ws' => delta w + deltas ws' end.
Lemma delta_app a b : delta (a ++ b) = delta a + delta b.
Proof. induction a as [|c a IH]; cbn; [reflexivity|]. rewrite IH. lia. Qed.
Lemma delta_rev a : delta (rev a) = delta a.
Proof. induction a as [|c a IH]; [reflexivity|]. cbn. rewrite delta_app, IH. cbn. lia. Qed.
Lemma deltas_from t : forall cur, deltas (words_from cur t) = delta cur + delta t.
Proof.
  induction t as [|c t IH]; intros cur; cbn [words_from delta].
  - destruct cur as [|x cur]; [reflexivity|]. cbn [deltas]. rewrite delta_rev. lia.
  - destruct (Ascii.eqb_spec c " ") as [->|N].
    + change (Ascii.eqb " " "(") with false. change (Ascii.eqb " " ")") with false. cbv iota.
      destruct cur as [|x cur]; [rewrite IH; cbn; lia|]. cbn [deltas]. rewrite IH, delta_rev. cbn [delta]. lia.
    + rewrite IH. cbn [delta]. lia.
Qed.
Lemma deltas_words t : deltas (words t) = delta t.
Proof. unfold words. rewrite deltas_from. reflexivity. Qed.
Lemma nest_delta t : forall d n, nest d t = Some n -> Z.of_nat n = Z.of_nat d + delta t.
Proof.
  induction t as [|c t IH]; intros d n; cbn [nest delta].
  - intros H; injection H as <-. lia.
  - destruct (Ascii.eqb c "("); [|destruct (Ascii.eqb c ")")].
    + intros H. apply IH in H. lia. + destruct d; [discriminate|]. intros H. apply IH in H. lia. + intros H. apply IH in H. lia.
Qed.
Lemma balanced_delta t : balanced t -> delta t = 0.
Proof. intros H. apply nest_delta in H. cbn in H. lia. Qed.

(** * Cutting *)
Lemma cut_ne k ws : forall d, cut k d ws <> [].
Proof. induction ws as [|w ws IH]; intros d; cbn [cut]; [discriminate|]. destruct (_ && _); [discriminate|]. unfold cons_head. destruct (cut _ _ _); discriminate. Qed.
Lemma upc_paren c x : x = "("%char \/ x = ")"%char -> Ascii.eqb (upc c) x = Ascii.eqb c x.
Proof. intros [ -> | -> ]; all_bytes c; reflexivity. Qed.
Lemma delta_upper w : delta (upper w) = delta w.
Proof. induction w as [|c w IH]; [reflexivity|]. cbn [upper map delta]. rewrite !upc_paren by auto. unfold upper in IH. now rewrite IH. Qed.
Lemma text_eqb_iff a : forall b, text_eqb a b = true <-> a = b.
Proof.
  induction a as [|x a IH]; intros [|y b]; cbn; split; intros H; auto; try discriminate.
  - apply andb_true_iff in H as [H1 H2]. apply Ascii.eqb_eq in H1. apply IH in H2. congruence.
  - injection H as -> ->. rewrite Ascii.eqb_refl. now apply IH.
Qed.
Lemma cut_at k w ws2 : delta k = 0 -> upper w = k -> forall ws1 d, d + deltas ws1 = 0 ->
  cut k d (ws1 ++ w :: ws2) = cut k d ws1 ++ cut k 0 ws2.
Proof.
  intros Dk E. apply text_eqb_iff in E. induction ws1 as [|x ws1 IH]; intros d D; cbn [app cut deltas] in *.
  - assert (d = 0) as -> by lia. rewrite E. reflexivity.
  - destruct (_ && _) eqn:C.
    + rewrite IH; [reflexivity|]. apply andb_true_iff in C as [_ C]. apply text_eqb_iff in C. rewrite <- C, delta_upper in Dk. lia.
    + rewrite IH by lia. pose proof (cut_ne k ws1 (d + delta x)). destruct (cut k (d + delta x) ws1); [congruence|reflexivity].
Qed.
Definition app_head {A} (x : list A) (l : list (list A)) : list (list A) := match l with [] => [x] | h :: t => (x ++ h) :: t end.
Lemma cut_whole k ws2 : forall ws1 d, cut k d ws1 = [ws1] -> cut k d (ws1 ++ ws2) = app_head ws1 (cut k (d + deltas ws1) ws2).
Proof.
  induction ws1 as [|x ws1 IH]; intros d H; cbn [app cut deltas] in *.
  - rewrite Z.add_0_r. pose proof (cut_ne k ws2 d). destruct (cut k d ws2); [congruence|reflexivity].
  - destruct (_ && _); [discriminate|]. rewrite IH.
    + replace (d + delta x + deltas ws1) with (d + (delta x + deltas ws1)) by lia. destruct (cut k _ ws2); reflexivity.
    + pose proof (cut_ne k ws1 (d + delta x)). destruct (cut k (d + delta x) ws1) as [|h t]; [congruence|]. cbn in H. congruence.
Qed.

(** A word that is not the one to cut at. *)
Lemma cut_other k w ws : text_eqb (upper w) k = false -> cut k 0 (w :: ws) = cons_head w (cut k (delta w) ws).
Proof. intros E. cbn [cut]. rewrite E, andb_false_r. reflexivity. Qed.

(** The truth value of [a AND b]: only the first disjunct of [b] is affected. *)
Definition AND := L "AND".
Definition OR := L "OR".
Definition conj (v : list text -> bool) (ws : list text) : bool := forallb v (cut AND 0 ws).
Definition disj (v : list text -> bool) (l : list (list text)) : bool := existsb (conj v) l.

Lemma conj_and v a w b : upper w = AND -> deltas a = 0 -> conj v (a ++ w :: b) = conj v a && conj v b.
Proof. intros E D. unfold conj. rewrite cut_at; auto. apply forallb_app. Qed.
Lemma truth_eq v t : truth v t = disj v (cut OR 0 (words t)).
Proof. reflexivity. Qed.

Lemma or_and_head a w b : upper w = AND -> deltas a = 0 -> cut OR 0 a = [a] ->
  exists h t, cut OR 0 b = h :: t /\ cut OR 0 (a ++ w :: b) = (a ++ w :: h) :: t.
Proof.
  intros E D C. rewrite cut_whole by exact C. rewrite D, Z.add_0_r.
  rewrite cut_other by (rewrite E; reflexivity). assert (delta w = 0) as -> by (rewrite <- delta_upper, E; reflexivity).
  pose proof (cut_ne OR b 0). destruct (cut OR 0 b) as [|h t] eqn:Eb; [congruence|]. exists h, t. split; [reflexivity|]. reflexivity.
Qed.

(** [a AND b AND rest] and [b AND a AND rest]. *)
Lemma swap3 v a b c w1 w2 w3 w4 : upper w1 = AND -> upper w2 = AND -> upper w3 = AND -> upper w4 = AND ->
  deltas a = 0 -> deltas b = 0 -> cut OR 0 a = [a] -> cut OR 0 b = [b] ->
  disj v (cut OR 0 (a ++ w1 :: b ++ w2 :: c)) = disj v (cut OR 0 (b ++ w3 :: a ++ w4 :: c)).
Proof.
  intros E1 E2 E3 E4 Da Db Ca Cb.
  destruct (or_and_head b w2 c E2 Db Cb) as (h & t & Ec & Eb). destruct (or_and_head a w1 (b ++ w2 :: c) E1 Da Ca) as (h1 & t1 & Ec1 & ->).
  rewrite Eb in Ec1. injection Ec1 as <- <-.
  destruct (or_and_head a w4 c E4 Da Ca) as (h' & t' & Ec' & Ea). rewrite Ec in Ec'. injection Ec' as <- <-.
  destruct (or_and_head b w3 (a ++ w4 :: c) E3 Db Cb) as (h1 & t1 & Ec1 & ->). rewrite Ea in Ec1. injection Ec1 as <- <-.
  unfold disj. cbn [existsb]. f_equal. rewrite !conj_and by auto. destruct (conj v a), (conj v b), (conj v h); reflexivity.
Qed.
Lemma swap2 v a b w1 w3 : upper w1 = AND -> upper w3 = AND ->
  deltas a = 0 -> deltas b = 0 -> cut OR 0 a = [a] -> cut OR 0 b = [b] ->
  disj v (cut OR 0 (a ++ w1 :: b)) = disj v (cut OR 0 (b ++ w3 :: a)).
Proof.
  intros E1 E3 Da Db Ca Cb.
  destruct (or_and_head a w1 b E1 Da Ca) as (h1 & t1 & Ec1 & ->). rewrite Cb in Ec1. injection Ec1 as <- <-.
  destruct (or_and_head b w3 a E3 Db Cb) as (h1 & t1 & Ec1 & ->). rewrite Ca in Ec1. injection Ec1 as <- <-.
  unfold disj. cbn [existsb]. f_equal. rewrite !conj_and by auto. apply andb_comm.
Qed.

(** * An enclosing pair of parentheses *)
Lemma prefix_delta t : forall p q d, t = p ++ q -> nest d t <> None -> 0 <= Z.of_nat d + delta p.
Proof.
  induction t as [|c t IH]; intros p q d E N.
  - destruct p; [cbn; lia|discriminate].
  - destruct p as [|x p]; [cbn; lia|]. injection E as <- E. cbn [nest delta] in *.
    destruct (Ascii.eqb c "("); [|destruct (Ascii.eqb c ")")].
    + specialize (IH p q (S d) E N). lia.
    + destruct d; [congruence|]. specialize (IH p q d E N). lia.
    + specialize (IH p q d E N). lia.
Qed.
Lemma cut_inside k t : forall cur d, 0 < d ->
  (forall p q, t = p ++ q -> q <> [] -> 0 < d + delta cur + delta p) -> cut k d (words_from cur t) = [words_from cur t].
Proof.
  induction t as [|c t IH]; intros cur d D P; cbn [words_from].
  - destruct cur; [reflexivity|]. cbn [cut]. replace (d =? 0) with false by (symmetry; apply Z.eqb_neq; lia). reflexivity.
  - destruct (Ascii.eqb_spec c " ") as [->|N].
    + destruct cur as [|x cur].
      * apply IH; [exact D|]. intros p q -> Nq. specialize (P (" "%char :: p) q eq_refl Nq). cbn in *. lia.
      * cbn [cut]. replace (d =? 0) with false by (symmetry; apply Z.eqb_neq; lia). cbn [andb].
        rewrite IH; [reflexivity| |].
        -- specialize (P [] (" "%char :: t) eq_refl ltac:(discriminate)). rewrite delta_rev. cbn [delta] in *. lia.
        -- intros p q -> Nq. specialize (P (" "%char :: p) q eq_refl Nq). rewrite delta_rev. cbn [delta] in *.
           change (Ascii.eqb " " "(") with false in P. change (Ascii.eqb " " ")") with false in P. cbv iota in P. lia.
    + apply IH; [exact D|]. intros p q -> Nq. specialize (P (c :: p) q eq_refl Nq). cbn [delta] in *. lia.
Qed.
Lemma cut_open k t : match k with c :: _ => Ascii.eqb "(" c = false | [] => True end -> forall cur, last cur " "%char = "("%char -> cur <> [] ->
  (forall p q, t = p ++ q -> q <> [] -> 0 < delta cur + delta p) -> cut k 0 (words_from cur t) = [words_from cur t].
Proof.
  intros Hk.
  assert (Hw : forall cur, last cur " "%char = "("%char -> text_eqb (upper (rev cur)) k = false).
  { intros cur H. destruct cur as [|y cur] using rev_ind; [discriminate|]. rewrite last_last in H. subst y. rewrite rev_app_distr. cbn [rev app upper map].
    destruct k as [|c k]; [reflexivity|]. cbn [text_eqb]. change (upc "(") with "("%char. rewrite Hk. reflexivity. }
  induction t as [|c t IH]; intros cur Hc Nc P; cbn [words_from].
  - destruct cur as [|x cur]; [congruence|]. rewrite cut_other by (now apply Hw). reflexivity.
  - destruct (Ascii.eqb_spec c " ") as [->|N].
    + destruct cur as [|x cur]; [congruence|]. rewrite cut_other by (now apply Hw). rewrite delta_rev.
      rewrite cut_inside; [reflexivity| |].
      * specialize (P [] (" "%char :: t) eq_refl ltac:(discriminate)). cbn [delta] in *. lia.
      * intros p q -> Nq. specialize (P (" "%char :: p) q eq_refl Nq). cbn [delta] in *.
        change (Ascii.eqb " " "(") with false in P. change (Ascii.eqb " " ")") with false in P. cbv iota in P. lia.
    + apply IH.
      * destruct cur; [congruence|]. exact Hc.
      * discriminate.
      * intros p q -> Nq. specialize (P (c :: p) q eq_refl Nq). cbn [delta] in *. lia.
Qed.
Lemma cut_paren k t : match k with c :: _ => Ascii.eqb "(" c = false | [] => True end -> balanced t ->
  cut k 0 (words ("("%char :: t ++ [")"%char])) = [words ("("%char :: t ++ [")"%char])].
Proof.
  intros Hk B. unfold words. cbn [words_from]. change (Ascii.eqb "(" " ") with false. cbv iota.
  apply cut_open; auto; [discriminate|]. intros p q E Nq.
  assert (exists q', t = p ++ q') as (q' & E').
  { destruct (app_cmp _ _ _ _ E) as [(e & _ & K & _)|[[-> _]|(e & Ne & K1 & K2)]].
    - eauto. - exists []. now rewrite app_nil_r.
    - exfalso. destruct e as [|x e]; [congruence|]. injection K2 as _ K2. destruct e; [|discriminate]. destruct q; [congruence|discriminate]. }
  assert (nest 0 t <> None) as N by (unfold balanced in B; congruence). pose proof (prefix_delta t p q' 0%nat E' N). cbn [delta]. change (Ascii.eqb "(" "(") with true. cbv iota. lia.
Qed.

(** * The WHERE clause *)
Lemma nest_app a : forall d n b, nest d a = Some n -> nest d (a ++ b) = nest n b.
Proof.
  induction a as [|c a IH]; intros d n b; cbn [nest app]; [congruence|].
  destruct (Ascii.eqb c "("); [|destruct (Ascii.eqb c ")")]; auto. destruct d; [discriminate|auto].
Qed.
Lemma nest_nop t : Forall (fun c => c <> "("%char /\ c <> ")"%char) t -> forall d, nest d t = Some d.
Proof.
  induction 1 as [|c t [N1 N2] H IH]; intros d; cbn [nest]; [reflexivity|].
  destruct (Ascii.eqb_spec c "("); [congruence|]. destruct (Ascii.eqb_spec c ")"); [congruence|]. apply IH.
Qed.
Lemma spaced_between m : spaced_and m -> and_between m.
Proof. intros (b1 & a & b2 & -> & B1 & _ & A & B2 & _). exists b1, a, b2. auto. Qed.
Lemma between_nop m : and_between m -> Forall (fun c => c <> "("%char /\ c <> ")"%char) m.
Proof. intros M. apply between_andish in M. eapply Forall_impl; [|exact M]. intros c A. split; intros ->; unfold andish in A; cbn in A; intuition discriminate. Qed.
Lemma conj_paren v t : groups v -> balanced t -> conj v (words ("("%char :: t ++ [")"%char])) = truth v t.
Proof. intros G B. unfold conj. rewrite (cut_paren AND); [|reflexivity|exact B]. cbn [forallb]. rewrite andb_true_r. apply G. exact B. Qed.

Lemma spaced_AND : spaced_and (L " AND ").
Proof. exists [" "%char], (L "AND"), [" "%char]. repeat split; try discriminate; repeat constructor. Qed.

Lemma truth_swap v l m1 g m2 r : spaced_and m1 -> (m2 = [] /\ r = []) \/ (spaced_and m2 /\ r <> []) ->
  balanced l -> or_free l -> balanced g -> or_free g ->
  truth v (g ++ L " AND " ++ l ++ match r with [] => [] | _ => L " AND " ++ r end) = truth v (l ++ m1 ++ g ++ m2 ++ r).
Proof.
  intros M1 M2 Bl Ol Bg Og. rewrite !truth_eq. unfold or_free in *.
  assert (Dl : deltas (words l) = 0) by (now rewrite deltas_words, balanced_delta).
  assert (Dg : deltas (words g) = 0) by (now rewrite deltas_words, balanced_delta).
  destruct M2 as [[-> ->]|[M2 Nr]].
  - rewrite !app_nil_r. destruct (words_spaced m1 l g M1) as (w1 & W1 & ->). destruct (words_spaced _ g l spaced_AND) as (w2 & W2 & ->).
    symmetry. now apply swap2.
  - destruct (words_spaced m1 l (g ++ m2 ++ r) M1) as (w1 & W1 & ->). destruct (words_spaced m2 g r M2) as (w2 & W2 & ->).
    destruct r as [|c r]; [congruence|].
    destruct (words_spaced _ g (l ++ L " AND " ++ (c :: r)) spaced_AND) as (w3 & W3 & ->). destruct (words_spaced _ l (c :: r) spaced_AND) as (w4 & W4 & ->).
    symmetry. now apply swap3.
Qed.
Lemma truth_enclosed v l m1 g m2 r : groups v -> spaced_and m1 -> (m2 = [] /\ r = []) \/ (spaced_and m2 /\ r <> []) ->
  balanced l -> or_free l -> balanced g -> or_free g ->
  truth v (g ++ L " AND " ++ l ++ match r with [] => [] | _ => L " AND " ++ r end) =
  truth v (("("%char :: l) ++ m1 ++ (g ++ [")"%char]) ++ m2 ++ r).
Proof.
  intros G M1 M2 Bl Ol Bg Og. unfold or_free in *.
  set (t := l ++ m1 ++ g).
  assert (Bt : balanced t).
  { unfold balanced, t in *. rewrite (nest_app l 0 0) by assumption. rewrite (nest_app m1 0 0); [assumption|]. apply nest_nop, between_nop, spaced_between, M1. }
  replace (("("%char :: l) ++ m1 ++ (g ++ [")"%char]) ++ m2 ++ r) with (("("%char :: t ++ [")"%char]) ++ m2 ++ r) by (unfold t; cbn; now rewrite <- !app_assoc).
  set (P := "("%char :: t ++ [")"%char]).
  assert (Tt : truth v t = conj v (words g) && conj v (words l)).
  { unfold t. pose proof (truth_swap v l m1 g [] [] M1 (or_introl (Logic.conj eq_refl eq_refl)) Bl Ol Bg Og) as K. rewrite !app_nil_r in K. rewrite <- K, truth_eq.
    destruct (words_spaced _ g l spaced_AND) as (w2 & W2 & ->).
    destruct (or_and_head (words g) w2 (words l) W2 ltac:(now rewrite deltas_words, balanced_delta) Og) as (h & u & E1 & ->).
    fold OR in Ol. rewrite Ol in E1. injection E1 as <- <-. unfold disj. cbn [existsb]. rewrite orb_false_r. apply conj_and; auto. now rewrite deltas_words, balanced_delta. }
  assert (CP : conj v (words P) = conj v (words g) && conj v (words l)) by (unfold P; now rewrite conj_paren).
  assert (OP : cut OR 0 (words P) = [words P]) by (apply cut_paren; [reflexivity|exact Bt]).
  assert (DP : deltas (words P) = 0).
  { rewrite deltas_words. unfold P. cbn [delta]. rewrite delta_app, (balanced_delta t Bt). reflexivity. }
  destruct M2 as [[-> ->]|[M2 Nr]].
  - rewrite !app_nil_r, (truth_eq v P), OP. unfold disj. cbn [existsb]. rewrite orb_false_r, CP, <- Tt.
    pose proof (truth_swap v l m1 g [] [] M1 (or_introl (Logic.conj eq_refl eq_refl)) Bl Ol Bg Og) as K. rewrite !app_nil_r in K. exact K.
  - destruct r as [|c r]; [congruence|]. rewrite !truth_eq.
    destruct (words_spaced m2 P (c :: r) M2) as (w2 & W2 & ->).
    destruct (words_spaced _ g (l ++ L " AND " ++ (c :: r)) spaced_AND) as (w3 & W3 & ->). destruct (words_spaced _ l (c :: r) spaced_AND) as (w4 & W4 & ->).
    assert (Dl : deltas (words l) = 0) by (now rewrite deltas_words, balanced_delta).
    assert (Dg : deltas (words g) = 0) by (now rewrite deltas_words, balanced_delta).
    destruct (or_and_head (words P) w2 (words (c :: r)) W2 DP OP) as (h & u & E1 & ->).
    destruct (or_and_head (words l) w4 (words (c :: r)) W4 Dl Ol) as (h' & u' & E1' & E2'). rewrite E1 in E1'. injection E1' as <- <-.
    destruct (or_and_head (words g) w3 (words l ++ w4 :: words (c :: r)) W3 Dg Og) as (h' & u' & E3 & ->). rewrite E2' in E3. injection E3 as <- <-.
    unfold disj. cbn [existsb]. f_equal. rewrite !conj_and by auto. rewrite CP, andb_assoc. reflexivity.
Qed.

Lemma meaning_kept input pre l m1 g m2 r tl w v :
  last_geometry input pre l g r tl -> input = pre ++ w ++ (l ++ m1 ++ g ++ m2 ++ r) ++ tl -> spelt "WHERE " w ->
  spaced_and m1 -> (m2 = [] /\ r = []) \/ (spaced_and m2 /\ r <> []) ->
  ~ In "$"%char (l ++ g ++ r) -> shallow (peak 0 (l ++ g)) ->
  (balanced l /\ or_free l /\ balanced g /\ or_free g) \/
  (exists l' g', enclosed l g l' g' /\ or_free l' /\ or_free g' /\ groups v) ->
  exists c', preprocess input = inr (pre ++ L "WHERE " ++ c') /\ truth v c' = truth v (l ++ m1 ++ g ++ m2 ++ r).
Proof.
  intros LG Ei W M1 M2 Nd Sh Cases. pose proof (rewrite_exact _ _ _ _ _ _ LG) as H.
  destruct Cases as [(Bl & Ol & Bg & Og)|(l' & g' & En & Ol & Og & Gr)].
  - assert (check_and_adjust_parens l g = inr (l, g)) as Ec.
    { apply check_iff; [exact Sh|]. right. repeat split; auto. unfold well_closed. unfold balanced in Bg. congruence. }
    rewrite Ec in H. eexists. split; [rewrite H by exact Nd; unfold moved; reflexivity|]. now apply truth_swap.
  - assert (check_and_adjust_parens l g = inr (l', g')) as Ec by (apply check_iff; auto).
    rewrite Ec in H. eexists. split; [rewrite H by exact Nd; unfold moved; reflexivity|].
    destruct En as (-> & -> & Bl & Bg). now apply truth_enclosed.
Qed.
