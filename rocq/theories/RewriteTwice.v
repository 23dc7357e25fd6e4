(** A text that was rewritten is not rewritten again (C57). *)
From Coq Require Import Lia.
From Verif Require Import Query Spec SpecRewrite SpecBehind ParenProofs TextLemmas RewriteSound RewriteExact RewriteMain RewriteNot AlphabetMoved Properties3.

(** CONTAINS or INTERSECTS in [t]. *)
Definition mentions (t : text) : Prop := exists a w b, t = a ++ w ++ b /\ geometry_word w.
Lemma mentions_nc t : mentions t <-> occurs_nc (L "CONTAINS") t \/ occurs_nc (L "INTERSECTS") t.
Proof.
  split.
  - intros (a & w & b & -> & [S|S]); [left|right]; exists a, w, b; split; auto.
  - intros [(a & w & b & -> & S)|(a & w & b & -> & S)]; exists a, w, b; split; auto; [left|right]; exact S.
Qed.
Lemma mentions_split a c b : ~ In (upc c) (L "CONTAINSERT") -> mentions (a ++ c :: b) -> mentions a \/ mentions b.
Proof.
  intros N. rewrite !mentions_nc.
  assert (N1 : ~ In (upc c) (upper (L "CONTAINS"))) by (intros K; apply N; cbn in K |- *; tauto).
  assert (N2 : ~ In (upc c) (upper (L "INTERSECTS"))) by (intros K; apply N; cbn in K |- *; tauto).
  intros [K|K]; apply split_nc in K; tauto.
Qed.
Lemma mentions_S t : mentions t -> In "S"%char (upper t).
Proof.
  intros (a & w & b & -> & W). unfold upper. rewrite !map_app. apply in_or_app. right. apply in_or_app. left.
  destruct W as [W|W]; unfold spelt, upper in W; rewrite W; cbn; tauto.
Qed.
Lemma mentions_part a b c : mentions b -> mentions (a ++ b ++ c).
Proof. intros (x & w & y & -> & W). exists (a ++ x), w, (y ++ c). split; [now rewrite <- !app_assoc|exact W]. Qed.
Lemma blank_sep : ~ In (upc " ") (L "CONTAINSERT").
Proof. cbn. intuition discriminate. Qed.
Lemma mentions_and a b : mentions (a ++ L " AND " ++ b) -> mentions a \/ mentions b.
Proof.
  intros H. apply (mentions_split a " "%char) in H as [H|H]; [auto| |exact blank_sep]. apply (mentions_split (L "AND") " "%char) in H as [H|H]; [|auto|exact blank_sep].
  apply mentions_S in H. cbn in H. intuition discriminate.
Qed.
Lemma flag_no_S f : flag f -> ~ In "S"%char (upper f).
Proof.
  intros [|d b1 b2 D B1 B2]; [intros []|]. unfold upper. cbn [map]. rewrite map_app. cbn [map].
  assert (B : forall b, blank b -> ~ In "S"%char (map upc b)).
  { intros b B K. apply in_map_iff in K as (c & U & K). unfold blank in B. rewrite Forall_forall in B. apply B in K. subst c. discriminate. }
  intros [K|K]; [destruct D; subst d; discriminate|]. apply in_app_iff in K as [K|[K|K]]; [now apply B in K|discriminate|now apply B in K].
Qed.
Lemma flag_not_and x f : flag f -> ~ ends_with_and (x ++ L "WHERE " ++ f).
Proof.
  intros F K. destruct F as [|d b1 b2 D B1 B2].
  - rewrite app_nil_r in K. revert K. apply where_not_and. now exists x.
  - destruct K as (y & m & f & E & M & F). assert (Nd : Ascii.eqb d " " = false) by (destruct D; subst d; reflexivity).
    pose proof M as (c1 & n & c2 & Em & C1 & S & C2). apply and_three in S as (k1 & k2 & k3 & -> & _ & _ & U).
    apply (f_equal (@rev ascii)) in E. apply (f_equal rskip) in E. rewrite !rev_app_distr in E. cbn [rev] in E. rewrite !rev_app_distr in E. cbn [rev] in E. rewrite <- !app_assoc in E.
    rewrite rskip_blank in E by exact B2. destruct F as [|d2 b3 b4 D2 B3 B4].
    + subst m. rewrite !rev_app_distr in E. cbn [rev app] in E. rewrite <- !app_assoc in E. rewrite rskip_blank in E by exact C2. cbn in E. destruct (Ascii.eqb k3 " ") eqn:Z; [apply Ascii.eqb_eq in Z; rewrite Z in U; discriminate U|]. injection E as X _. subst k3. discriminate U.
    + cbn [rev] in E. rewrite !rev_app_distr in E. cbn [rev] in E. rewrite <- !app_assoc in E. rewrite rskip_blank in E by exact B4. cbn in E. injection E as E.
      assert (Nd2 : Ascii.eqb d2 " " = false) by (destruct D2; subst d2; reflexivity).
      apply (f_equal rskip) in E. rewrite !rskip_blank in E by assumption. cbn [rskip app] in E. rewrite Nd, Nd2 in E. injection E as _ E.
      assert (X : x ++ L "WHERE " = y ++ m).
      { rewrite <- (rev_involutive (x ++ _)), <- (rev_involutive (y ++ _)). f_equal. rewrite !rev_app_distr. exact E. }
      apply (where_not_and (x ++ L "WHERE ")); [now exists x|]. exists y, m, []. rewrite app_nil_r. split; [exact X|]. split; [exact M|constructor].
Qed.
Lemma moved_again pre l g r l' g' f gw d : same_text l g l' g' -> g = f ++ gw ++ d -> flag f -> geometry_word gw ->
  ~ mentions pre -> ~ mentions l -> ~ mentions d -> ~ mentions r -> preprocess (moved pre l' g' r) = inr (moved pre l' g' r).
Proof.
  intros E Eg F G Np Nl ND Nr.
  assert (Nl' : ~ mentions l').
  { destruct E as [(-> & _)|(-> & _)]; [exact Nl|]. intros X. apply Nl. apply (mentions_part ["("%char] _ []) in X. now rewrite app_nil_r in X. }
  assert (Eg' : exists d', g' = f ++ gw ++ d' /\ ~ mentions d').
  { destruct E as [(_ & ->)|(_ & Ec)].
    - exists d. split; [exact Eg|]. exact ND.
    - destruct d as [|c d] using rev_ind.
      + exfalso. rewrite app_nil_r in Eg. rewrite Eg in Ec. assert (Z : In ")"%char (upper gw)).
        { assert (gw <> []) as Ngw by (intros ->; destruct G; discriminate). destruct gw as [|y gw] using rev_ind; [easy|]. rewrite app_assoc in Ec. apply app_inj_tail in Ec as [_ ->].
          unfold upper. rewrite map_app. apply in_or_app. right. now left. }
        destruct G as [G|G]; unfold spelt in G; rewrite G in Z; cbn in Z; intuition discriminate.
      + clear IHd. rewrite Eg in Ec. rewrite !app_assoc in Ec. apply app_inj_tail in Ec as [Ec _]. exists d. rewrite <- app_assoc in Ec. split; [now symmetry|].
        intros X. apply ND. exact (mentions_part [] _ _ X). }
  destruct Eg' as (d' & -> & Nd'). apply not_behind_and. intros a w b Em W.
  assert (Em' : (pre ++ L "WHERE " ++ f) ++ gw ++ d' ++ L " AND " ++ l' ++ match r with [] => [] | _ => L " AND " ++ r end = a ++ w ++ b).
  { rewrite <- Em. unfold moved. now rewrite <- !app_assoc. }
  clear Em. apply app_cmp in Em' as [(e & Ne & Ea & Ew)|[[<- _]|(e & Ne & -> & Ew)]].
  - exfalso. apply (gw_in_gw _ _ _ _ _ W G) in Ew as (p' & -> & _); [|exact Ne].
    assert (M : mentions (pre ++ L "WHERE " ++ f)) by (rewrite Ea; exists a, w, p'; auto).
    apply (mentions_split pre "W"%char) in M as [M|M]; [easy| |cbn; intuition discriminate].
    apply mentions_S in M. match type of M with In _ (upper ?z) => change z with (L "HERE " ++ f) in M end. unfold upper in M. rewrite map_app in M. apply in_app_iff in M as [M|M]; [cbn in M; intuition discriminate|].
    now apply (flag_no_S _ F).
  - now apply flag_not_and.
  - exfalso. apply (gw_in_gw _ _ _ _ _ G W) in Ew as (p' & _ & Ew); [|exact Ne].
    assert (M : mentions (d' ++ L " AND " ++ l' ++ match r with [] => [] | _ => L " AND " ++ r end)) by (rewrite Ew; exists p', w, b; auto).
    apply mentions_and in M as [M|M]; [easy|]. destruct r as [|x r]; [rewrite app_nil_r in M; easy|]. apply mentions_and in M as [M|M]; easy.
Qed.
Lemma moved_once input pre l g r tl t : last_geometry input pre l g r tl -> ~ In "$"%char (l ++ g ++ r) ->
  ~ mentions pre -> ~ mentions l -> preprocess input = inr t -> preprocess t = inr t.
Proof.
  intros H D Np Nl P. pose proof (rewrite_exact _ _ _ _ _ _ H) as K. destruct (check_and_adjust_parens l g) as [e|[l' g']] eqn:E; [congruence|].
  rewrite K in P by exact D. injection P as <-. clear K. apply check_shape in E.
  destruct H as [w0 m1 m2 f gw d _ _ _ _ _ _ _ _ Eg F G _ _ _ _ _ _ _ NC NI].
  assert (ND : ~ mentions (d ++ m2 ++ r ++ tl)) by (rewrite mentions_nc; tauto).
  apply (moved_again pre l g r l' g' f gw d); auto; intros X; apply ND; [exact (mentions_part [] _ _ X)|]. rewrite app_assoc. now apply mentions_part.
Qed.
Lemma single_again input t : ~ In "$"%char input -> (forall a w b a' w' b', input = a ++ w ++ b -> geometry_word w -> input = a' ++ w' ++ b' -> geometry_word w' -> a = a') ->
  preprocess input = inr t -> preprocess t = inr t.
Proof.
  intros D U P. destruct (preprocess_exact input t D P) as [-> | (pre & l & g & r & tl & l' & g' & X & C & ->)]; [exact P|]. apply check_shape in C.
  destruct X as [w m1 m2 E _ _ _ _ M1 (f & gw & d & -> & F & G) _].
  assert (E0 : input = (pre ++ w ++ l ++ m1 ++ f) ++ gw ++ (d ++ m2 ++ r ++ tl)) by (rewrite E; now rewrite <- !app_assoc).
  assert (Short : forall a w' b c, input = (a ++ w' ++ b) ++ c -> geometry_word w' -> length (a ++ w' ++ b) <= length (pre ++ w ++ l ++ m1 ++ f) -> False).
  { intros a w' b c E1 G1 Ln. rewrite <- !app_assoc in E1. pose proof (U _ _ _ _ _ _ E0 G E1 G1) as Z. rewrite Z in Ln. rewrite !app_length in Ln. destruct w' as [|x w']; [destruct G1; discriminate|]. cbn [length] in Ln. lia. }
  assert (Long : forall c a w' b, input = c ++ a ++ w' ++ b -> geometry_word w' -> length (pre ++ w ++ l ++ m1 ++ f ++ gw) <= length c -> False).
  { intros c a w' b E1 G1 Ln. rewrite app_assoc in E1. pose proof (U _ _ _ _ _ _ E0 G E1 G1) as Z. apply (f_equal (@length ascii)) in Z. rewrite !app_length in *. destruct gw as [|x gw]; [destruct G; discriminate|]. cbn [length] in Ln. lia. }
  apply (moved_again pre l (f ++ gw ++ d) r l' g' f gw d); auto; intros (a & w' & b & Ew & G1).
  - apply (Short a w' b (w ++ l ++ m1 ++ (f ++ gw ++ d) ++ m2 ++ r ++ tl)); [now rewrite <- Ew|exact G1|]. rewrite <- Ew, !app_length. lia.
  - apply (Short (pre ++ w ++ a) w' b (m1 ++ (f ++ gw ++ d) ++ m2 ++ r ++ tl)); [rewrite E, Ew; now rewrite <- !app_assoc|exact G1|]. rewrite Ew, !app_length. lia.
  - apply (Long (pre ++ w ++ l ++ m1 ++ f ++ gw) a w' (b ++ m2 ++ r ++ tl)); [rewrite E, Ew; now rewrite <- !app_assoc|exact G1|]. lia.
  - apply (Long (pre ++ w ++ l ++ m1 ++ (f ++ gw ++ d) ++ m2) a w' (b ++ tl)); [rewrite E, Ew; now rewrite <- !app_assoc|exact G1|]. rewrite !app_length. lia.
Qed.
