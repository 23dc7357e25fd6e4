(** C54 for texts whose geometry is moved to the front. *)
From Verif Require Import Query Spec SpecRewrite SpecAlphabet AlphabetProofs RewriteExact TextLemmas Properties3.

Lemma see_after t : forall s s', see s t = Some s' -> quote_after s t = s'.
Proof.
  induction t as [|c t IH]; cbn [see quote_after]; intros s s' H; [congruence|].
  destruct (see1 s c) as [s1|] eqn:E; [|discriminate]. apply IH in H. revert E. unfold see1. destruct s as [q|].
  - intros [= <-]. exact H.
  - destruct (_ || _); [|destruct (usable c); [|discriminate]]; intros [= <-]; exact H.
Qed.
Lemma after_app a : forall s b, quote_after s (a ++ b) = quote_after (quote_after s a) b.
Proof. induction a as [|c a IH]; intros s b; [reflexivity|]. cbn [quote_after app]. apply IH. Qed.
Definition quote (s : option ascii) : Prop := s = None \/ s = Some "'"%char \/ s = Some """"%char.
Lemma after_quote t : forall s, quote s -> quote (quote_after s t).
Proof.
  induction t as [|c t IH]; intros s H; [exact H|]. cbn [quote_after]. apply IH. unfold quote. destruct s as [q|].
  - destruct (Ascii.eqb c q); [now left|exact H].
  - destruct (Ascii.eqb_spec c "'"); [subst; cbn; auto|]. destruct (Ascii.eqb_spec c """"); [subst; cbn; auto|]. now left.
Qed.
Lemma tidy_step a b : see None (a ++ b) = Some None -> closed a -> tidy a /\ see None b = Some None.
Proof.
  intros H C. rewrite see_app in H. destruct (see None a) as [s|] eqn:E; [|discriminate]. pose proof (see_after _ _ _ E) as K. unfold closed in C. rewrite C in K. subst s. now split.
Qed.

Lemma split_nc w a c b : ~ In (upc c) (upper w) -> occurs_nc w (a ++ c :: b) -> occurs_nc w a \/ occurs_nc w b.
Proof.
  intros N (x & m & y & E & M).
  assert (Nm : ~ In c m) by (intros K; apply N; rewrite <- M; unfold upper; now apply in_map).
  assert (X : (exists e, a = x ++ e /\ m ++ y = e ++ c :: b) \/ exists e, b = e ++ m ++ y).
  { apply app_cmp in E as [(e & _ & -> & E)|[[-> E]|(e & Ne & -> & E)]]; [left; exists e; now split|left; exists []; rewrite app_nil_r; now split|].
    right. destruct e as [|d e]; [easy|]. injection E as <- ->. now exists e. }
  destruct X as [(e & -> & X)|(e & ->)].
  - left. apply app_cmp in X as [(f & Nf & -> & X)|[[-> _]|(f & _ & -> & _)]].
    + destruct f as [|d f]; [easy|]. injection X as <- _. destruct Nm. apply in_or_app. right. now left.
    + exists x, e, []. now rewrite app_nil_r.
    + exists x, m, f. auto.
  - right. exists e, m, y. auto.
Qed.
Lemma occurs_part w a b c : occurs_nc w b -> occurs_nc w (a ++ b ++ c).
Proof. intros (x & m & y & -> & M). exists (a ++ x), m, (y ++ c). split; [now rewrite <- !app_assoc|exact M]. Qed.
Lemma moved_words w pre l g r : w = L "--" \/ w = L "NAN(" -> occurs_nc w (moved pre l g r) -> occurs_nc w pre \/ occurs_nc w l \/ occurs_nc w g \/ occurs_nc w r.
Proof.
  intros W.
  assert (S : forall c, In c (L "WHERED ") -> ~ In (upc c) (upper w)) .
  { assert (F : forallb (fun c => negb (existsb (Ascii.eqb (upc c)) (upper w))) (L "WHERED ") = true) by (destruct W as [-> | ->]; reflexivity).
    intros c C K. rewrite forallb_forall in F. apply F in C. rewrite negb_true_iff in C. assert (existsb (Ascii.eqb (upc c)) (upper w) = true); [|congruence].
    apply existsb_exists. exists (upc c). split; [exact K|apply Ascii.eqb_refl]. }
  assert (S' : forall c a b, In c (L "WHERED ") -> occurs_nc w (a ++ c :: b) -> occurs_nc w a \/ occurs_nc w b) by (intros c a b C; apply split_nc; auto).
  assert (E : ~ occurs_nc w []) by (apply find_nc_false; destruct W as [-> | ->]; reflexivity).
  assert (A : ~ occurs_nc w (L "AN")) by (apply find_nc_false; destruct W as [-> | ->]; reflexivity).
  assert (AND : forall a b, occurs_nc w (a ++ L " AND " ++ b) -> occurs_nc w a \/ occurs_nc w b).
  { intros a b H. apply (S' " "%char a) in H as [H|H]; [auto| |cbn; auto 10]. apply (S' "D"%char (L "AN")) in H as [H|H]; [easy| |cbn; auto 10].
    apply (S' " "%char []) in H as [H|H]; [easy|auto|cbn; auto 10]. }
  unfold moved. intros H. do 1 (apply (S' "W"%char pre) in H as [H|H]; [auto| |cbn; auto 10]).
  apply (S' "H"%char []) in H as [H|H]; [easy| |cbn; auto 10]. apply (S' "E"%char []) in H as [H|H]; [easy| |cbn; auto 10].
  apply (S' "R"%char []) in H as [H|H]; [easy| |cbn; auto 10]. apply (S' "E"%char []) in H as [H|H]; [easy| |cbn; auto 10].
  apply (S' " "%char []) in H as [H|H]; [easy| |cbn; auto 10].
  apply AND in H as [H|H]; [auto|]. destruct r as [|x r]; [rewrite app_nil_r in H; auto|]. apply AND in H as [H|H]; auto.
Qed.
Definition same_text (l g l' g' : text) : Prop := (l' = l /\ g' = g) \/ (l = "("%char :: l' /\ g = g' ++ [")"%char]).
Lemma last_wpart input pre l g r tl : last_geometry input pre l g r tl -> wpart input pre l g r tl.
Proof.
  intros [w m1 m2 f gw d E W _ Dl El Ln _ M1 Eg F G _ _ _ _ _ M2 _ _ _]. apply (wpart_intro _ _ _ _ _ _ w m1 m2); auto.
  - exists f, gw, d. auto.
  - destruct M2 as [M2|(? & _ & ? & _ & ? & _)]; auto.
Qed.
Lemma moved_occurs input pre l g r tl l' g' w : wpart input pre l g r tl -> same_text l g l' g' ->
  w = L "--" \/ w = L "NAN(" -> occurs_nc w (moved pre l' g' r) -> occurs_nc w input.
Proof.
  intros H E Ww O.
  assert (PL : occurs_nc w l' -> occurs_nc w l) by (destruct E as [(-> & _)|(-> & _)]; [auto|intros O'; apply (occurs_part _ ["("%char] _ []) in O'; now rewrite app_nil_r in O']).
  assert (PG : occurs_nc w g' -> occurs_nc w g) by (destruct E as [(_ & ->)|(_ & ->)]; [auto|intros O'; now apply (occurs_part _ [] _ [")"%char]) in O']).
  apply moved_words in O; [|exact Ww]. destruct H as [w0 m1 m2 -> _]. destruct O as [O|[O|[O|O]]].
  - exact (occurs_part _ [] _ _ O).
  - apply PL in O. rewrite app_assoc. apply (occurs_part _ _ _ _ O).
  - apply PG in O. do 3 rewrite app_assoc. apply (occurs_part _ _ _ _ O).
  - do 5 rewrite app_assoc. apply (occurs_part _ _ _ _ O).
Qed.
Lemma moved_chars input pre l g r tl l' g' c : wpart input pre l g r tl -> same_text l g l' g' ->
  ~ In c (L "WHERE  AND ") -> In c (moved pre l' g' r) -> In c input.
Proof.
  intros H E N K. assert (X : In c pre \/ In c l \/ In c g \/ In c r).
  - unfold moved in K. rewrite !in_app_iff in K. destruct K as [K|[K|[K|[K|[K|K]]]]]; [auto| | | | |].
    + destruct N. apply (in_or_app (L "WHERE ") (L " AND ")). now left.
    + destruct E as [(_ & ->)|(_ & ->)]; [auto|]. right; right; left. apply in_or_app. now left.
    + destruct N. apply (in_or_app (L "WHERE ") (L " AND ")). now right.
    + destruct E as [(-> & _)|(-> & _)]; [auto|]. right; left. now right.
    + destruct r as [|x r]; [destruct K|]. apply in_app_iff in K as [K|K]; [|auto]. destruct N. apply (in_or_app (L "WHERE ") (L " AND ")). now right.
  - destruct H as [w m1 m2 -> _]. rewrite !in_app_iff. tauto.
Qed.
Lemma moved_tidy input pre l g r tl l' g' : wpart input pre l g r tl -> same_text l g l' g' -> closed pre -> closed l -> closed g ->
  ~ occurs_nc (L "--") input -> ~ occurs_nc (L "NAN(") input ->
  (~ occurs (L "--") (moved pre l' g' r) -> ~ occurs_nc (L "NAN(") (moved pre l' g' r) -> tidy (moved pre l' g' r)) ->
  tidy pre /\ tidy l /\ tidy g /\ tidy r.
Proof.
  intros H E Cp Cl Cg N1 N2 W.
  assert (N : forall w, w = L "--" \/ w = L "NAN(" -> occurs_nc w (moved pre l' g' r) -> occurs_nc w input) by (intros w; apply (moved_occurs _ _ _ _ _ _ _ _ _ H E)).
  assert (T : tidy (moved pre l' g' r)).
  { apply W.
    - intros (a & b & O). apply N1. apply N; [now left|]. exists a, (L "--"), b. now split.
    - intros O. apply N2. now apply N; [right|]. }
  assert (Cl' : closed l') by (destruct E as [(-> & _)|(-> & _)]; exact Cl).
  assert (Cg' : closed g').
  { destruct E as [(_ & ->)|(_ & ->)]; [exact Cg|]. unfold closed in *. rewrite after_app in Cg. destruct (after_quote g' None) as [Z|[Z|Z]]; [now left|exact Z| |]; rewrite Z in Cg; discriminate. }
  unfold tidy, moved in T. apply tidy_step in T as [Tp T]; [|exact Cp]. apply tidy_step in T as [_ T]; [|reflexivity].
  apply tidy_step in T as [Tg T]; [|exact Cg']. apply tidy_step in T as [_ T]; [|reflexivity]. apply tidy_step in T as [Tl T]; [|exact Cl'].
  split; [exact Tp|]. split; [|split].
  - destruct E as [(-> & _)|(-> & _)]; exact Tl.
  - destruct E as [(_ & ->)|(_ & ->)]; [exact Tg|]. unfold tidy in *. now rewrite see_app, Tg.
  - destruct r as [|x r]; [reflexivity|]. apply tidy_step in T as [_ T]; [exact T|reflexivity].
Qed.
Lemma quoteless_closed t : ~ In "'"%char t -> ~ In """"%char t -> closed t.
Proof.
  unfold closed. induction t as [|c t IH]; [reflexivity|]. cbn [In quote_after]. intros N1 N2.
  destruct (Ascii.eqb_spec c "'"); [tauto|]. destruct (Ascii.eqb_spec c """"); [tauto|]. apply IH; tauto.
Qed.
