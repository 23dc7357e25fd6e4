(** Lemmas about texts, literals and the skipper. *)
From Verif Require Import Chars.

Lemma app_eq_len {A} (a b c d : list A) : a ++ b = c ++ d -> length a = length c -> a = c /\ b = d.
Proof.
  revert c; induction a as [|x a IH]; intros [|y c]; cbn; intros H E; try discriminate; auto.
  injection H as -> H. destruct (IH _ H) as [-> ->]; auto.
Qed.

Lemma eq_nc_upc a b : eq_ch true a b = true <-> upc a = upc b.
Proof. cbn. unfold eq_nc. apply Ascii.eqb_eq. Qed.

Lemma upper_app a b : upper (a ++ b) = upper a ++ upper b.
Proof. apply map_app. Qed.
Lemma upper_len a : length (upper a) = length a.
Proof. apply map_length. Qed.

Lemma strip_nc_iff s : forall j w r, strip true s j = Some (w, r) <-> j = w ++ r /\ upper w = upper s.
Proof.
  induction s as [|c s IH]; intros j w r; cbn [strip].
  - split; [intros H; injection H as <- <-; auto|]. intros [-> H]. destruct w; [reflexivity|discriminate].
  - destruct j as [|d j].
    + split; [discriminate|]. intros [H U]. destruct w; [|discriminate]. destruct r; discriminate.
    + destruct (eq_ch true c d) eqn:Ec.
      * apply eq_nc_upc in Ec. destruct (strip true s j) as [[w' r']|] eqn:Es.
        -- apply IH in Es as [-> U]. split.
           ++ intros H; injection H as <- <-. split; [reflexivity|]. cbn. unfold upper in U. rewrite U, Ec. reflexivity.
           ++ intros [H U']. destruct w as [|x w]; [discriminate|]. cbn in H, U'. injection H as <- H. injection U' as _ U'.
              assert (length w = length w').
              { apply (f_equal (@length _)) in U, U'. unfold upper in *. rewrite !map_length in *. congruence. }
              apply app_eq_len in H; [|symmetry; assumption]. destruct H as [-> ->]; reflexivity.
        -- split; [discriminate|]. intros [H U']. destruct w as [|x w]; [discriminate|]. cbn in H, U'. injection H as <- H. injection U' as _ U'.
           assert (strip true s j = Some (w, r)) by (apply IH; auto). congruence.
      * split; [discriminate|]. intros [H U']. destruct w as [|x w]; [discriminate|]. cbn in H, U'. injection H as <- H. injection U' as U' _.
        symmetry in U'. apply eq_nc_upc in U'. congruence.
Qed.
Lemma strip_nc_none s j : strip true s j = None <-> forall w r, j = w ++ r -> upper w <> upper s.
Proof.
  split.
  - intros H w r E U. assert (strip true s j = Some (w, r)) by (apply strip_nc_iff; auto). congruence.
  - intros H. destruct (strip true s j) as [[w r]|] eqn:E; [|reflexivity]. apply strip_nc_iff in E as [E U]. now apply H in E.
Qed.

Lemma strip_cs_iff s : forall j w r, strip false s j = Some (w, r) <-> w = s /\ j = s ++ r.
Proof.
  induction s as [|c s IH]; intros j w r; cbn [strip].
  - split; [intros H; injection H as <- <-; auto|]. intros [-> ->]. reflexivity.
  - destruct j as [|d j]; [split; [discriminate|intros [_ H]; discriminate]|].
    cbn [eq_ch]. destruct (Ascii.eqb_spec c d) as [->|N].
    + destruct (strip false s j) as [[w' r']|] eqn:Es.
      * apply IH in Es as [-> ->]. split; [intros H; injection H as <- <-; auto|]. intros [-> H]. injection H as H. apply app_inv_head in H. now subst.
      * split; [discriminate|]. intros [-> H]. injection H as ->. assert (strip false s (s ++ r) = Some (s, r)) by (apply IH; auto). congruence.
    + split; [discriminate|]. intros [_ H]. injection H as H _. congruence.
Qed.
