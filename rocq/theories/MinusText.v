(** Minus signs in front of minus signs come from the text (C49). *)
From Verif Require Import Query Spec SpecNodes SpecLexical SpecContent SpecSpelling SpecStatement SpellMain SpellUse.

Lemma minus_around a u b : minus_minus u -> minus_minus (a ++ u ++ b).
Proof. intros (x & w & y & -> & W). exists (a ++ x), w, (y ++ b). split; [now rewrite <- !app_assoc|exact W]. Qed.

Section Text.
Variable m : text -> option text.
(** An operator that is a minus sign, with a minus sign behind it. *)
Definition clash (o : text * text) : Prop := fst o = L "-" /\ minus_first (snd o).
Lemma from_loc k u p : loc m k u p -> (forall k u, spells m k u p -> minus_minus u) -> minus_minus u.
Proof. intros (a & x & b & -> & S) H. apply minus_around. eapply H, S. Qed.
Lemma csae_clash k u c o : spells m k u (X_csae c) -> In o (csae_ops c) -> clash o -> minus_minus u.
Proof.
  intros S I [C1 (r & C2)]. inversion S as [k' t p its P W]; subst. inversion P; subst; cbn [csae_ops] in I; try contradiction.
  destruct I as [<-|[]]. cbn [fst snd] in C1, C2. subst. inversion W as [|? w1 x1 t1 ? ? S1 _ W1 E1 E2 E3|]; subst.
  inversion W1 as [|? w2 x2 t2 ? ? S2 P2 W2 E1 E2 E3|]; subst. destruct P2 as [-> _].
  inversion W2 as [|? w3 x3 t3 ? ? S3 P3 W3 E1 E2 E3|]; subst. destruct P3 as [-> _].
  exists (w1 ++ x1 ++ w2), w3, (r ++ t3). split; [now rewrite <- !app_assoc|exact S3].
Qed.
Lemma by_csae k u its c o : writes m k u its -> In o (csae_ops c) -> clash o -> In (Pt (X_csae c)) its -> minus_minus u.
Proof. intros W I C J. eapply from_loc; [eapply loc_in; eauto|]. intros. eapply csae_clash; eauto. Qed.
Lemma coord_clash k u c o : spells m k u (X_coord c) -> In o (coord_ops c) -> clash o -> minus_minus u.
Proof.
  intros S I C. inversion S as [k' t p its P W]; subst. inversion P; subst; cbn [coord_ops] in I.
  apply in_app_iff in I as [I|I]; (eapply by_csae; [exact W|exact I|exact C|cbn; tauto]).
Qed.
Lemma by_coord k u its c o : writes m k u its -> In o (coord_ops c) -> clash o -> In (Pt (X_coord c)) its -> minus_minus u.
Proof. intros W I C J. eapply from_loc; [eapply loc_in; eauto|]. intros. eapply coord_clash; eauto. Qed.
Lemma shape_clash k u s o : spells m k u (X_shape s) -> In o (shape_ops s) -> clash o -> minus_minus u.
Proof.
  intros S I C. inversion S as [k' t p its P W]; subst. inversion P; subst; cbn [shape_ops] in I;
    rewrite ?in_app_iff in I; repeat match goal with H : _ \/ _ |- _ => destruct H as [I|I] end;
    try (first [eapply by_coord; [exact W|exact I|exact C|] | eapply by_csae; [exact W|exact I|exact C|]]; cbn; tauto).
  apply in_flat_map in I as (a & Ia & I). eapply by_coord; [exact W|exact I|exact C|]. apply in_app_iff. right. apply in_app_iff. left. apply in_commas, in_map, Ia.
Qed.
Lemma node_clash k u n o : spells m k u (X n) -> In o (node_ops n) -> clash o -> minus_minus u.
Proof.
  intros S I C. inversion S as [k' t p its P W]; subst.
  destruct n; cbn [node_ops] in I; try contradiction.
  - destruct v as [o' [s p]]. destruct I as [<-|[]]. destruct C as [C1 (r & C2)]. cbn [fst snd] in C1, C2. subst. inversion P; subst.
    inversion W as [|? w1 x1 t1 ? ? S1 P1 W1 E1 E2 E3|]; subst. destruct P1 as [-> _].
    inversion W1 as [| |? w2 x2 t2 ? ? S2 P2 W2 E1 E2 E3]; subst. inversion P2 as [? ? ? its2 Q2 V2]; subst. inversion Q2; subst.
    inversion V2 as [|? w3 x3 t3 ? ? S3 P3 W3 E1 E2 E3|]; subst. destruct P3 as [-> _].
    exists w1, (w2 ++ w3), (r ++ t3 ++ t2). split; [now rewrite <- !app_assoc|]. apply Forall_app. now split.
  - match goal with I : In o (match ?s with Soc_shape _ => _ | _ => _ end) |- _ => destruct s as [s|]; [|contradiction] end. inversion P; subst. eapply from_loc; [eapply loc_in; [exact W|now left]|]. intros. eapply shape_clash; eauto.
  - match goal with I : In o (match ?s with Poc_point _ _ => _ | _ => _ end) |- _ => destruct s as [f c|]; [|contradiction] end. inversion P; subst. eapply from_loc; [eapply loc_in; [exact W|now left]|]. intros. eapply shape_clash; eauto.
Qed.
Lemma written_apart t q : written m t q -> ~ minus_minus t -> minuses_apart q.
Proof.
  intros (u & w & -> & _ & S) N. apply Forall_forall. intros n I. apply Forall_forall. intros o J A B. apply N.
  apply (minus_around [] u w). eapply from_loc; [exact (located m _ _ _ S n I)|]. intros k' u' S'. eapply node_clash; [exact S'|exact J|now split].
Qed.
End Text.
