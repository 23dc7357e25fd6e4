(** Where the numbers of the shapes of a query stand in its text (C25). *)
From Verif Require Import Query Evaluate SpecLexical SpecNodes SpecContent SpecSpelling SpecNumbers SpellUse Spec TextLemmas.
Local Open Scope list_scope.

Section Numbers.
Variable m : text -> option text.
Notation loc := (loc m).
Lemma coord_csae k u c x : spells m k u (X_coord c) -> In x (coord_numbers c) -> loc k u (X_csae x).
Proof.
  intros S I. inversion S as [k' t p its P W]; subst. inversion P; subst; cbn [coord_numbers] in I.
  destruct I as [<-|[<-|[]]]; (eapply loc_in; [exact W|cbn; tauto]).
Qed.
Lemma through_coord k u its c x : writes m k u its -> In (Pt (X_coord c)) its -> In x (coord_numbers c) -> loc k u (X_csae x).
Proof. intros W J I. eapply loc_trans; [eapply loc_in; eauto|]. intros. eapply coord_csae; eauto. Qed.
Lemma shape_csae k u s x : spells m k u (X_shape s) -> In x (shape_numbers s) -> loc k u (X_csae x).
Proof.
  intros S I. inversion S as [k' t p its P W]; subst. inversion P; subst; cbn [shape_numbers] in I;
    rewrite ?in_app_iff in I; try (destruct I as [I|I]);
    try (eapply through_coord; [exact W| |exact I]; cbn; tauto);
    try (repeat (destruct I as [<-|I]; [eapply loc_in; [exact W|cbn; tauto]|]); contradiction).
  apply in_flat_map in I as (a & Ia & I). eapply through_coord; [exact W| |exact I]. apply in_app_iff. right. apply in_app_iff. left. apply in_commas, in_map, Ia.
Qed.
Lemma node_csae k u n x : spells m k u (X n) -> In x (node_numbers n) -> loc k u (X_csae x).
Proof.
  intros S I. inversion S as [k' t p its P W]; subst. inversion P; subst; cbn [node_numbers] in I; try contradiction.
  - eapply loc_trans; [eapply loc_in; [exact W|now left]|]. intros. eapply shape_csae; eauto.
  - eapply loc_trans; [eapply loc_in; [exact W|now left]|]. intros k1 u1 S1. eapply (shape_csae _ _ (Sh_point _ _)); [exact S1|exact I].
Qed.
Lemma term_first k t P its : writes m k t (T P :: its) -> exists w x t', t = w ++ x ++ t' /\ white w /\ P (t' ++ k) x /\ writes m k t' its.
Proof. intros W. inversion W; subst. eauto 8. Qed.
Lemma bae_text k u a o b : spells m k u (X_csae (CS_bae a o b)) ->
  real_number a /\ real_number b /\ In o (map L ["+"; "-"; "*"; "/"]%string) /\
  exists w1 w2 w3 w4, u = w1 ++ a ++ w2 ++ o ++ w3 ++ b ++ w4 /\ white w1 /\ white w2 /\ white w3 /\ white w4.
Proof.
  intros S. inversion S as [k' t p its P W]; subst. inversion P; subst. clear P S.
  apply term_first in W as (w1 & x1 & t1 & -> & S1 & (-> & R1) & W). apply term_first in W as (w2 & x2 & t2 & -> & S2 & (-> & R2) & W).
  apply term_first in W as (w3 & x3 & t3 & -> & S3 & (-> & R3) & W).
  inversion W; subst. split; [exact R1|]. split; [exact R3|]. split; [exact R2|]. exists w1, w2, w3, t3. auto 8.
Qed.
Lemma dbl_text k u d : spells m k u (X_csae (CS_dbl d)) -> real_number d /\ exists w1 w2, u = w1 ++ d ++ w2 /\ white w1 /\ white w2.
Proof.
  intros S. inversion S as [k' t p its P W]; subst. inversion P; subst. clear P S.
  apply term_first in W as (w1 & x1 & t1 & -> & S1 & (-> & R1) & W). inversion W; subst. split; [exact R1|]. exists w1, t1. auto.
Qed.
End Numbers.
