(** C25: constant arithmetic in coordinates. *)
From Coq Require Import Reals.
From Verif Require Import Ast Evaluate SpecFloats FloatProofs.

Lemma eqb_zero y : SFeqb y dzero = true <-> zero y.
Proof. destruct y as [s|s| |s m e]; cbn; try (destruct s); intuition discriminate. Qed.
Lemma eqb_zero_no y : ~ zero y -> SFeqb y dzero = false.
Proof. intros N. destruct (SFeqb y dzero) eqn:E; [|reflexivity]. apply eqb_zero in E. contradiction. Qed.
(** The IEEE result of an operator, see SpecFloats.v. *)
Definition ieee (o : ascii) (x y r : spec_float) : Prop :=
  (o = "+"%char /\ ieee_add x y r) \/ (o = "-"%char /\ ieee_sub x y r) \/
  (o = "*"%char /\ ieee_mul x y r) \/ (o = "/"%char /\ ieee_div x y r).
Definition operator (o : ascii) : Prop := o = "+"%char \/ o = "-"%char \/ o = "*"%char \/ o = "/"%char.

Theorem C25_ieee_result :
  forall x o y, double_datum x -> double_datum y -> operator o -> ~ (o = "/"%char /\ zero y) ->
    exists r, evaluate x o y = Ev_ok r /\ double_datum r /\ ieee o x y r.
Proof.
  intros x o y Dx Dy O N. unfold evaluate. destruct O as [ -> | [ -> | [ -> | -> ]]]; cbn [Ascii.eqb Bool.eqb].
  - eexists. split; [reflexivity|]. split; [now apply add_datum|left; split; [reflexivity|now apply add_ieee]].
  - eexists. split; [reflexivity|]. split; [now apply sub_datum|right; left; split; [reflexivity|now apply sub_ieee]].
  - eexists. split; [reflexivity|]. split; [now apply mul_datum|right; right; left; split; [reflexivity|now apply mul_ieee]].
  - rewrite eqb_zero_no by tauto. eexists. split; [reflexivity|]. split; [now apply div_datum|do 3 right; split; [reflexivity|now apply div_ieee]].
Qed.
Print Assumptions C25_ieee_result.
Theorem C25_throws_exactly :
  forall x o y, (forall r, evaluate x o y <> Ev_ok r) <-> ((o = "/"%char /\ zero y) \/ ~ operator o).
Proof.
  intros x o y. unfold evaluate, operator.
  destruct (Ascii.eqb_spec o "+") as [->|N1]; [split; [intros H; now elim (H (SFadd prec emax x y))|intros [[E _]|E] r; [discriminate|tauto]]|].
  destruct (Ascii.eqb_spec o "-") as [->|N2]; [split; [intros H; now elim (H (SFsub prec emax x y))|intros [[E _]|E] r; [discriminate|tauto]]|].
  destruct (Ascii.eqb_spec o "*") as [->|N3]; [split; [intros H; now elim (H (SFmul prec emax x y))|intros [[E _]|E] r; [discriminate|tauto]]|].
  destruct (Ascii.eqb_spec o "/") as [->|N4].
  - destruct (SFeqb y dzero) eqn:E.
    + split; [intros _; left; split; [reflexivity|now apply eqb_zero]|intros _ r; discriminate].
    + split; [intros H; now elim (H (SFdiv prec emax x y))|].
      intros [[_ Z]|Z] r; [apply eqb_zero in Z; congruence|tauto].
  - split; [intros _; right; tauto|intros _ r; discriminate].
Qed.
Print Assumptions C25_throws_exactly.
(** 1/3 and -0 / 3, 1/-0, inf - inf *)
Definition sf (m : positive) (e : Z) : spec_float := S754_finite false m e.
Example C25_case :
  double_datum (sf 4503599627370496 (-52)) /\ double_datum (sf 6755399441055744 (-51)) /\
  evaluate (sf 4503599627370496 (-52)) "/" (sf 6755399441055744 (-51)) = Ev_ok (sf 6004799503160661 (-54)) /\
  evaluate (S754_zero true) "/" (sf 6755399441055744 (-51)) = Ev_ok (S754_zero true) /\
  evaluate (sf 4503599627370496 (-52)) "/" (S754_zero true) = Ev_zero /\
  evaluate (S754_infinity false) "-" (S754_infinity false) = Ev_ok S754_nan.
Proof. repeat split; try (left; intro; discriminate); try (intro; discriminate); vm_compute; reflexivity. Qed.

