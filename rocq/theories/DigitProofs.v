(** A double survives being written with 17 digits (C53). *)
From Coq Require Import ZArith Reals SpecFloat Lra Lia.
From Flocq Require Import Core IEEE754.BinarySingleNaN.
From Verif Require Import Chars Ast Print Spec SpecLexical SpecFloats SpecNumbers SpecNorm FloatProofs SpecDigits.
Open Scope R_scope.

Notation F53 := (FLT_exp (-1074) 53).
#[local] Instance p53_gt : Prec_gt_0 53. Proof. reflexivity. Qed.
#[local] Instance Hprec' : Prec_gt_0 p53. Proof. reflexivity. Qed.
#[local] Instance Hmax' : Prec_lt_emax p53 e1024. Proof. reflexivity. Qed.

Lemma datum_format x : double_datum x -> generic_format radix2 F53 (real x).
Proof.
  intros D. destruct (datum_B x D) as [X ->]. rewrite real_SF2R, SF2R_B2SF.
  exact (generic_format_B2R p53 e1024 X).
Qed.
Lemma datum_bound x : double_datum x -> Rabs (real x) < bpow radix2 1024.
Proof.
  intros D. destruct (datum_B x D) as [X ->]. rewrite real_SF2R, SF2R_B2SF. exact (abs_B2R_lt_emax p53 e1024 X).
Qed.
Lemma datum_same x y : double_datum x -> double_datum y -> finite x -> finite y -> real x = real y -> negative x = negative y -> x = y.
Proof.
  intros D D' Fx Fy R S. destruct (datum_B x D) as [X ->], (datum_B y D') as [Y ->]. f_equal.
  rewrite !real_SF2R, !SF2R_B2SF in R. rewrite !negative_sign, <- !B_sign in S. rewrite finite_iff, <- B_finite in Fx, Fy.
  now apply B2R_Bsign_inj.
Qed.

(** A number close to a positive number of the format is rounded to it. *)
Lemma round_close u v : generic_format radix2 F53 u -> 0 < u -> Rabs (v - u) < u * bpow radix2 (-54) ->
  round radix2 F53 ZnearestE v = u.
Proof.
  intros G P C. apply Rabs_lt_inv in C. destruct C as [C1 C2].
  assert (M : bpow radix2 (mag radix2 u - 1) <= u < bpow radix2 (mag radix2 u)).
  { destruct (mag radix2 u) as (e, He). cbn. specialize (He (Rgt_not_eq _ _ P)). rewrite Rabs_pos_eq in He by lra. exact He. }
  assert (U : u * bpow radix2 (-53) < ulp radix2 F53 u).
  { rewrite ulp_neq_0 by lra. unfold cexp. apply Rlt_le_trans with (bpow radix2 (mag radix2 u) * bpow radix2 (-53)).
    - apply Rmult_lt_compat_r; [apply bpow_gt_0|apply M].
    - rewrite <- bpow_plus. apply bpow_le. unfold FLT_exp. lia. }
  assert (H54 : bpow radix2 (-53) = 2 * bpow radix2 (-54)).
  { change 2 with (bpow radix2 1). rewrite <- bpow_plus. reflexivity. }
  rewrite H54 in U. pose proof (bpow_gt_0 radix2 (-54)) as B54.
  apply Rle_antisym.
  - apply round_N_le_midp; [typeclasses eauto|exact G|]. rewrite succ_eq_pos by lra. nra.
  - apply round_N_ge_midp; [typeclasses eauto|exact G|]. rewrite pred_eq_pos by lra. unfold pred_pos.
    destruct (Req_bool_spec u (bpow radix2 (mag radix2 u - 1))) as [E|E]; [|nra].
    assert (W : u * bpow radix2 (-53) <= bpow radix2 (F53 (mag radix2 u - 1))).
    { rewrite E at 1. rewrite <- bpow_plus. apply bpow_le. unfold FLT_exp. lia. }
    rewrite H54 in W. nra.
Qed.

Lemma round_same x v : generic_format radix2 F53 x ->
  (x = 0 /\ v = 0 \/
   exists e, bpow radix10 (e - 1) <= Rabs x < bpow radix10 e /\ Rabs (v - x) <= / 2 * bpow radix10 (e - 17)) ->
  round radix2 F53 ZnearestE v = x.
Proof.
  intros G [[-> ->]|(e & B & D)]; [apply round_0; typeclasses eauto|].
  assert (T : bpow radix10 (e - 17) = bpow radix10 (e - 1) * bpow radix10 (-16)).
  { rewrite <- bpow_plus. f_equal. lia. }
  assert (K : bpow radix10 (-16) < bpow radix2 (-53)).
  { cbn -[Rinv]. apply Rinv_lt_contravar; [|apply IZR_lt; reflexivity].
    apply Rmult_lt_0_compat; apply IZR_lt; reflexivity. }
  assert (H54 : bpow radix2 (-53) = 2 * bpow radix2 (-54)).
  { change 2 with (bpow radix2 1). rewrite <- bpow_plus. reflexivity. }
  pose proof (bpow_gt_0 radix10 (e - 1)) as B1. pose proof (bpow_gt_0 radix10 (-16)) as B16.
  assert (C : Rabs (v - x) < Rabs x * bpow radix2 (-54)) by (rewrite T in D; rewrite H54 in K; nra).
  destruct (Rle_or_lt 0 x) as [P|P].
  - rewrite (Rabs_pos_eq x) in * by lra. apply round_close; [exact G|lra|exact C].
  - rewrite (Rabs_left x) in * by lra. rewrite <- (Ropp_involutive v), round_NE_opp.
    rewrite (round_close (- x) (- v)); [lra|now apply generic_format_opp|lra|].
    replace (- v - - x) with (- (v - x)) by lra. rewrite Rabs_Ropp. exact C.
Qed.

(** A numeral has one value. *)
Definition no_digit (r : text) : Prop := match r with [] => True | c :: _ => ~ digit c end.
Lemma span_digits : forall b b' r r', Forall digit b -> Forall digit b' -> no_digit r -> no_digit r' -> (b ++ r = b' ++ r')%list -> b = b' /\ r = r'.
Proof.
  induction b as [|c b IH]; intros [|c' b'] r r' D D' N N' E; cbn in E.
  - auto.
  - subst r. inversion D'; subst. contradiction.
  - subst r'. inversion D; subst. contradiction.
  - injection E as -> E. inversion D; inversion D'; subst. destruct (IH b' r r'); auto. now subst.
Qed.
Definition unsigned (r : text) : Prop := match r with [] => True | c :: _ => c <> "+"%char /\ c <> "-"%char end.
Lemma span_sign g g' r r' : (g = L "-" \/ g = [] \/ g = L "+") -> (g' = L "-" \/ g' = [] \/ g' = L "+") ->
  unsigned r -> unsigned r' -> (g ++ r = g' ++ r')%list -> g = g' /\ r = r'.
Proof.
  intros [->|[->| ->]] [->|[->| ->]] U U' E; cbn in E; try (injection E as ->); auto; try discriminate; subst; cbn in U, U'; try (destruct U; congruence); destruct U'; congruence.
Qed.
Lemma digit_facts c : digit c -> c <> "+"%char /\ c <> "-"%char /\ c <> "."%char /\ c <> "e"%char /\ c <> "E"%char.
Proof. unfold digit. intros D. repeat apply conj; intros ->; cbn in D; lia. Qed.
Lemma unsigned_digits d r : Forall digit d -> d <> [] -> unsigned (d ++ r).
Proof. intros D N. destruct d as [|c d]; [contradiction|]. cbn. inversion D; subst. split; apply digit_facts; assumption. Qed.

Definition tail_of (x : text) (e : Z) : Prop :=
  x = [] /\ e = 0%Z \/
  exists m g d, x = (m :: g ++ d)%list /\ (m = "e"%char \/ m = "E"%char) /\ digits d /\
    (g = L "-" /\ e = (- integer d)%Z \/ (g = [] \/ g = L "+") /\ e = integer d).
Lemma tail_same x e e' : tail_of x e -> tail_of x e' -> e = e'.
Proof.
  intros [[-> ->]|(m & g & d & -> & M & [N D] & G)] [[E ->]|(m' & g' & d' & E & M' & [N' D'] & G')]; try discriminate; auto.
  injection E as -> E. destruct (span_sign g g' d d') as [-> ->]; auto; try tauto.
  - rewrite <- (app_nil_r d). now apply unsigned_digits.
  - rewrite <- (app_nil_r d'). now apply unsigned_digits.
  - destruct G as [[G ->]|[G ->]], G' as [[G' ->]|[G' ->]]; auto; [rewrite G in G'; destruct G'; discriminate|rewrite G' in G; destruct G; discriminate].
Qed.
Lemma tail_no_digit x e : tail_of x e -> no_digit x.
Proof.
  intros [[-> _]|(m & g & d & -> & M & _)]; cbn; [exact I|]. intros D. apply digit_facts in D. destruct M, D as (_ & _ & _ & ? & ?); auto.
Qed.
Lemma denotes_same t s s' v v' : denotes t s v -> denotes t s' v' -> s = s' /\ v = v'.
Proof.
  intros (sg & b & c & f & x & e & -> & S & B & F & N & C & X & ->) (sg' & b' & c' & f' & x' & e' & E & S' & B' & F' & N' & C' & X' & ->).
  fold (tail_of x e) in X. fold (tail_of x' e') in X'.
  assert (U : forall b c f x, Forall digit b -> (b ++ f <> [])%list -> (c = [] /\ f = [] \/ c = "."%char :: f) -> unsigned (b ++ c ++ x)).
  { clear. intros b c f x B N C. destruct b as [|y b]; [|now apply unsigned_digits]. destruct C as [[-> ->]| ->]; [now contradiction N|]. cbn. split; discriminate. }
  destruct (span_sign sg sg' (b ++ c ++ x) (b' ++ c' ++ x')) as [-> E']; [tauto|tauto|eauto|eauto|exact E|].
  assert (K : s = s') by (destruct S as [[S ->]|[S ->]], S' as [[S' ->]|[S' ->]]; auto; [rewrite S in S'; destruct S'; discriminate|rewrite S' in S; destruct S; discriminate]).
  split; [exact K|]. subst s'.
  assert (D : forall c f x e, (c = [] /\ f = [] \/ c = "."%char :: f) -> tail_of x e -> no_digit (c ++ x)).
  { clear. intros c f x e [[-> _]| ->] X; [now apply tail_no_digit in X|]. cbn. intros Y. apply digit_facts in Y. tauto. }
  destruct (span_digits b b' (c ++ x) (c' ++ x')) as [-> E2]; eauto.
  assert (Y : f = f' /\ x = x').
  { destruct C as [[-> ->]| ->], C' as [[-> ->]| ->]; cbn in E2.
    - auto.
    - destruct X as [[-> _]|(m & g & d & -> & M & _)]; [discriminate|]. injection E2 as -> _. destruct M; discriminate.
    - destruct X' as [[-> _]|(m & g & d & -> & M & _)]; [discriminate|]. injection E2 as <- _. destruct M; discriminate.
    - injection E2 as E2. apply span_digits in E2; auto; eapply tail_no_digit; eauto. }
  destruct Y as [-> ->]. now rewrite (tail_same x' e e' X X').
Qed.

Theorem written_read x t y : double_datum x -> finite x -> written_with 17 x t -> read_as t y -> y = x.
Proof.
  intros D F (v & V & W) (s & v' & V' & D' & R). destruct (denotes_same _ _ _ _ _ V V') as [<- <-].
  assert (E : round radix2 F53 ZnearestE v = real x).
  { apply round_same; [now apply datum_format|]. destruct W as [W|(e & k & B & _ & C)]; [now left|right; eauto]. }
  unfold rounded in R. cbv zeta in R. rewrite E in R. destruct R as [R _]. destruct (R (datum_bound x D)) as (F' & R' & S').
  now apply datum_same.
Qed.

(** The numbers of the normal form. *)

Lemma coord_n fmt c : coord_numbers (n_coord fmt c) = map (n_csae fmt) (coord_numbers c). Proof. now destruct c. Qed.
Lemma shape_n fmt s : shape_numbers (n_shape fmt s) = map (n_csae fmt) (shape_numbers s).
Proof.
  destruct s as [f c|f c r|f c w h|f c a b r|f cs]; cbn [n_shape shape_numbers]; rewrite ?map_app, ?coord_n; try reflexivity.
  induction cs as [|c cs IH]; [reflexivity|]. cbn [map flat_map]. now rewrite map_app, coord_n, IH.
Qed.
Lemma soc_n fmt s : soc_numbers (n_soc fmt s) = map (n_csae fmt) (soc_numbers s).
Proof. destruct s as [s|c]; [apply shape_n|reflexivity]. Qed.
Lemma where_numbers_n fmt s : where_numbers (where_of (n_sfw fmt s)) = map (n_csae fmt) (where_numbers (where_of s)).
Proof.
  destruct s as [s ts [[[fl [e x|a b]|[e x|a b] fl]|] c]]; cbn; rewrite ?map_app, ?soc_n; reflexivity.
Qed.
Lemma faithful_same fmt value d : faithful fmt value d -> value (fmt d) = value d.
Proof. intros (D & F & W & R). eapply written_read; eauto. Qed.
