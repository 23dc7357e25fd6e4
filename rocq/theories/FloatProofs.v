(** The operations of Coq.Floats.SpecFloat are the IEEE operations of SpecFloats.v. *)
From Coq Require Import ZArith Reals SpecFloat Bool Lia Lra.
From Flocq Require Import Core IEEE754.BinarySingleNaN.
From Verif Require Import SpecFloats.
Open Scope R_scope.

Definition p53 : Z := 53. Definition e1024 : Z := 1024.
#[local] Instance Hprec : Prec_gt_0 p53. Proof. reflexivity. Qed.
#[local] Instance Hmax : Prec_lt_emax p53 e1024. Proof. reflexivity. Qed.
Notation bf := (binary_float p53 e1024).

Lemma datum_valid x : double_datum x -> valid_binary p53 e1024 x = true.
Proof.
  destruct x as [s|s| |s m e]; try reflexivity. intros (H & [H1 H2] & H3). cbn. unfold bounded, canonical_mantissa, fexp, emin.
  assert (D : (Zpos (digits2_pos m) <= 53 /\ (e = -1074 \/ Zpos (digits2_pos m) = 53))%Z).
  { rewrite Zpos_digits2_pos. split.
    - apply Zdigits_le_Zpower. exact H.
    - destruct H3 as [H3| ->]; [right|now left].
      assert (52 < Zdigits radix2 (Zpos m))%Z by (apply Zdigits_gt_Zpower; exact H3).
      assert (Zdigits radix2 (Zpos m) <= 53)%Z by (apply Zdigits_le_Zpower; exact H). lia. }
  apply andb_true_iff. split; [apply Zeq_bool_true|apply Zle_imp_le_bool]; unfold p53, e1024; destruct D as [D1 [D2|D2]]; lia.
Qed.

Lemma real_SF2R x : real x = SF2R radix2 x.
Proof.
  destruct x as [s|s| |s m e]; try reflexivity. cbn. unfold F2R. cbn [Fnum Fexp]. destruct s; cbn; [|reflexivity].
  now rewrite <- opp_IZR.
Qed.
Lemma finite_iff x : finite x <-> is_finite_SF x = true.
Proof. destruct x; cbn; intuition discriminate. Qed.
Lemma negative_sign x : negative x = sign_SF x. Proof. destruct x; reflexivity. Qed.

(** SpecFloat and Flocq agree (as in Flocq's PrimFloat.v, without the primitive floats). *)
Lemma round_nearest_even_equiv s m l : round_nearest_even m l = choice_mode mode_NE s m l.
Proof. destruct l as [|[ | | ]]; cbn; try reflexivity. now destruct (Z.even m). Qed.
Lemma binary_round_aux_equiv sx mx ex lx : SpecFloat.binary_round_aux p53 e1024 sx mx ex lx = binary_round_aux p53 e1024 mode_NE sx mx ex lx.
Proof.
  unfold SpecFloat.binary_round_aux, binary_round_aux. set (mrse' := shr_fexp _ _ _ _ _). destruct mrse' as [mrs' e']; simpl.
  now rewrite (round_nearest_even_equiv sx).
Qed.
Lemma binary_round_equiv s m e : SpecFloat.binary_round p53 e1024 s m e = binary_round p53 e1024 mode_NE s m e.
Proof.
  unfold SpecFloat.binary_round, binary_round, shl_align_fexp. set (mez := shl_align _ _ _). destruct mez as [mz ez]. apply binary_round_aux_equiv.
Qed.
Lemma binary_normalize_equiv m e z : SpecFloat.binary_normalize p53 e1024 m e z = B2SF (binary_normalize p53 e1024 Hprec Hmax mode_NE m e z).
Proof. destruct m as [|p|p]; [reflexivity| |]; simpl; rewrite B2SF_SF2B; apply binary_round_equiv. Qed.
Lemma add_equiv (x y : bf) : SFadd p53 e1024 (B2SF x) (B2SF y) = B2SF (Bplus mode_NE x y).
Proof.
  destruct x as [sx|sx| |sx mx ex Bx], y as [sy|sy| |sy my ey By]; [now (trivial || simpl; destruct (Bool.eqb _ _)).. | ].
  apply binary_normalize_equiv.
Qed.
Lemma sub_equiv (x y : bf) : SFsub p53 e1024 (B2SF x) (B2SF y) = B2SF (Bminus mode_NE x y).
Proof.
  destruct x as [sx|sx| |sx mx ex Bx], y as [sy|sy| |sy my ey By]; [now (trivial || simpl; destruct (Bool.eqb _ _)).. | ].
  simpl. unfold Zminus. rewrite <- cond_Zopp_negb. apply binary_normalize_equiv.
Qed.
Lemma mul_equiv (x y : bf) : SFmul p53 e1024 (B2SF x) (B2SF y) = B2SF (Bmult mode_NE x y).
Proof.
  destruct x as [sx|sx| |sx mx ex Bx], y as [sy|sy| |sy my ey By]; [now trivial.. | ].
  simpl. rewrite B2SF_SF2B. apply binary_round_aux_equiv.
Qed.
Lemma div_equiv (x y : bf) : SFdiv p53 e1024 (B2SF x) (B2SF y) = B2SF (Bdiv mode_NE x y).
Proof.
  destruct x as [sx|sx| |sx mx ex Bx], y as [sy|sy| |sy my ey By]; [now trivial.. | ].
  simpl. rewrite B2SF_SF2B. set (melz := SFdiv_core_binary _ _ _ _ _ _). destruct melz as [[mz ez] lz]. apply binary_round_aux_equiv.
Qed.

Lemma fexp_FLT : forall z, round radix2 (fexp p53 e1024) (round_mode mode_NE) z = round radix2 (FLT_exp (-1074) 53) ZnearestE z.
Proof. reflexivity. Qed.
Lemma B_finite (x : bf) : is_finite x = is_finite_SF (B2SF x). Proof. now destruct x. Qed.
Lemma B_sign (x : bf) : Bsign x = sign_SF (B2SF x). Proof. now destruct x. Qed.
Lemma overflow_inf s : binary_overflow p53 e1024 mode_NE s = S754_infinity s. Proof. reflexivity. Qed.
Lemma real_sign x : (0 < real x -> negative x = false) /\ (real x < 0 -> negative x = true).
Proof.
  destruct x as [s|s| |s m e]; cbn; try (split; intros; lra). assert (0 < IZR (Zpos m)) by (apply IZR_lt; reflexivity). assert (0 < bpow radix2 e) by apply bpow_gt_0.
  assert (0 < IZR (Zpos m) * bpow radix2 e) by now apply Rmult_lt_0_compat.
  destruct s; split; intros; try reflexivity; lra.
Qed.
Lemma sum_rounded (z : R) (sx sy : bool) (r : bf) (a b : R) :
  (a < 0 -> sx = true) -> (0 < a -> sx = false) -> (b < 0 -> sy = true) -> (0 < b -> sy = false) -> z = a + b ->
  (if Rlt_bool (Rabs (round radix2 (fexp p53 e1024) (round_mode mode_NE) z)) (bpow radix2 e1024)
   then B2R r = round radix2 (fexp p53 e1024) (round_mode mode_NE) z /\ is_finite r = true /\
     Bsign r = match Rcompare z 0 with Eq => (sx && sy)%bool | Lt => true | Gt => false end
   else B2SF r = binary_overflow p53 e1024 mode_NE sx /\ sx = sy) ->
  exists s, sum_sign z sx sy s /\ rounded z s (B2SF r).
Proof.
  intros A1 A2 B1 B2 Z H. rewrite fexp_FLT in H. unfold rounded. set (q := round _ _ _ z) in *.
  destruct (Rlt_bool_spec (Rabs q) (bpow radix2 e1024)) as [Lt|Ge].
  - destruct H as (V & F & S). exists (Bsign r). split.
    + rewrite S. repeat split; intros C; [rewrite Rcompare_Lt by exact C|rewrite Rcompare_Gt by exact C|rewrite Rcompare_Eq by exact C]; reflexivity.
    + split; intros C; [|exfalso; unfold e1024 in Lt; lra]. rewrite finite_iff, <- B_finite, real_SF2R, SF2R_B2SF, negative_sign, <- B_sign. auto.
  - destruct H as (V & <-). exists sx. split.
    + assert (N : z <> 0).
      { intros E. revert Ge. unfold q. rewrite E, round_0 by apply (valid_rnd_round_mode mode_NE). rewrite Rabs_R0. pose proof (bpow_gt_0 radix2 e1024). lra. }
      repeat split; intros C; [| |contradiction].
      * destruct (Rlt_or_le a 0) as [D|D]; [auto|]. destruct (Rlt_or_le b 0) as [E|E]; [auto|]. lra.
      * destruct (Rlt_or_le 0 a) as [D|D]; [auto|]. destruct (Rlt_or_le 0 b) as [E|E]; [auto|]. lra.
    + split; intros C; [exfalso; unfold e1024 in Ge; lra|]. now rewrite V.
Qed.


Lemma datum_B x : double_datum x -> exists X : bf, x = B2SF X.
Proof. intros D. exists (SF2B x (datum_valid x D)). symmetry. apply B2SF_SF2B. Qed.
Lemma prod_rounded (z : R) (s : bool) (r : bf) :
  (if Rlt_bool (Rabs (round radix2 (fexp p53 e1024) (round_mode mode_NE) z)) (bpow radix2 e1024)
   then B2R r = round radix2 (fexp p53 e1024) (round_mode mode_NE) z /\ is_finite r = true /\ (is_nan r = false -> Bsign r = s)
   else B2SF r = binary_overflow p53 e1024 mode_NE s) ->
  rounded z s (B2SF r).
Proof.
  intros H. rewrite fexp_FLT in H. unfold rounded. set (q := round _ _ _ z) in *.
  destruct (Rlt_bool_spec (Rabs q) (bpow radix2 e1024)) as [Lt|Ge]; unfold e1024 in *.
  - destruct H as (V & F & S). split; intros C; [|exfalso; lra].
    rewrite finite_iff, <- B_finite, real_SF2R, SF2R_B2SF, negative_sign, <- B_sign. repeat split; auto. apply S. now destruct r.
  - split; intros C; [exfalso; lra|]. now rewrite H.
Qed.

Lemma add_ieee x y : double_datum x -> double_datum y -> ieee_add x y (SFadd p53 e1024 x y).
Proof.
  intros Dx Dy. repeat split.
  - intros [-> | ->]; [reflexivity|destruct x; reflexivity].
  - intros I F. destruct x; try contradiction. destruct y; try contradiction; reflexivity.
  - intros F I. destruct y; try contradiction. destruct x; try contradiction; reflexivity.
  - intros I J. destruct x; try contradiction. destruct y; try contradiction. reflexivity.
  - intros Fx Fy. destruct (datum_B x Dx) as [X ->], (datum_B y Dy) as [Y ->]. rewrite add_equiv.
    destruct (real_sign (B2SF X)) as [X1 X2], (real_sign (B2SF Y)) as [Y1 Y2].
    eapply (sum_rounded _ _ _ _ (real (B2SF X)) (real (B2SF Y))); auto.
    rewrite !real_SF2R, !SF2R_B2SF, !negative_sign, <- !B_sign.
    apply (Bplus_correct p53 e1024 Hprec Hmax mode_NE X Y); rewrite B_finite; now apply finite_iff.
Qed.
Lemma sub_ieee x y : double_datum x -> double_datum y -> ieee_sub x y (SFsub p53 e1024 x y).
Proof.
  intros Dx Dy. repeat split.
  - intros [-> | ->]; [reflexivity|destruct x; reflexivity].
  - intros I F. destruct x; try contradiction. destruct y; try contradiction; reflexivity.
  - intros F I. destruct y; try contradiction. destruct x; try contradiction; reflexivity.
  - intros I J. destruct x as [|a| |]; try contradiction. destruct y as [|b| |]; try contradiction. now destruct a, b.
  - intros Fx Fy. destruct (datum_B x Dx) as [X ->], (datum_B y Dy) as [Y ->]. rewrite sub_equiv.
    destruct (real_sign (B2SF X)) as [X1 X2], (real_sign (B2SF Y)) as [Y1 Y2].
    eapply (sum_rounded _ _ _ _ (real (B2SF X)) (- real (B2SF Y))); auto.
    + intros. rewrite Y1 by lra. reflexivity.
    + intros. rewrite Y2 by lra. reflexivity.
    + rewrite !real_SF2R, !SF2R_B2SF, !negative_sign, <- !B_sign.
      apply (Bminus_correct p53 e1024 Hprec Hmax mode_NE X Y); rewrite B_finite; now apply finite_iff.
Qed.
Lemma mul_ieee x y : double_datum x -> double_datum y -> ieee_mul x y (SFmul p53 e1024 x y).
Proof.
  intros Dx Dy. refine (conj _ (conj _ (conj _ _))).
  - intros [-> | ->]; [reflexivity|destruct x; reflexivity].
  - intros [[I F]|[I F]]; destruct x; try contradiction; destruct y; try contradiction; reflexivity.
  - intros [[I [N F]]|[N [F I]]]; destruct x; try contradiction; destruct y; try contradiction; try reflexivity; cbn in F; try (now elim F); congruence.
  - intros Fx Fy. destruct (datum_B x Dx) as [X ->], (datum_B y Dy) as [Y ->]. rewrite mul_equiv.
    apply finite_iff in Fx, Fy. rewrite <- B_finite in Fx, Fy. pose proof (Bmult_correct p53 e1024 Hprec Hmax mode_NE X Y) as C. rewrite Fx, Fy in C.
    rewrite !real_SF2R, !SF2R_B2SF, !negative_sign, <- !B_sign. apply prod_rounded. exact C.
Qed.
Lemma real_nonzero x : finite x -> ~ zero x -> real x <> 0.
Proof.
  destruct x as [s|s| |s m e]; cbn; try tauto. intros _ _. assert (0 < IZR (Zpos m)) by (apply IZR_lt; reflexivity). assert (0 < bpow radix2 e) by apply bpow_gt_0.
  assert (0 < IZR (Zpos m) * bpow radix2 e) by now apply Rmult_lt_0_compat. destruct s; lra.
Qed.
Lemma div_ieee x y : double_datum x -> double_datum y -> ieee_div x y (SFdiv p53 e1024 x y).
Proof.
  intros Dx Dy. refine (conj _ (conj _ (conj _ (conj _ _)))).
  - intros [-> | ->]; [reflexivity|destruct x; reflexivity].
  - intros I J. destruct x; try contradiction; destruct y; try contradiction; reflexivity.
  - intros I F N. destruct x; try contradiction; destruct y; try contradiction; cbn in N; try (now elim N); reflexivity.
  - intros F I. destruct x; try contradiction; destruct y; try contradiction; reflexivity.
  - intros Fx Fy N. pose proof (real_nonzero y Fy N) as NZ. destruct (datum_B x Dx) as [X ->], (datum_B y Dy) as [Y ->]. rewrite div_equiv.
    apply finite_iff in Fx, Fy. rewrite <- B_finite in Fx, Fy. rewrite real_SF2R, SF2R_B2SF in NZ.
    pose proof (Bdiv_correct p53 e1024 Hprec Hmax mode_NE X Y NZ) as C. rewrite Fx in C.
    rewrite !real_SF2R, !SF2R_B2SF, !negative_sign, <- !B_sign. apply prod_rounded. exact C.
Qed.

Lemma valid_datum x : valid_binary p53 e1024 x = true -> double_datum x.
Proof.
  destruct x as [s|s| |s m e]; try (intros; exact I). cbn. unfold bounded, canonical_mantissa, fexp, emin. intros H.
  apply andb_true_iff in H as [H1 H2]. apply Zeq_bool_eq in H1. apply Zle_bool_imp_le in H2. unfold p53, e1024 in *. rewrite Zpos_digits2_pos in H1.
  assert (Zpos m < 2 ^ Zdigits radix2 (Zpos m))%Z.
  { pose proof (Zpower_gt_Zdigits radix2 (Zdigits radix2 (Zpos m)) (Zpos m) (Z.le_refl _)) as G. cbn in G. exact G. }
  assert (Zdigits radix2 (Zpos m) <= 53)%Z by lia.
  split; [eapply Z.lt_le_trans; [eassumption|apply (Z.pow_le_mono_r 2 _ 53); lia]|]. split; [lia|].
  destruct (Z.eq_dec e (-1074)); [now right|left]. assert (Zdigits radix2 (Zpos m) = 53%Z) as D by lia.
  pose proof (Zpower_le_Zdigits radix2 52 (Zpos m)) as G. rewrite D in G. cbn in G. apply G. reflexivity.
Qed.
Lemma B_datum (X : bf) : double_datum (B2SF X). Proof. apply valid_datum, valid_binary_B2SF. Qed.
Lemma add_datum x y : double_datum x -> double_datum y -> double_datum (SFadd p53 e1024 x y).
Proof. intros Dx Dy. destruct (datum_B x Dx) as [X ->], (datum_B y Dy) as [Y ->]. rewrite add_equiv. apply B_datum. Qed.
Lemma sub_datum x y : double_datum x -> double_datum y -> double_datum (SFsub p53 e1024 x y).
Proof. intros Dx Dy. destruct (datum_B x Dx) as [X ->], (datum_B y Dy) as [Y ->]. rewrite sub_equiv. apply B_datum. Qed.
Lemma mul_datum x y : double_datum x -> double_datum y -> double_datum (SFmul p53 e1024 x y).
Proof. intros Dx Dy. destruct (datum_B x Dx) as [X ->], (datum_B y Dy) as [Y ->]. rewrite mul_equiv. apply B_datum. Qed.
Lemma div_datum x y : double_datum x -> double_datum y -> double_datum (SFdiv p53 e1024 x y).
Proof. intros Dx Dy. destruct (datum_B x Dx) as [X ->], (datum_B y Dy) as [Y ->]. rewrite div_equiv. apply B_datum. Qed.
