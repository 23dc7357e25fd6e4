(** C53: coordinates survive being formatted by to_string, which writes 17 digits. *)
From Coq Require Import ZArith Reals SpecFloat Lra Lia List.
From Flocq Require Import Core.
From Verif Require Import Query Print Evaluate Spec SpecLexical SpecNodes SpecNorm SpecCanon SpecUsual SpecNumbers SpecFloats SpecDigits DigitProofs Properties12.
Import ListNotations.
Open Scope R_scope.

(** ** A finite double that is written with 17 significant digits (to_string.hxx:10), correctly rounded, and read again, correctly
    rounded, is the same double: nothing is lost, whatever its size and sign. *)
Theorem C53_survives :
  forall x t y, double_datum x -> finite x -> written_with 17 x t -> read_as t y -> y = x.
Proof. exact written_read. Qed.
Print Assumptions C53_survives.
Definition tenth : spec_float := S754_finite false 7205759403792794 (-56).
Lemma tenth_text : denotes (L "0.10000000000000001") false (IZR 10000000000000001 * bpow radix10 (-17)).
Proof.
  exists [], (L "0"), (L ".10000000000000001"), (L "10000000000000001"), [], 0%Z. split; [reflexivity|]. split; [auto|].
  split; [repeat constructor; cbn; lia|]. split; [repeat constructor; cbn; lia|]. split; [discriminate|]. split; [now right|]. split; [now left|].
  replace (integer (L "0" ++ L "10000000000000001")) with 10000000000000001%Z by (vm_compute; reflexivity).
  replace (0 - Z.of_nat (length (L "10000000000000001")))%Z with (-17)%Z by reflexivity. lra.
Qed.
Lemma tenth_datum : double_datum tenth. Proof. cbn. lia. Qed.
Lemma tenth_close : bpow radix10 (0 - 1) <= Rabs (real tenth) < bpow radix10 0 /\
  Rabs (IZR 10000000000000001 * bpow radix10 (-17) - real tenth) <= / 2 * bpow radix10 (0 - 17).
Proof.
  change (0 - 1)%Z with (-1)%Z. change (0 - 17)%Z with (-17)%Z. unfold real, tenth.
  change (bpow radix10 (-1)) with (/ 10). change (bpow radix10 0) with 1.
  change (bpow radix10 (-17)) with (/ 100000000000000000). change (bpow radix2 (-56)) with (/ 72057594037927936).
  rewrite Rabs_pos_eq by lra. split; [lra|]. apply Rabs_le. lra.
Qed.
Example C53_survives_case : double_datum tenth /\ finite tenth /\ written_with 17 tenth (L "0.10000000000000001") /\ read_as (L "0.10000000000000001") tenth.
Proof.
  split; [exact tenth_datum|]. split; [exact I|]. split.
  - eexists. split; [exact tenth_text|]. right. exists 0%Z, 10000000000000001%Z. split; [exact (proj1 tenth_close)|]. split; [reflexivity|exact (proj2 tenth_close)].
  - exists false. eexists. split; [exact tenth_text|]. split; [exact tenth_datum|]. unfold rounded. cbv zeta.
    rewrite (round_same (real tenth)); [|exact (datum_format _ tenth_datum)|right; exists 0%Z; exact tenth_close].
    split; intros B; [now repeat split|]. pose proof (datum_bound _ tenth_datum). lra.
Qed.

(** ** With fewer digits it is false: the double after 1 is written as 1 with any number of digits up to 16 -- in particular with
    the 6 digits that operator<< writes on a fresh stream. *)
Theorem C53_fewer_digits :
  forall p, (1 <= p <= 16)%Z -> exists x t y, double_datum x /\ finite x /\ written_with p x t /\ read_as t y /\ y <> x.
Proof.
  intros p P. exists (S754_finite false 4503599627370497 (-52)), (L "1"), (S754_finite false 4503599627370496 (-52)).
  assert (T : denotes (L "1") false 1).
  { exists [], (L "1"), [], [], [], 0%Z. split; [reflexivity|]. split; [auto|]. split; [repeat constructor; cbn; lia|]. split; [constructor|]. split; [discriminate|]. split; [auto|]. split; [auto|]. cbn. lra. }
  assert (D : double_datum (S754_finite false 4503599627370496 (-52))) by (cbn; lia).
  assert (V : real (S754_finite false 4503599627370496 (-52)) = 1).
  { unfold real. change (bpow radix2 (-52)) with (/ 4503599627370496). lra. }
  split; [cbn; lia|]. split; [exact I|]. split; [|split; [|discriminate]].
  - exists 1. split; [exact T|]. right. exists 1%Z, (10 ^ (p - 1))%Z. split; [|split].
    + unfold real. change (bpow radix2 (-52)) with (/ 4503599627370496). change (bpow radix10 (1 - 1)) with 1. change (bpow radix10 1) with 10. rewrite Rabs_pos_eq by lra. lra.
    + change 10%Z with (radix_val radix10). rewrite IZR_Zpower by lia. rewrite <- bpow_plus. replace (p - 1 + (1 - p))%Z with 0%Z by lia. reflexivity.
    + unfold real. change (bpow radix2 (-52)) with (/ 4503599627370496). apply Rle_trans with (/ 2 * bpow radix10 (-15)).
      * change (bpow radix10 (-15)) with (/ 1000000000000000). apply Rabs_le. lra.
      * apply Rmult_le_compat_l; [lra|]. apply bpow_le. lia.
  - exists false, 1. split; [exact T|]. split; [exact D|]. unfold rounded. cbv zeta.
    assert (R : round radix2 (FLT_exp (-1074) 53) ZnearestE 1 = 1) by (rewrite <- V; apply round_generic; [typeclasses eauto|exact (datum_format _ D)]).
    rewrite R. split; intros B; [repeat split; exact V|]. pose proof (datum_bound _ D) as X. rewrite V in X. lra.
Qed.
Print Assumptions C53_fewer_digits.
Example C53_fewer_digits_case : (1 <= 6 <= 16)%Z. Proof. lia. Qed.
Theorem C53_six_digits_refuted : exists x t y, double_datum x /\ finite x /\ written_with 6 x t /\ read_as t y /\ y <> x.
Proof. apply C53_fewer_digits. lia. Qed.
Print Assumptions C53_six_digits_refuted.

(** ** The coordinates and sizes in the geometries of an accepted query with usual parts (SpecUsual.v) have the same values in the
    query that is read from the formatted text -- numbers as well as sums of numbers -- if the numbers are written with 17 digits
    and both directions round correctly (the stream and qi::double_ are not modelled).  Missing: unusual parts, see C13. *)
Theorem C53_geometry_partial :
  forall tm fmt value input q, (forall d, fmt (fmt d) = fmt d) ->
  (forall n v, n <> [] -> lookup tm n = Some v -> upload_name v = true) ->
  query tm input = Q_ok q -> forallb (usual fmt) (nodes_qspec q) = true ->
  (forall s c d, In s (components q) -> In c (where_numbers (where_of s)) -> In d (numerals c) -> faithful fmt value d) ->
  exists r, parse_it tm (to_string fmt q) = Q_ok r /\
    map (fun s => map (double_or_throw value) (where_numbers (where_of s))) (components r) =
    map (fun s => map (double_or_throw value) (where_numbers (where_of s))) (components q).
Proof.
  intros tm fmt value input q I M H U F. destruct (C13_accepted_partial tm fmt input q I M H U) as (_ & P & _).
  exists (normal fmt q). split; [exact P|].
  assert (X : components (normal fmt q) = map (n_sfw fmt) (components q)).
  { destruct q as [w s0 ad g h o]. unfold normal. rewrite NormProofs.n_qspec_QS. cbn [components map]. f_equal. rewrite !map_map. apply map_ext. now intros [op x]. }
  rewrite X, map_map. apply map_ext_in. intros s J. rewrite where_numbers_n, map_map. apply map_ext_in. intros c K.
  specialize (F s c). destruct c as [a op b|c|d]; cbn [n_csae double_or_throw]; [|reflexivity|].
  - now rewrite (faithful_same fmt value a), (faithful_same fmt value b) by (apply F; cbn; auto).
  - now rewrite (faithful_same fmt value d) by (apply F; cbn; auto).
Qed.
Print Assumptions C53_geometry_partial.
Definition fmt1 (d : text) : text := if text_eqb d (L "0.1") then L "0.10000000000000001" else d.
Example C53_geometry_case : exists q,
  query default_mapping (L "select * from t where contains(point(0.1,y),c)=1") = Q_ok q /\ forallb (usual fmt1) (nodes_qspec q) = true /\
  (forall d, fmt1 (fmt1 d) = fmt1 d) /\
  flat_map (fun s => flat_map numerals (where_numbers (where_of s))) (components q) = [L "0.1"] /\ faithful fmt1 (fun _ => tenth) (L "0.1").
Proof.
  eexists. split; [vm_compute; reflexivity|]. split; [vm_compute; reflexivity|]. split; [|split; [reflexivity|]].
  - intros d. unfold fmt1. destruct (text_eqb d (L "0.1")) eqn:E; [reflexivity|now rewrite E].
  - split; [exact tenth_datum|]. split; [exact I|]. exact (proj2 (proj2 C53_survives_case)).
Qed.
