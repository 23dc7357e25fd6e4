(** SELECT TOP n (C11). *)
From Verif Require Import Query PegProps PegSpec PegEquiv Gen Nodes TextLemmas SpecLexical Spec LexProofs LexProofs2 First Calc Operand QueryProofs SelectProofs.
Local Open Scope N_scope.

(** ** Decimal numbers *)
Lemma dec_value_from t : forall a, fold_left (fun a c => a * 10 + (code c - 48)) t a = value_from a t.
Proof. induction t as [|c t IH]; intros a; cbn; [reflexivity|]. rewrite IH. unfold code. now rewrite (N.mul_comm a 10). Qed.
Lemma dec_value_decimal t : dec_value t = decimal t.
Proof. apply dec_value_from. Qed.
Lemma digit_code d : d < 10 -> N_of_ascii (ascii_of_N (48 + d)) = 48 + d.
Proof. intros H. apply N_ascii_embedding. lia. Qed.
Lemma pr_N_aux_spec fuel : forall n acc, n < 2 ^ N.of_nat fuel -> (0 < fuel)%nat ->
  value_from 0 (pr_N_aux fuel n acc) = value_from n acc /\ (Forall digit acc -> digits (pr_N_aux fuel n acc)).
Proof.
  induction fuel as [|fuel IH]; [intros n acc _ H; inversion H|]. intros n acc Hn _. cbn [pr_N_aux].
  assert (T : 10 <> 0) by discriminate. pose proof (N.mod_lt n 10 T) as Hm. pose proof (N.div_mod n 10 T) as Hd.
  pose proof (N.div_small n 10) as Hz. pose proof (N.div_lt_upper_bound n 10 (2 ^ N.of_nat fuel) T) as Hu.
  revert Hm Hd Hz Hu. generalize (n / 10) (n mod 10). intros a b Hm Hd Hz Hu.
  assert (Dc : N_of_ascii (ascii_of_N (48 + b)) = 48 + b) by (apply digit_code, Hm).
  assert (Dg : digit (ascii_of_N (48 + b))) by (unfold digit; rewrite Dc; lia).
  destruct (N.eqb_spec a 0) as [Z|NZ].
  - split; [|intros F; split; [discriminate|constructor; auto]]. cbn [value_from]. rewrite Dc. replace (10 * 0 + (48 + b - 48)) with n by lia. reflexivity.
  - destruct fuel as [|fuel].
    + exfalso. apply NZ, Hz. change (2 ^ N.of_nat 1) with 2 in Hn. lia.
    + destruct (IH a (ascii_of_N (48 + b) :: acc)) as [V D]; [|apply Nat.lt_0_succ|].
      * apply Hu. rewrite (Nat2N.inj_succ (S fuel)), N.pow_succ_r' in Hn. revert Hn. generalize (2 ^ N.of_nat (S fuel)). lia.
      * split; [|intros F; apply D; constructor; auto]. rewrite V. cbn [value_from]. rewrite Dc. replace (10 * a + (48 + b - 48)) with n by lia. reflexivity.
Qed.
Lemma pr_N_fuel n : n < 2 ^ N.of_nat (S (N.to_nat (N.log2 n))).
Proof.
  rewrite Nat2N.inj_succ, N2Nat.id. destruct (N.eq_dec n 0) as [->|H]; [cbn; lia|]. apply N.log2_spec. lia.
Qed.
Lemma pr_N_decimal n : decimal (pr_N n) = n /\ digits (pr_N n).
Proof.
  unfold pr_N, decimal. destruct (pr_N_aux_spec (S (N.to_nat (N.log2 n))) n [] (pr_N_fuel n) ltac:(lia)) as [V D]. auto.
Qed.

Lemma span_digits d k : Forall digit d -> stops digit k -> span is_digit (d ++ k) = (d, k).
Proof.
  intros F K. induction F as [|c d Hc F IH]; cbn [app span].
  - destruct k as [|c k]; [reflexivity|]. cbn [span]. cbn in K. assert (is_digit c = false) as -> by (destruct (is_digit c) eqn:E; auto; apply is_digit_iff in E; contradiction). reflexivity.
  - rewrite (proj2 (is_digit_iff c) Hc). now rewrite IH.
Qed.
Lemma ulong_digits d k : digits d -> stops digit k ->
  ulong (d ++ k) = if decimal d <? 2 ^ 64 then Some (decimal d, k) else None.
Proof.
  intros [N F] K. unfold ulong. rewrite span_digits by auto. rewrite dec_value_decimal. destruct d; [congruence|reflexivity].
Qed.
Lemma space_not_digit c k : is_space c = true -> stops digit (c :: k).
Proof. intros H. cbn. intros D. apply is_digit_iff in D. revert H D. clear. destruct c as [[] [] [] [] [] [] [] []]; vm_compute; congruence. Qed.

Lemma white_skip b r : white b -> skip (b ++ r) = skip r.
Proof. induction 1 as [|c b Hc _ IH]; cbn; [reflexivity|]. now rewrite Hc. Qed.
Lemma white_head b : white b -> b <> [] -> exists c b', b = c :: b' /\ is_space c = true.
Proof. intros W N. destruct W as [|c b Hc W]; [congruence|]. eauto. Qed.
Lemma kw_soft_run u t b r : upper t = upper (L u) -> white b -> b <> [] -> srun (kw_soft u) [] (t ++ b ++ r) = SOk [] (b ++ r).
Proof.
  intros U W N. destruct (white_head b W N) as (c & b' & -> & Hc). unfold kw_soft, ahead_space. cbn [srun]. rewrite strip_kw by exact U. cbn [app]. now rewrite Hc.
Qed.
Lemma kw_hard_run u t b r : upper t = upper (L u) -> white b -> b <> [] -> srun (kw_hard u) [] (t ++ b ++ r) = SOk [] (b ++ r).
Proof.
  intros U W N. destruct (white_head b W N) as (c & b' & -> & Hc). unfold kw_hard, ahead_space. cbn [srun]. rewrite strip_kw by exact U. cbn [app]. now rewrite Hc.
Qed.

Section Top.
Variable tm : mapping.
Notation m := (lookup tm).
Notation reads := (reads m).
Notation fails := (fails m).

Definition throws {A : Set} (e : PE A) (i : text) : Prop := exists x, ev (g_body m) _ e i (Throw x).
Lemma top_reads t b d c k i : upper t = L "TOP" -> white b -> b <> [] -> digits d -> is_space c = true -> skip i = t ++ b ++ d ++ c :: k ->
  if decimal d <? 2 ^ 64 then reads g_top i (decimal d) (skip k) else throws g_top i.
Proof.
  intros U W N D C E. destruct (digits_starts d D) as (c0 & d' & Ed & Hd).
  assert (Es : skip (b ++ d ++ c :: k) = d ++ c :: k).
  { rewrite white_skip by exact W. rewrite Ed. cbn [app]. apply skip_dark. revert Hd. clear. destruct c0 as [[] [] [] [] [] [] [] []]; vm_compute; congruence. }
  assert (R : reads (PLex (kw_soft "TOP")) i [] (d ++ c :: k)).
  { rewrite <- Es. eapply reads_lex; [reflexivity|]. rewrite E. apply kw_soft_run; auto. }
  pose proof (ulong_digits d (c :: k) D (space_not_digit c k C)) as Ul. destruct (decimal d <? 2 ^ 64).
  - apply (reads_map m _ _ i ([], decimal d)); [|reflexivity]. eapply (reads_exp m _ _ i [] (d ++ c :: k)); [exact R|].
    intros r Er. exists (c :: k). split; [|cbn; now rewrite C]. eapply ev_top_ok; [rewrite Er; exact Ul|exact C].
  - destruct R as (r & R & Er). exists (ExExpect (skip r)). eapply ev_map_th. eapply ev_exp_unmet; [exact R|]. apply ev_top_no. now rewrite Er.
Qed.

(** The optional set quantifier, written [q] and white space. *)
Definition quantifier (q b : text) : Prop :=
  (q = [] /\ b = []) \/ ((upper q = L "DISTINCT" \/ upper q = L "ALL") /\ white b /\ b <> []).
Lemma quantifier_reads q b t r i : quantifier q b -> upper t = L "TOP" -> skip i = q ++ b ++ t ++ r -> reads (POptLex s_set_quantifier) i q (t ++ r).
Proof.
  intros Q U E. assert (St : skip (t ++ r) = t ++ r).
  { destruct t as [|c t]; [discriminate|]. cbn in U. injection U as U _. apply skip_dark. revert U. clear. destruct c as [[] [] [] [] [] [] [] []]; vm_compute; congruence. }
  destruct Q as [[-> ->]|(Q & W & N)].
  - cbn in E. rewrite <- E. eapply reads_olex_none; [reflexivity|]. rewrite E. destruct t as [|c t]; [discriminate|].
    apply held_class; [|reflexivity]. cbn in U. injection U as U _. revert U. clear. cbn [app hd_of]. destruct c as [[] [] [] [] [] [] [] []]; vm_compute; congruence.
  - assert (skip (b ++ t ++ r) = t ++ r) as <- by (rewrite white_skip by exact W; exact St).
    eapply reads_olex; [reflexivity|]. rewrite E. destruct (white_head b W N) as (c & b' & -> & Hc).
    unfold s_set_quantifier, ahead_space. cbn [srun]. rewrite strs_run. cbn [first_str].
    destruct Q as [Q|Q].
    + rewrite (strip_kw "DISTINCT") by exact Q. cbn [app]. now rewrite Hc.
    + assert (strip true (L "DISTINCT") (q ++ (c :: b') ++ t ++ r) = None) as ->.
      { destruct q as [|x q]; [discriminate|]. cbn in Q. injection Q as Qx _. cbn [L list_ascii_of_string app strip eq_ch]. unfold eq_nc. rewrite Qx. reflexivity. }
      rewrite (strip_kw "ALL") by exact Q. cbn [app]. now rewrite Hc.
Qed.

(** [sel] [b1] [q] [b2] [t] [b3] [d] [c] [k]: SELECT, quantifier, TOP, number, more. *)
Definition select_top (sel b1 q b2 t b3 d : text) (c : ascii) (k : text) : text := sel ++ b1 ++ q ++ b2 ++ t ++ b3 ++ d ++ c :: k.
Lemma select_head sel b1 q b2 t b3 d c k i :
  upper sel = L "SELECT" -> white b1 -> b1 <> [] -> quantifier q b2 -> upper t = L "TOP" -> white b3 -> b3 <> [] -> digits d -> is_space c = true ->
  skip i = select_top sel b1 q b2 t b3 d c k ->
  if decimal d <? 2 ^ 64 then reads (PLex (kw_hard "SELECT") >> POptLex s_set_quantifier >> POpt g_top)%pe i ([], q, Some (decimal d)) (skip k)
  else throws (PLex (kw_hard "SELECT") >> POptLex s_set_quantifier >> POpt g_top)%pe i.
Proof.
  intros Us W1 N1 Q Ut W3 N3 D C E.
  assert (Sq : skip (q ++ b2 ++ t ++ b3 ++ d ++ c :: k) = q ++ b2 ++ t ++ b3 ++ d ++ c :: k).
  { destruct Q as [[-> ->]|(Q & _ & _)]; cbn [app].
    - destruct t as [|x t]; [discriminate|]. cbn in Ut. injection Ut as U _. apply skip_dark. revert U. clear. destruct x as [[] [] [] [] [] [] [] []]; vm_compute; congruence.
    - destruct q as [|x q]; [destruct Q; discriminate|]. apply skip_dark. assert (upc x = "D"%char \/ upc x = "A"%char) as U by (destruct Q as [Q|Q]; injection Q as Q _; auto).
      revert U. clear. destruct x as [[] [] [] [] [] [] [] []]; vm_compute; intros [U|U]; congruence. }
  assert (H : reads (PLex (kw_hard "SELECT") >> POptLex s_set_quantifier)%pe i ([], q) (t ++ b3 ++ d ++ c :: k)).
  { eapply (reads_seq m _ _ i [] (q ++ b2 ++ t ++ b3 ++ d ++ c :: k)).
    - rewrite <- Sq. erewrite <- white_skip by exact W1. eapply reads_lex; [reflexivity|]. rewrite E. unfold select_top. apply kw_hard_run; auto.
    - intros r Er. eapply quantifier_reads; eauto. }
  destruct (decimal d <? 2 ^ 64) eqn:Ed.
  - eapply reads_seq; [exact H|]. intros r Er. apply reads_some. pose proof (top_reads t b3 d c k r Ut W3 N3 D C Er) as Hr. rewrite Ed in Hr. exact Hr.
  - destruct H as (r & H & Er). pose proof (top_reads t b3 d c k r Ut W3 N3 D C Er) as Hr. rewrite Ed in Hr. destruct Hr as (x & Hr).
    exists x. eapply ev_seq_th2; [exact H|]. now apply ev_opt_th.
Qed.

Lemma reads_run {A : Set} (e : PE A) n i v j w r : reads e i v j -> grun m n e i = Ok w r -> w = v /\ skip r = j.
Proof.
  intros (r' & H & E) G. unfold grun in G. apply (ev_iff_run (g_body m) A e i _ n) in H; [|rewrite G; discriminate]. rewrite G in H. injection H as -> ->. auto.
Qed.
Lemma throws_run {A : Set} (e : PE A) n i w r : throws e i -> grun m n e i <> Ok w r.
Proof.
  intros (x & H) G. unfold grun in G. apply (ev_iff_run (g_body m) A e i _ n) in H; [|rewrite G; discriminate]. rewrite G in H. discriminate.
Qed.
Lemma accepted_top sel b1 q b2 t b3 d c k qs :
  upper sel = L "SELECT" -> white b1 -> b1 <> [] -> quantifier q b2 -> upper t = L "TOP" -> white b3 -> b3 <> [] -> digits d -> is_space c = true ->
  parse_it tm (select_top sel b1 q b2 t b3 d c k) = Q_ok qs ->
  decimal d < 2 ^ 64 /\ exists cs ts w ad g h o, qs = QS None (SFW (Select q (decimal d) cs) ts w) ad g h o.
Proof.
  intros Us W1 N1 Q Ut W3 N3 D C H. unfold parse_it in H.
  set (i := select_top sel b1 q b2 t b3 d c k) in *. destruct (grun m (fuel_for i) (g_query m) i) as [q' r| | [] |] eqn:G; try discriminate.
  assert (q' = qs) as -> by (destruct (skip r); congruence). clear H.
  assert (hd : exists x i', i = x :: i' /\ upc x = "S"%char).
  { unfold i, select_top. destruct sel as [|x sel]; [discriminate|]. exists x. eexists. split; [reflexivity|]. injection Us as Us _. exact Us. }
  destruct hd as (x & i' & Ei & Ux).
  assert (Si : skip i = i) by (rewrite Ei; apply skip_dark; revert Ux; clear; destruct x as [[] [] [] [] [] [] [] []]; vm_compute; congruence).
  assert (Hw : reads (POpt (g_with)) i None (skip i)).
  { apply reads_none, reads_first. rewrite Si, Ei. revert Ux. clear. cbn [hd_of]. destruct x as [[] [] [] [] [] [] [] []]; vm_compute; congruence. }
  unfold g_query, g_query_gen in G. apply inv_map in G as (v & -> & G).
  apply inv_seq in G as (v1 & ho & i1 & -> & _ & G & _). apply inv_seq in G as (v2 & hh & i2 & -> & _ & G & _).
  apply inv_seq in G as (v3 & gg & i3 & -> & _ & G & _). apply inv_seq in G as (wi & sf & i4 & -> & _ & G1 & G2).
  destruct (reads_run _ _ _ _ _ _ _ Hw G1) as [-> E4].
  apply inv_seq in G2 as (sfw0 & ad & i5 & -> & _ & G2 & _). unfold g_sfw_gen in G2. apply inv_map in G2 as (v4 & -> & G2).
  apply inv_exp in G2 as (sl & fw & i6 & -> & _ & G2 & _). unfold g_select in G2. apply inv_map in G2 as (v5 & -> & G2).
  apply inv_exp in G2 as (hd & cs & i7 & -> & _ & G2 & _).
  pose proof (select_head sel b1 q b2 t b3 d c k i4 Us W1 N1 Q Ut W3 N3 D C) as Sh.
  rewrite E4, Si in Sh. specialize (Sh eq_refl). destruct (decimal d <? 2 ^ 64) eqn:Ed.
  - destruct (reads_run _ _ _ _ _ _ _ Sh G2) as [-> _]. apply N.ltb_lt in Ed. split; auto. destruct fw as [ts w]. cbn. eauto 10.
  - exfalso. eapply throws_run; eauto.
Qed.

(** An accepted case. *)
Lemma star_from t r : plain_table t -> skip r = "*"%char :: from t -> reads (g_columns m) r (C_star (L "*")) (skip (from t)).
Proof.
  intros P E. apply reads_alt1. apply (reads_map m _ _ r (L "*")); [|reflexivity]. eapply reads_lex; [reflexivity|]. rewrite E. reflexivity.
Qed.
Definition top_query (d t : text) : text := L "select top " ++ d ++ L " *" ++ from t.
Lemma top_query_parses d t : digits d -> plain_table t -> decimal d < 2 ^ 64 ->
  parse_it tm (top_query d t) = Q_ok (query_of (C_star (L "*")) t (decimal d)).
Proof.
  intros D P Lt. apply parse_of, around; auto. intros r E.
  apply (reads_map m _ _ r ([], [], Some (decimal d), C_star (L "*"))); [|reflexivity].
  pose proof (select_head (L "select") (L " ") [] [] (L "top") (L " ") d " " ("*"%char :: from t) r) as Sh.
  apply N.ltb_lt in Lt. rewrite Lt in Sh.
  eapply (reads_exp m _ _ r ([], [], Some (decimal d)) ("*"%char :: from t)).
  - change ("*"%char :: from t) with (skip ("*"%char :: from t)). apply Sh; try reflexivity; auto; try discriminate; try (repeat constructor).
  - intros r1 E1. apply star_from; auto.
Qed.
End Top.
