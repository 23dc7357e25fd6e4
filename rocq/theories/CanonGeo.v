(** Numbers, coordinates, shapes: the printed text is read back. *)
From Verif Require Import Grammar Print PegProps PegSpec PegEquiv TextLemmas SpecLexical LexProofs LexProofs2 First Calc Look Tight Operand TopProofs SpecCanon CanonBase CanonLex.

(** ** qi::double_ *)
Lemma after_number_nstop k : after_number k -> stops digit k /\ match k with c :: _ => c <> "."%char /\ Ascii.eqb c "e" || Ascii.eqb c "E" = false | [] => True end.
Proof.
  destruct k as [|c k]; [easy|]. cbn. intros H. split; [intros D; apply H; left; right; left; exact D|]. split; [intros ->; apply H; now right|].
  apply orb_false_iff. split; apply Ascii.eqb_neq; intros ->; apply H; left; left; unfold letter; vm_compute; lia || (right; split; discriminate) || (left; split; discriminate).
Qed.
Lemma exp_none k : after_number k -> dbl_exp k = ([], k).
Proof. intros H. apply after_number_nstop in H as [_ H]. destruct k as [|c k]; [reflexivity|]. destruct H as [_ H]. unfold dbl_exp. now rewrite H. Qed.
Lemma exp_some e k : exponent e -> after_number k -> dbl_exp (e ++ k) = (e, k).
Proof.
  intros (c & s & d & -> & C & S & D) K. apply after_number_nstop in K as [K _]. cbn [app dbl_exp].
  assert (Ascii.eqb c "e" || Ascii.eqb c "E" = true) as -> by (destruct C as [-> | ->]; reflexivity).
  destruct (digits_starts _ D) as (x & d' & -> & Hx).
  assert (Ascii.eqb x "+" || Ascii.eqb x "-" = false) as Sx by (apply orb_false_iff; split; apply Ascii.eqb_neq; intros ->; discriminate).
  pose proof (span_digits (x :: d') k (proj2 D) K) as SP.
  destruct S as [-> |[-> | ->]]; cbn [app].
  - rewrite Sx. cbn [app] in SP. rewrite SP. reflexivity.
  - cbn [app] in SP. change (Ascii.eqb "+" "+" || Ascii.eqb "+" "-") with true. cbv iota. rewrite SP. reflexivity.
  - cbn [app] in SP. change (Ascii.eqb "-" "+" || Ascii.eqb "-" "-") with true. cbv iota. rewrite SP. reflexivity.
Qed.
Lemma dbl_mantissa a r ex k : mantissa a -> after_mantissa r -> dbl_exp r = (ex, k) -> dbl_unsigned (a ++ r) = Some (a ++ ex, k).
Proof.
  intros M R E. assert (SR : stops digit r) by (destruct r; [exact I|]; cbn in *; tauto). destruct M as [D|[(x & y & -> & Dx & Dy)|(y & -> & Dy)]].
  - unfold dbl_unsigned. rewrite span_digits by (apply D || auto). destruct (digits_starts _ D) as (z & d' & -> & Hz). cbn [is_nil].
    destruct r as [|c r]; [rewrite E; reflexivity|]. cbn in R.
    assert (Hc : c <> "."%char) by tauto. clear R. rewrite E. destruct c as [[] [] [] [] [] [] [] []]; try reflexivity. congruence.
  - rewrite <- app_assoc. cbn [app]. unfold dbl_unsigned. rewrite span_digits; [|apply Dx|cbn; unfold digit; vm_compute; intros [A B]; congruence].
    destruct (digits_starts _ Dx) as (z & d' & -> & Hz). cbn [is_nil andb]. rewrite span_digits by (apply Dy || auto). rewrite E. rewrite <- app_assoc. reflexivity.
  - cbn [app]. unfold dbl_unsigned. change (span is_digit ("."%char :: y ++ r)) with (@nil ascii, "."%char :: y ++ r). cbv iota. cbn [is_nil].
    change (strip true (L "nan") ("."%char :: y ++ r)) with (@None (text * text)). change (strip true (L "inf") ("."%char :: y ++ r)) with (@None (text * text)). cbv iota.
    rewrite span_digits by (apply Dy || auto). destruct (digits_starts _ Dy) as (z & d' & -> & Hz). cbn [is_nil andb]. rewrite E. reflexivity.
Qed.
Lemma dbl_number t k : number t -> after_number k -> dbl_unsigned (t ++ k) = Some (t, k).
Proof.
  intros [M|(a & b & -> & M & E)] K.
  - erewrite dbl_mantissa; [rewrite app_nil_r; reflexivity|exact M| |now apply exp_none].
    destruct k as [|c k]; [exact I|]. cbn in *. intros [H|H]; apply K; [left; right; left; exact H|now right].
  - rewrite <- app_assoc. erewrite dbl_mantissa; [reflexivity|exact M| |now apply exp_some].
    destruct E as (e & s & d & -> & C & _). cbn. destruct C as [-> | ->]; intros [H|H]; try discriminate; unfold digit in H; vm_compute in H; destruct H; congruence.
Qed.
Lemma number_unsigned t : number t -> exists c t', t = c :: t' /\ (Ascii.eqb c "+" || Ascii.eqb c "-") = false.
Proof.
  intros H. destruct (number_starts _ H) as (c & t' & -> & [D|D]); exists c, t'; split; auto.
  - apply orb_false_iff. split; apply Ascii.eqb_neq; intros ->; discriminate. - now subst.
Qed.
Definition double (d : text) : Prop := number d \/ exists c d', d = c :: d' /\ (c = "+"%char \/ c = "-"%char) /\ number d'.
Lemma c_double_ok fmt d : c_double fmt d = true -> double d /\ fmt d = d.
Proof.
  unfold c_double. intros [A B]%andb_true_iff. apply text_eqb_iff in B. split; auto. apply orb_true_iff in A as [A|A]; [left; now apply is_number_ok|].
  destruct d as [|c d]; [discriminate|]. apply andb_true_iff in A as [A B']. right. exists c, d. repeat split; [|now apply is_number_ok].
  apply orb_true_iff in A as [A|A]; apply Ascii.eqb_eq in A; auto.
Qed.
Lemma dbl_double d k : double d -> after_number k -> dbl (d ++ k) = Some (d, k).
Proof.
  intros [N|(c & d' & -> & C & N)] K.
  - destruct (number_unsigned _ N) as (c & t' & E & S). unfold dbl. pose proof (dbl_number _ _ N K) as D. rewrite E in *. cbn [app] in *. now rewrite S.
  - unfold dbl. cbn [app]. assert (Ascii.eqb c "+" || Ascii.eqb c "-" = true) as -> by (destruct C as [-> | ->]; reflexivity). now rewrite (dbl_number _ _ N K).
Qed.
Lemma double_head d : double d -> exists c d', d = c :: d' /\ (is_digit c = true \/ c = "."%char \/ c = "+"%char \/ c = "-"%char).
Proof.
  intros [N|(c & d' & -> & C & N)]; [destruct (number_starts _ N) as (c & t' & -> & C)|]; exists c; eexists; split; eauto; tauto.
Qed.
Lemma double_dark d : double d -> dark d.
Proof.
  intros H. destruct (double_head d H) as (c & d' & -> & [C|[->|[->| ->]]]); try reflexivity. cbn.
  apply idchar_space. unfold is_idchar. now rewrite C.
Qed.
(** what may follow a number in a shape: a comma or a parenthesis *)
Definition gstop (k : text) : Prop := exists k', k = ","%char :: k' \/ k = ")"%char :: k'.
Lemma gstop_number k : gstop k -> after_number k.
Proof. intros (k' & [-> | ->]); cbn; unfold word_char, letter, digit; intros [[H|[H|H]]|H]; try discriminate; vm_compute in H; intuition congruence. Qed.
Lemma gstop_nstop k : gstop k -> nstop k.
Proof. intros (k' & [-> | ->]); split; reflexivity. Qed.
Lemma gstop_nodot k : gstop k -> nodot k.
Proof. intros (k' & [-> | ->]); reflexivity. Qed.

Section Geo.
Variable m : text -> option text.
Variable fmt : text -> text.
Notation reads := (reads m).
Notation fails := (fails m).
Lemma rd_dbl d i k : double d -> after_number k -> skip i = skip (d ++ k) -> reads PDbl i d (skip k).
Proof. intros D K H. eapply reads_dbl. rewrite H, dark_skip by now apply double_dark. now apply dbl_double. Qed.
Lemma op_after op t : In op (map L ["+"; "-"; "*"; "/"]%string) -> after_number (op ++ t).
Proof.
  intros [<-|[<-|[<-|[<-|[]]]]]; cbn; unfold word_char, letter, digit; intros [[H|[H|H]]|H]; try discriminate; vm_compute in H; intuition congruence.
Qed.
Lemma rd_aop op i k : In op (map L ["+"; "-"; "*"; "/"]%string) -> skip i = skip (op ++ k) -> reads (PLex s_arithmetic_operator) i op (skip k).
Proof. intros [<-|[<-|[<-|[<-|[]]]]] H; (eapply reads_lex; [reflexivity|]; rewrite H; reflexivity). Qed.
Lemma no_aop i k : gstop k -> skip i = skip k -> fails (PLex s_arithmetic_operator) i.
Proof. intros (k' & [-> | ->]) H; (eapply fails_lex; [reflexivity|]; rewrite H; reflexivity). Qed.
Lemma dbl_name a k : name a -> nstop k -> strip false (L "(") k = None ->
  dbl (a ++ k) = None \/ exists x w, dbl (a ++ k) = Some (x, w ++ k) /\ a = x ++ w /\ Forall (fun c => is_idchar c = true) w.
Proof.
  intros [[W _]|D] K P.
  - destruct (word_starts _ W) as (c & a' & -> & Hc).
    assert (S : Ascii.eqb c "+" || Ascii.eqb c "-" = false) by (apply orb_false_iff; split; apply Ascii.eqb_neq; intros ->; discriminate).
    assert (Dc : is_digit c = false) by (revert Hc; clear; destruct c as [[] [] [] [] [] [] [] []]; vm_compute; congruence).
    assert (Ac : Ascii.eqb c "." = false) by (apply Ascii.eqb_neq; intros ->; discriminate).
    unfold dbl. cbn [app]. rewrite S. unfold dbl_unsigned. cbn [span]. rewrite Dc. cbn [is_nil].
    assert (KW : stops word_char k). { destruct k as [|x k]; [exact I|]. cbn in *. intros X. apply is_idchar_iff in X. destruct K. congruence. }
    assert (FA : forall x w, c :: a' = x ++ w -> Forall (fun c => is_idchar c = true) w).
    { intros x w E. apply word_chars in W. rewrite E in W. apply Forall_app in W as [_ W]. eapply Forall_impl; [|exact W]. intros y. apply is_idchar_iff. }
    assert (NM : forall u x r, all_id (L u) = true -> strip true (L u) (c :: a' ++ k) = Some (x, r) -> exists w, c :: a' = x ++ w /\ r = w ++ k).
    { intros u x r AU E. apply strip_nc_iff in E as (E & U). change (c :: a' ++ k) with ((c :: a') ++ k) in E. eapply word_prefix; eauto.
      rewrite <- all_id_upper, U, all_id_upper. exact AU. }
    destruct (strip true (L "nan") (c :: a' ++ k)) as [[x r]|] eqn:E1.
    { destruct (NM "nan"%string _ _ eq_refl E1) as (w & Ew & ->). right. destruct (w ++ k) as [|y z] eqn:Y.
      - exists x, w. rewrite Y. repeat split; auto. eapply FA; eauto.
      - assert (y <> "("%char). { destruct w as [|y' w]; [cbn in Y; subst k; intros ->; discriminate P|]. injection Y as -> _. intros ->. pose proof (FA _ _ Ew) as F. inversion F. discriminate. }
        exists x, w. rewrite Y. split; [|split; [exact Ew|eapply FA; eauto]]. destruct y as [[] [] [] [] [] [] [] []]; try reflexivity. congruence. }
    destruct (strip true (L "inf") (c :: a' ++ k)) as [[x r]|] eqn:E2.
    { destruct (NM "inf"%string _ _ eq_refl E2) as (w & Ew & ->). right. destruct (strip true (L "inity") (w ++ k)) as [[x' r']|] eqn:E3.
      - apply strip_nc_iff in E3 as (E & U). edestruct (word_prefix w k x' r') as (w' & -> & ->); eauto.
        { rewrite <- all_id_upper, U. reflexivity. }
        exists (x ++ x'), w'. rewrite <- app_assoc. repeat split; auto. eapply FA. rewrite <- app_assoc. exact Ew.
      - exists x, w. repeat split; auto. eapply FA; eauto. }
    left. destruct c as [[] [] [] [] [] [] [] []]; try reflexivity. discriminate Ac.
  - left. destruct (delimited_starts _ D) as (b & ->). reflexivity.
Qed.

Lemma rd_csae c i k : c_csae fmt c = true -> gstop k -> skip i = skip (pr_csae fmt c ++ k) -> reads (g_csae m) i c (skip k).
Proof.
  intros C K H. destruct c as [a op b|c|d]; cbn [c_csae pr_csae] in *.
  - rewrite !andb_true_iff in C. destruct C as [[A O] B]. apply c_double_ok in A as [A Fa]. apply c_double_ok in B as [B Fb]. apply one_of_iff in O. rewrite Fa, Fb in H.
    apply reads_alt1. eapply reads_map with (v := (a, op, b)); [|reflexivity]. rewrite <- !app_assoc in H. eapply reads_seq; [eapply reads_seq|].
    + eapply rd_dbl; [exact A|apply op_after; exact O|exact H].
    + intros r Hr. eapply rd_aop; eauto.
    + intros r Hr. eapply rd_dbl; eauto. now apply gstop_number.
  - apply (c_colref_ok is_name name _ is_name_ok) in C. apply reads_alt2.
    { apply fails_map, fails_seq1. destruct (colref_first c k) as (k' & E & Kc). rewrite E in H.
      assert (N : name (first_part c)) by (destruct c; cbn in C |- *; tauto).
      assert (K' : nstop k' /\ strip false (L "(") k' = None /\ exists y z, k' = y :: z /\ (y = "."%char \/ gstop k')).
      { destruct Kc as [[-> _]|(r & ->)]; [|repeat split; eauto]. destruct K as (z & K). split; [apply gstop_nstop; now exists z|].
        destruct K as [-> | ->]; (split; [reflexivity|]; eexists _, _; split; [reflexivity|right; eexists; eauto]). }
      destruct K' as (K1 & K2 & y & z & -> & K3). destruct (dbl_name _ _ N K1 K2) as [D|(x & w & D & Ew & Fw)].
      - apply fails_seq1. apply fails_dbl. rewrite H, dark_skip by now apply name_dark. exact D.
      - eapply fails_seq2.
        + eapply reads_dbl. rewrite H, dark_skip by now apply name_dark. exact D.
        + intros r Hr. destruct w as [|u w].
          * eapply fails_lex; [reflexivity|]. rewrite Hr. destruct K3 as [-> |(z' & [[= -> ->]|[= -> ->]])]; reflexivity.
          * inversion Fw as [|? ? Hu Fw']. eapply fails_lex; [reflexivity|]. rewrite Hr. cbn [app skip]. rewrite (idchar_space _ Hu). unfold s_arithmetic_operator. cbn [srun chr].
            assert (Z : forall c, is_idchar c = false -> Ascii.eqb u c = false) by (intros c0 Hc0; apply Ascii.eqb_neq; intros ->; congruence).
            rewrite !Z by reflexivity. reflexivity. }
    intros r Hr. apply reads_alt1. eapply reads_map; [|reflexivity]. eapply rd_colref; eauto; [now apply gstop_nstop|now apply gstop_nodot|congruence].
  - apply c_double_ok in C as [D F]. rewrite F in H. apply reads_alt2.
    { apply fails_map, fails_seq1. eapply fails_seq2; [eapply rd_dbl; eauto; now apply gstop_number|]. intros r Hr. eapply no_aop; eauto. }
    intros r Hr. apply reads_alt2.
    { apply fails_map. apply reads_first. rewrite Hr, H, dark_skip by now apply double_dark. destruct (double_head d D) as (c & d' & -> & Cc). cbn [app hd_of].
      revert Cc. clear. intros [Cc|[->|[->| ->]]]; try reflexivity. revert Cc. destruct c as [[] [] [] [] [] [] [] []]; vm_compute; congruence. }
    intros r2 Hr2. eapply reads_map; [|reflexivity]. eapply rd_dbl; eauto; [now apply gstop_number|congruence].
Qed.
Lemma rd_comma i k : skip i = skip (L "," ++ k) -> reads (lit ",") i tt (skip k).
Proof. now apply rd_lit. Qed.
Lemma rd_close i k : skip i = skip (L ")" ++ k) -> reads (lit ")") i tt (skip k).
Proof. now apply rd_lit. Qed.
Lemma rd_open i k : skip i = skip (L "(" ++ k) -> reads (lit "(") i tt (skip k).
Proof. now apply rd_lit. Qed.
Lemma gstop_comma t : gstop (L "," ++ t). Proof. exists t. now left. Qed.
Lemma gstop_close t : gstop (L ")" ++ t). Proof. exists t. now right. Qed.
Lemma rd_coord c i k : c_coord fmt c = true -> gstop k -> skip i = skip (pr_coord fmt c ++ k) -> reads (g_coord m) i c (skip k).
Proof.
  intros C K H. destruct c as [a b]. cbn [c_coord pr_coord] in *. apply andb_true_iff in C as [A B]. rewrite <- !app_assoc in H.
  eapply reads_map with (v := (a, tt, b)); [|reflexivity]. eapply reads_seq; [eapply reads_seq|].
  - eapply rd_csae; [exact A| |exact H]. apply gstop_comma.
  - intros r Hr. eapply rd_comma; eauto.
  - intros r Hr. eapply rd_csae; eauto.
Qed.
Lemma rd_frame f i k : skip i = skip (pr_frame f ++ k) -> reads g_reference_frame i f (skip k).
Proof.
  intros H. destruct f; cbn [pr_frame] in H.
  - apply reads_alt1. eapply reads_map; [|reflexivity]. eapply (rd_kw m _ (L "ICRS")); [reflexivity|reflexivity|exact H].
  - apply reads_alt2; [apply fails_map; eapply no_kw; [|exact H]; reflexivity|]. intros r3 Hr3. apply reads_alt1. eapply reads_map; [|reflexivity].
    eapply (rd_kw m _ (L "J2000")); [reflexivity|reflexivity|congruence].
  - apply reads_alt2; [apply fails_map; eapply no_kw; [|exact H]; reflexivity|]. intros r3 Hr3. apply reads_alt2; [apply fails_map; eapply no_kw; [|rewrite Hr3; exact H]; reflexivity|].
    intros r4 Hr4. eapply reads_map; [|reflexivity]. eapply (rd_kw m _ (L "GALACTIC")); [reflexivity|reflexivity|congruence].
Qed.
Lemma rd_coordsys f i k : skip i = skip (L "'" ++ pr_coordsys f ++ L "'" ++ k) -> reads g_coord_sys i f (skip k).
Proof.
  intros H. unfold pr_coordsys in H. rewrite <- !app_assoc in H. eapply reads_map with (v := (tt, Some f, Some tt, tt)); [|reflexivity].
  eapply reads_seq; [eapply reads_seq; [eapply reads_seq|]|].
  - eapply (rd_lit m "'"); [reflexivity|exact H].
  - intros r Hr. apply reads_some. eapply rd_frame; exact Hr.
  - intros r Hr. apply reads_some. eapply (rd_kw m _ (L "GEOCENTER")); [reflexivity|reflexivity|exact Hr].
  - intros r Hr. eapply (rd_lit m "'"); [reflexivity|exact Hr].
Qed.
Lemma rd_head w f i k : dark (L w) -> skip i = skip (L w ++ L "('" ++ pr_coordsys f ++ L "'," ++ k) -> reads (g_shape_head w) i f (skip k).
Proof.
  intros D H. eapply reads_map with (v := (tt, tt, Some f)); [|reflexivity]. eapply reads_seq; [eapply reads_seq|].
  - eapply (rd_kw m w (L w)); [exact D|reflexivity|exact H].
  - intros r Hr. eapply (rd_open _ (L "'" ++ pr_coordsys f ++ L "'," ++ k)). exact Hr.
  - intros r Hr. apply reads_some. eapply reads_map with (v := (f, tt)); [|reflexivity]. eapply reads_exp.
    + eapply (rd_coordsys f _ (L "," ++ k)). exact Hr.
    + intros r2 Hr2. now apply rd_comma.
Qed.
(** No call of a function named [u]. *)
Lemma no_call u a i k : name a -> nstop k -> strip false (L "(") (skip k) = None -> all_id (L u) = true -> L u <> [] -> skip i = skip (a ++ k) -> fails (kw u >> lit "(") i.
Proof.
  intros N K P U UN H. rewrite dark_skip in H by now apply name_dark. destruct N as [[W R]|D].
  - destruct (list_eq_dec ascii_dec (upper a) (upper (L u))) as [E|E].
    + eapply fails_seq2; [eapply reads_lit; rewrite H; apply strip_nc_iff; split; [reflexivity|exact E]|]. intros r Hr. apply fails_lit. now rewrite Hr.
    + apply (kw_lit_no m u a k); [|apply word_chars; exact W| |exact H|reflexivity].
      * intros u' [<-|[]]. auto.
      * destruct k as [|x k]; [exact I|]. cbn in *. intros X. apply is_idchar_iff in X. destruct K. congruence.
  - apply fails_seq1, fails_lit. rewrite H. destruct (delimited_starts _ D) as (b & ->). cbn [app]. destruct (L u) as [|c l]; [congruence|].
    cbn in U. apply andb_true_iff in U as [U _]. cbn [strip eq_ch].
    assert (eq_nc c dq = false) as ->; [|reflexivity]. revert U. clear. destruct c as [[] [] [] [] [] [] [] []]; vm_compute; congruence.
Qed.
Lemma no_shape_head w a i k : name a -> nstop k -> strip false (L "(") (skip k) = None -> all_id (L w) = true -> L w <> [] -> skip i = skip (a ++ k) -> fails (g_shape_head w) i.
Proof. intros. apply fails_map, fails_seq1. eapply no_call; eauto. Qed.
Lemma first_stop c k : gstop k -> exists k', pr_colref c ++ k = first_part c ++ k' /\ nstop k' /\ strip false (L "(") (skip k') = None.
Proof.
  intros K. destruct (colref_first c k) as (k' & E & [[-> _]|(r & ->)]); eexists; (split; [exact E|]); [|split; [apply dot_nstop|reflexivity]].
  split; [now apply gstop_nstop|]. destruct K as (z & [-> | ->]); reflexivity.
Qed.
Lemma no_point c i k : cnames name c -> gstop k -> skip i = skip (pr_colref c ++ k) -> fails (g_point m) i.
Proof.
  intros C K H. destruct (first_stop c k K) as (k' & E & K1 & K2). rewrite E in H. apply fails_map, fails_exp1, fails_exp1.
  eapply no_shape_head; [|exact K1|exact K2|reflexivity|discriminate|exact H]. destruct c; cbn in C |- *; tauto.
Qed.
Lemma no_shape c i k : cnames name c -> gstop k -> skip i = skip (pr_colref c ++ k) -> fails (g_shape m) i.
Proof.
  intros C K H. destruct (first_stop c k K) as (k' & E & K1 & K2).
  assert (N : name (first_part c)) by (destruct c; cbn in C |- *; tauto).
  assert (Z : forall w r, all_id (L w) = true -> L w <> [] -> skip r = skip i -> fails (g_shape_head w) r).
  { intros w r A B Hr. eapply no_shape_head; eauto. now rewrite Hr, H, E. }
  repeat (apply fails_alt; [|let r := fresh "r" in let Hr := fresh "Hr" in intros r Hr]); apply fails_map; [eapply no_point; eauto|..];
    repeat apply fails_exp1; (apply Z; [reflexivity|discriminate|congruence]).
Qed.
Lemma rd_point f c i k : c_coord fmt c = true -> skip i = skip (pr_point fmt f c ++ k) -> reads (g_point m) i (f, c) (skip k).
Proof.
  intros C H. unfold pr_point in H. rewrite <- !app_assoc in H. eapply reads_map with (v := (f, c, tt)); [|reflexivity]. eapply reads_exp; [eapply reads_exp|].
  - eapply rd_head; [reflexivity|exact H]. - intros r Hr. eapply rd_coord; [exact C|apply gstop_close|exact Hr]. - intros r Hr. eapply rd_close; exact Hr.
Qed.
Lemma rd_poc p i k : c_poc fmt p = true -> gstop k -> skip i = skip (pr_poc fmt p ++ k) -> reads (g_point_or_column m) i p (skip k).
Proof.
  intros C K H. destruct p as [f c|c]; cbn [c_poc pr_poc] in *.
  - apply reads_alt1. eapply reads_map with (v := (f, c)); [|reflexivity]. now apply rd_point.
  - apply (c_colref_ok is_name name _ is_name_ok) in C. apply reads_alt2; [apply fails_map; eapply no_point; eauto|]. intros r Hr.
    eapply reads_map; [|reflexivity]. eapply rd_colref; eauto; [now apply gstop_nstop|now apply gstop_nodot|congruence].
Qed.
Lemma shape_no w t i k : strip true (L w) (skip (t ++ k)) = None -> skip i = skip (t ++ k) -> fails (g_shape_head w) i.
Proof. intros S H. apply fails_map, fails_seq1, fails_seq1. eapply no_kw; eauto. Qed.
Ltac pass_shape := apply reads_alt2;
  [repeat apply fails_map; repeat apply fails_exp1; match goal with Z : forall w r, _ -> _ -> Calc.fails _ _ _, H : skip _ = _ |- _ => apply Z; [congruence|rewrite H; reflexivity] end
  |let r := fresh "q" in let E := fresh "E" in intros r E].
Lemma rd_shape s i k : c_shape fmt s = true -> skip i = skip (pr_shape fmt s ++ k) -> reads (g_shape m) i s (skip k).
Proof.
  intros C H.
  assert (Z : forall w r, skip r = skip i -> strip true (L w) (skip i) = None -> fails (g_shape_head w) r).
  { intros w r Hr S. apply fails_map, fails_seq1, fails_seq1. eapply no_kw; eauto. }
  destruct s as [f c|f c x|f c x y|f c x y z|f cs]; cbn [c_shape pr_shape] in *; rewrite ?andb_true_iff in C.
  - apply reads_alt1. eapply reads_map with (v := (f, c)); [|reflexivity]. now apply rd_point.
  - rewrite <- !app_assoc in H. pass_shape. apply reads_alt1. rewrite <- E in H. destruct C.
    eapply reads_map with (v := (f, c, tt, x, tt)); [|reflexivity]. eapply reads_exp; [eapply reads_exp; [eapply reads_exp; [eapply reads_exp|]|]|].
    + eapply rd_head; [reflexivity|exact H]. + intros r Hr. eapply rd_coord; [eassumption| |exact Hr]; apply gstop_comma. + intros r Hr. eapply rd_comma; exact Hr.
    + intros r Hr. eapply rd_csae; [eassumption| |exact Hr]; apply gstop_close. + intros r Hr. eapply rd_close; exact Hr.
  - rewrite <- !app_assoc in H. do 2 pass_shape. apply reads_alt1. rewrite <- E, <- E0 in H.
    destruct C as [[? ?] ?]. eapply reads_map with (v := (f, c, tt, x, tt, y, tt)); [|reflexivity]. eapply reads_exp; [eapply reads_exp; [eapply reads_exp; [eapply reads_exp; [eapply reads_exp; [eapply reads_exp|]|]|]|]|].
    + eapply rd_head; [reflexivity|exact H]. + intros r Hr. eapply rd_coord; [eassumption| |exact Hr]; apply gstop_comma. + intros r Hr. eapply rd_comma; exact Hr.
    + intros r Hr. eapply rd_csae; [eassumption| |exact Hr]; apply gstop_comma. + intros r Hr. eapply rd_comma; exact Hr.
    + intros r Hr. eapply rd_csae; [eassumption| |exact Hr]; apply gstop_close. + intros r Hr. eapply rd_close; exact Hr.
  - rewrite <- !app_assoc in H. do 3 pass_shape. apply reads_alt1. rewrite <- E, <- E0, <- E1 in H.
    destruct C as [[[? ?] ?] ?]. eapply reads_map with (v := (f, c, tt, x, tt, y, tt, z, tt)); [|reflexivity]. eapply reads_exp; [eapply reads_exp; [eapply reads_exp; [eapply reads_exp; [eapply reads_exp; [eapply reads_exp; [eapply reads_exp; [eapply reads_exp|]|]|]|]|]|]|].
    + eapply rd_head; [reflexivity|exact H]. + intros r Hr. eapply rd_coord; [eassumption| |exact Hr]; apply gstop_comma. + intros r Hr. eapply rd_comma; exact Hr.
    + intros r Hr. eapply rd_csae; [eassumption| |exact Hr]; apply gstop_comma. + intros r Hr. eapply rd_comma; exact Hr.
    + intros r Hr. eapply rd_csae; [eassumption| |exact Hr]; apply gstop_comma. + intros r Hr. eapply rd_comma; exact Hr.
    + intros r Hr. eapply rd_csae; [eassumption| |exact Hr]; apply gstop_close. + intros r Hr. eapply rd_close; exact Hr.
  - destruct C as [N F]. assert (NE : cs <> []) by (destruct cs; [discriminate|congruence]).
    assert (H' : skip i = skip (L "POLYGON" ++ L "('" ++ pr_coordsys f ++ L "'," ++ join (L ",") (map (pr_coord fmt) cs) ++ L ")" ++ k)).
    { rewrite H. f_equal. rewrite <- !app_assoc. cbn [app L list_ascii_of_string]. repeat f_equal.
      destruct cs as [|c cs]; [congruence|]. clear. cbn [map concat join]. rewrite <- !app_assoc. cbn [app L list_ascii_of_string]. f_equal.
      revert c. induction cs as [|c' cs IH]; intros c; [reflexivity|]. cbn [map concat join]. rewrite <- !app_assoc. cbn [app L list_ascii_of_string]. do 2 f_equal. apply (IH c'). }
    clear H. rename H' into H. do 4 pass_shape. rewrite <- E, <- E0, <- E1, <- E2 in H.
    eapply reads_map with (v := (f, cs, tt)); [|reflexivity]. eapply reads_exp; [eapply reads_exp|].
    + eapply rd_head; [reflexivity|exact H].
    + intros r Hr. eapply (rd_list m _ _ (L ",") (pr_coord fmt) gstop); [exact NE| | | | | |exact Hr].
      * apply Forall_forall. intros c Hc i' k' K' E'. eapply rd_coord; eauto. now apply (proj1 (forallb_forall _ _) F).
      * apply gstop_comma. * intros r2 t Ht. now apply rd_comma. * apply gstop_close. * intros r2 Hr2. eapply no_lit; [|exact Hr2]. reflexivity.
    + intros r Hr. eapply rd_close; exact Hr.
Qed.
Lemma rd_soc s i k : c_soc fmt s = true -> gstop k -> skip i = skip (pr_soc fmt s ++ k) -> reads (g_shape_or_column m) i s (skip k).
Proof.
  intros C K H. destruct s as [s|c]; cbn [c_soc pr_soc] in *.
  - apply reads_alt1. eapply reads_map with (v := s); [|reflexivity]. now apply rd_shape.
  - apply (c_colref_ok is_name name _ is_name_ok) in C. apply reads_alt2; [apply fails_map; eapply no_shape; eauto|]. intros r Hr.
    eapply reads_map; [|reflexivity]. eapply rd_colref; eauto; [now apply gstop_nstop|now apply gstop_nodot|congruence].
Qed.
End Geo.
