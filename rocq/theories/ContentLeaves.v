(** What the character-level rules consume, as tokens. *)
From Verif Require Import Query PegProps Gen Spec TextLemmas SpecLexical LexProofs LexProofs2 LexDec First Operand TopProofs SpecContent ContentCalc.

(** ** Inversion of character-level expressions *)
Definition takes (e : se) (P : text -> text -> Prop) : Prop :=
  forall acc i a r, srun e acc i = SOk a r -> exists x, i = x ++ r /\ a = acc ++ x /\ P x r.
Definition never_fails (e : se) : bool := match e with SStar _ | SOpt _ => true | _ => false end.
Fixpoint clean (e : se) : bool :=
  match e with
  | SSeq a b => clean a && never_fails b
  | SAlt a b => clean a && clean b
  | SPlus a => clean a
  | SDiff a _ => clean a
  | SExp a _ => clean a
  | _ => true
  end.
Lemma never_fails_ok e acc i a : never_fails e = true -> srun e acc i <> SFail a.
Proof.
  destruct e; try discriminate; intros _; cbn [srun].
  - generalize (length i). intros n. revert acc i. induction n as [|n IH]; intros acc i; cbn; destruct (srun e acc i); try discriminate.
    destruct (_ <? _); [apply IH|discriminate].
  - destruct (srun e acc i); discriminate.
Qed.
Lemma clean_ok e : clean e = true -> forall acc i a, srun e acc i = SFail a -> a = acc.
Proof.
  induction e; cbn [clean]; intros C acc i a0; cbn [srun].
  - destruct i as [|c i]; [|destruct (f c)]; intros H; congruence.
  - destruct (strip nc s i) as [[? ?]|]; intros H; congruence.
  - destruct (strip nc s i) as [[? ?]|]; intros H; congruence.
  - apply andb_true_iff in C as [Ca Cb]. destruct (srun e1 acc i) eqn:E; try discriminate.
    + intros H. now apply never_fails_ok in H.
    + intros H. injection H as <-. eauto.
  - apply andb_true_iff in C as [Ca Cb]. destruct (srun e1 acc i) eqn:E; try discriminate. apply IHe1 in E as ->; auto. eauto.
  - intros H. now apply (never_fails_ok (SStar e)) in H.
  - destruct (srun e acc i) eqn:E; try discriminate; [|intros H; injection H as <-; eauto].
    intros H. now apply (never_fails_ok (SStar e)) in H.
  - intros H. now apply (never_fails_ok (SOpt e)) in H.
  - destruct (srun e acc i) eqn:E; congruence.
  - destruct (srun e [] i) eqn:E; congruence.
  - destruct (srun e [] i) eqn:E; congruence.
  - destruct (srun e2 [] i) eqn:E; try congruence. eauto.
  - destruct (srun e1 acc i) eqn:E; try discriminate; [|intros H; injection H as <-; eauto]. destruct (srun e2 acc0 rest); discriminate.
  - destruct (srun e [] i) eqn:E; try congruence. match goal with |- match ?x with _ => _ end = _ -> _ => destruct x end; congruence.
Qed.

Lemma takes_weak e (P Q : text -> text -> Prop) : takes e P -> (forall x r, P x r -> Q x r) -> takes e Q.
Proof. intros H W acc i a r E. destruct (H _ _ _ _ E) as (x & -> & -> & Hp). eauto. Qed.
Lemma takes_chr f : takes (SChr f) (fun x _ => exists c, x = [c] /\ f c = true).
Proof. intros acc [|c i] a r; cbn; [discriminate|]. destruct (f c) eqn:E; [|discriminate]. intros H. injection H as <- <-. exists [c]. eauto. Qed.
Lemma takes_char c : takes (chr c) (fun x _ => x = [c]).
Proof. eapply takes_weak; [apply takes_chr|]. intros x r (d & -> & E). apply Ascii.eqb_eq in E as ->. reflexivity. Qed.
Lemma takes_nc s : takes (SStr true s) (fun x _ => upper x = upper s).
Proof.
  intros acc i a r; cbn. destruct (strip true s i) as [[x r']|] eqn:E; [|discriminate]. intros H. injection H as <- <-.
  apply strip_nc_iff in E as [-> U]. eauto.
Qed.
Lemma takes_cs s : takes (SStr false s) (fun x _ => x = s).
Proof.
  intros acc i a r; cbn. destruct (strip false s i) as [[x r']|] eqn:E; [|discriminate]. intros H. injection H as <- <-.
  apply strip_cs_iff in E as [-> ->]. eauto.
Qed.
Lemma takes_seq a b P Q : takes a P -> takes b Q -> takes (SSeq a b) (fun x r => exists x1 x2, x = x1 ++ x2 /\ P x1 (x2 ++ r) /\ Q x2 r).
Proof.
  intros Ha Hb acc i v r; cbn [srun]. destruct (srun a acc i) as [a1 i1| | |] eqn:E; try discriminate. intros H.
  apply Ha in E as (x1 & -> & -> & P1). apply Hb in H as (x2 & -> & -> & Q2).
  exists (x1 ++ x2). rewrite !app_assoc. split; [reflexivity|]. split; [reflexivity|]. eauto 6.
Qed.
Lemma takes_exp a b P Q : takes a P -> takes b Q -> takes (SExp a b) (fun x r => exists x1 x2, x = x1 ++ x2 /\ P x1 (x2 ++ r) /\ Q x2 r).
Proof.
  intros Ha Hb acc i v r H. eapply (takes_seq a b P Q); eauto. cbn [srun] in *.
  destruct (srun a acc i) as [a1 i1| | |]; try discriminate. destruct (srun b a1 i1); try discriminate; auto.
Qed.
Lemma takes_alt a b P : clean a = true -> takes a P -> takes b P -> takes (SAlt a b) P.
Proof.
  intros C Ha Hb acc i v r; cbn [srun]. destruct (srun a acc i) as [a1 i1|a1| |] eqn:E; try discriminate.
  - intros H. injection H as <- <-. eauto.
  - apply clean_ok in E as ->; auto.
Qed.
Lemma takes_hold a P : takes a P -> takes (SHold a) P.
Proof. intros Ha acc i v r; cbn [srun]. destruct (srun a acc i) as [a1 i1|a1| |] eqn:E; try discriminate. intros H. injection H as <- <-. eauto. Qed.
Lemma takes_opt a P : clean a = true -> takes a P -> takes (SOpt a) (fun x r => P x r \/ x = []).
Proof.
  intros C Ha acc i v r; cbn [srun]. destruct (srun a acc i) as [a1 i1|a1| |] eqn:E; try discriminate; intros H; injection H as <- <-.
  - apply Ha in E as (x & -> & -> & Px). eauto.
  - apply clean_ok in E as ->; auto. exists []. rewrite app_nil_r. auto.
Qed.
Lemma takes_and a : takes (SAnd a) (fun x r => x = [] /\ exists v k, srun a [] r = SOk v k).
Proof.
  intros acc i v r; cbn [srun]. destruct (srun a [] i) as [a1 i1|a1| |] eqn:E; try discriminate; intros H; injection H as <- <-.
  exists []. rewrite app_nil_r. split; [reflexivity|]. split; [reflexivity|]. split; [reflexivity|]. eauto.
Qed.
Lemma takes_diff a b P : takes a P -> takes (SDiff a b) P.
Proof. intros Ha acc i v r; cbn [srun]. destruct (srun b [] i) as [a1 i1|a1| |] eqn:E; try discriminate. apply Ha. Qed.
Lemma star_takes a P : clean a = true -> takes a P -> forall n acc i v r, sstar (srun a) n acc i = SOk v r ->
  exists xs, i = concat xs ++ r /\ v = acc ++ concat xs /\ Forall (fun x => exists k, P x k) xs.
Proof.
  intros C Ha. induction n as [|n IH]; intros acc i v r; cbn [sstar]; destruct (srun a acc i) as [a1 i1|a1| |] eqn:E; try discriminate.
  - intros H; injection H as <- <-. apply clean_ok in E as ->; auto. exists []. now rewrite app_nil_r.
  - destruct (_ <? _); [|discriminate]. intros H. apply IH in H as (xs & -> & -> & F). apply Ha in E as (x & -> & -> & Px).
    exists (x :: xs). cbn [concat]. rewrite <- !app_assoc. repeat split; auto. constructor; eauto.
  - intros H; injection H as <- <-. apply clean_ok in E as ->; auto. exists []. now rewrite app_nil_r.
Qed.
Lemma takes_star a P : clean a = true -> takes a P -> takes (SStar a) (fun x _ => exists xs, x = concat xs /\ Forall (fun x => exists k, P x k) xs).
Proof. intros C Ha acc i v r H. apply (star_takes a P C Ha) in H as (xs & -> & -> & F). eauto 6. Qed.
Lemma takes_plus a P : clean a = true -> takes a P ->
  takes (SPlus a) (fun x _ => exists y xs, x = y ++ concat xs /\ Forall (fun x => exists k, P x k) (y :: xs)).
Proof.
  intros C Ha acc i v r. cbn [srun]. destruct (srun a acc i) as [a1 i1|a1| |] eqn:E; try discriminate. intros H.
  apply (star_takes a P C Ha) in H as (xs & -> & -> & F). apply Ha in E as (x & -> & -> & Px).
  exists (x ++ concat xs). rewrite !app_assoc. repeat split; auto. exists x, xs. split; auto. constructor; eauto.
Qed.
Lemma takes_chars f : takes (SStar (SChr f)) (fun x _ => Forall (fun c => f c = true) x).
Proof.
  eapply takes_weak; [apply takes_star; [reflexivity|apply takes_chr]|]. cbn. intros x _ (xs & -> & F).
  apply Forall_concat. eapply Forall_impl; [|exact F]. intros y (_ & c & -> & E). auto.
Qed.
Lemma takes_chars1 f : takes (SPlus (SChr f)) (fun x _ => x <> [] /\ Forall (fun c => f c = true) x).
Proof.
  eapply takes_weak; [apply takes_plus; [reflexivity|apply takes_chr]|]. cbn. intros x _ (y & xs & -> & F).
  inversion F as [|? ? (_ & c & -> & Ec) F']; subst. split; [discriminate|]. cbn. constructor; auto.
  apply Forall_concat. eapply Forall_impl; [|exact F']. intros z (_ & d & -> & E). auto.
Qed.
Lemma takes_strs ws : takes (strs_nc ws) (fun x _ => exists w, In w ws /\ upper x = upper (L w)).
Proof.
  intros acc i v r. rewrite strs_run. destruct (first_str ws i) as [[u r']|] eqn:E; [|discriminate]. intros H. injection H as <- <-.
  apply first_str_in in E as (w & Hw & -> & U). eauto 6.
Qed.
Lemma takes_strs_cs ws : takes (strs_cs ws) (fun x _ => In x (map L ws)).
Proof.
  induction ws as [|w ws IH].
  - intros acc [|c i] v r; discriminate.
  - apply takes_alt; [reflexivity| |].
    + eapply takes_weak; [apply takes_cs|]. intros x _ ->. now left.
    + eapply takes_weak; [exact IH|]. intros x r Hx. now right.
Qed.
Lemma takes_lexeme e P x k v : takes e P -> lexeme e x k v -> v = x /\ P x k.
Proof. intros H E. apply H in E as (y & E1 & -> & P1). apply app_inv_tail in E1 as ->. auto. Qed.

(** Numbers *)
Lemma takes_digits : takes s_unsigned_integer (fun x _ => digits x).
Proof.
  eapply takes_weak; [apply takes_chars1|]. intros x _ [N F]. split; auto. eapply Forall_impl; [|exact F]. intros c. apply is_digit_iff.
Qed.
Lemma run_alt a b acc i : srun (SAlt a b) acc i = match srun a acc i with SFail acc' => srun b acc' i | o => o end. Proof. reflexivity. Qed.
Lemma run_seq a b acc i : srun (SSeq a b) acc i = match srun a acc i with SOk acc' i' => srun b acc' i' | o => o end. Proof. reflexivity. Qed.
Lemma run_opt a acc i : srun (SOpt a) acc i = match srun a acc i with SFail acc' => SOk acc' i | o => o end. Proof. reflexivity. Qed.
Lemma run_hold a acc i : srun (SHold a) acc i = match srun a acc i with SFail _ => SFail acc | o => o end. Proof. reflexivity. Qed.
Lemma exact_inv acc i a r : srun s_exact_numeric acc i = SOk a r -> dotless r -> exists x, i = x ++ r /\ a = acc ++ x /\ mantissa x.
Proof.
  intros H D. unfold s_exact_numeric in H. rewrite run_alt, run_seq in H.
  destruct (srun s_unsigned_integer acc i) as [a1 i1|a1| |] eqn:E; try discriminate.
  - apply takes_digits in E as (x1 & -> & -> & D1). rewrite run_opt in H.
    destruct (srun (SSeq (chr ".") s_unsigned_integer) (acc ++ x1) i1) as [a2 i2|a2| |] eqn:E2; try discriminate; injection H as <- <-.
    + eapply (takes_seq (chr ".") s_unsigned_integer) in E2; [|apply takes_char|apply takes_digits].
      destruct E2 as (x & -> & -> & y & z & -> & -> & Dz). exists (x1 ++ ["."%char] ++ z).
      rewrite <- !app_assoc. split; [reflexivity|]. split; [reflexivity|]. right; left. exists x1, z. auto.
    + exists x1. split; auto. split; [|now left]. rewrite run_seq in E2.
      destruct i1 as [|c i1]; [cbn in E2; congruence|]. cbn in E2, D. destruct (Ascii.eqb c ".") eqn:Ec; [apply Ascii.eqb_eq in Ec; congruence|]. congruence.
  - assert (a1 = acc) as -> by (eapply (clean_ok s_unsigned_integer); [reflexivity|exact E]).
    eapply (takes_seq (chr ".") s_unsigned_integer) in H; [|apply takes_char|apply takes_digits].
    destruct H as (x & -> & -> & y & z & -> & -> & Dz). exists (["."%char] ++ z). split; auto. split; auto. right; right. exists z. auto.
Qed.
Lemma takes_signed : takes s_signed_integer (fun x _ => exists s d, x = s ++ d /\ (s = [] \/ s = ["+"%char] \/ s = ["-"%char]) /\ digits d).
Proof.
  eapply takes_weak; [apply takes_seq; [apply takes_opt; [reflexivity|apply (takes_alt _ _ (fun x _ => x = ["+"%char] \/ x = ["-"%char]))]|apply takes_digits]|].
  - reflexivity.
  - eapply takes_weak; [apply takes_char|auto].
  - eapply takes_weak; [apply takes_char|auto].
  - intros x r (s & d & -> & S & D). exists s, d. repeat split; try apply D. tauto.
Qed.
Lemma number_inv acc i a r : srun s_unsigned_numeric acc i = SOk a r -> dotless r -> exists x, i = x ++ r /\ a = acc ++ x /\ number x.
Proof.
  intros H D. unfold s_unsigned_numeric in H. rewrite run_alt in H.
  destruct (srun s_approximate_numeric acc i) as [a1 i1|a1| |] eqn:E; try discriminate.
  - injection H as <- <-. unfold s_approximate_numeric in E. rewrite run_hold, run_seq in E.
    destruct (srun s_exact_numeric acc i) as [a2 i2|a2| |] eqn:E2; try discriminate.
    destruct (srun (SSeq (SChr (fun c => Ascii.eqb c "E" || Ascii.eqb c "e")) s_signed_integer) a2 i2) as [a3 i3|a3| |] eqn:E3; try discriminate.
    injection E as <- <-.
    eapply (takes_seq (SChr (fun c => Ascii.eqb c "E" || Ascii.eqb c "e")) s_signed_integer) in E3; [|apply takes_chr|apply takes_signed].
    destruct E3 as (x & -> & -> & y & z & -> & (e & -> & Ee) & (s & d & -> & S & Dd)).
    apply exact_inv in E2 as (m & -> & -> & M).
    2:{ cbn. intros ->. discriminate. }
    exists (m ++ [e] ++ s ++ d). rewrite <- !app_assoc. split; [reflexivity|]. split; [now rewrite ?app_assoc|].
    right. exists m, ([e] ++ s ++ d). split; auto. split; auto. exists e, s, d. repeat split; auto; try apply Dd.
    apply orb_true_iff in Ee as [Ee|Ee]; apply Ascii.eqb_eq in Ee; auto.
  - unfold s_approximate_numeric in E. assert (a1 = acc) as -> by (eapply clean_ok in E; [exact E|reflexivity]).
    apply exact_inv in H as (m & -> & -> & M); auto. exists m. split; auto. split; auto. now left.
Qed.

(** String literals *)
Lemma newline_code c : Ascii.eqb c newline = true <-> N_of_ascii c = 10%N.
Proof.
  rewrite Ascii.eqb_eq. split; [intros ->; reflexivity|]. intros H. rewrite <- (ascii_N_embedding c), H. reflexivity.
Qed.
Lemma takes_comment : takes s_comment (fun x _ => comment x).
Proof.
  eapply takes_weak.
  - apply takes_seq; [apply takes_seq; [apply takes_char|apply takes_plus; [reflexivity|apply takes_char]]|].
    apply takes_seq; [apply takes_chars|apply takes_char].
  - cbn beta. intros x r (y & z & -> & (a & b & -> & -> & (c & cs & -> & F)) & (t & n & -> & Ft & ->)).
    assert (F' : Forall (fun d => d = "-"%char) (c ++ concat cs)).
    { change (c ++ concat cs) with (concat (c :: cs)). apply Forall_concat. eapply Forall_impl; [|exact F]. intros e (_ & ->). auto. }
    assert (N : c ++ concat cs <> []). { inversion F as [|? ? (_ & ->) _]; subst. discriminate. }
    replace ((["-"%char] ++ c ++ concat cs) ++ t ++ [newline]) with ("-"%char :: (c ++ concat cs) ++ t ++ [newline]) by (cbn; now rewrite <- !app_assoc).
    constructor; auto. eapply Forall_impl; [|exact Ft]. cbn beta. intros d Hd E. apply newline_code in E. rewrite E in Hd. discriminate.
Qed.
Lemma sep_takes : takes s_separator (fun x _ => separation x).
Proof.
  intros acc i a r H. unfold s_separator in H. rewrite run_alt in H.
  destruct (srun s_comment acc i) as [a1 i1|a1| |] eqn:E; try discriminate.
  - injection H as <- <-. apply takes_comment in E as (x & -> & -> & C). exists x. repeat split; auto. now constructor.
  - assert (N : forall c i', i = c :: i' -> c <> "-"%char -> a1 = acc).
    { intros c i' -> N. cbn in E. apply Ascii.eqb_neq in N. rewrite N in E. congruence. }
    destruct i as [|c i]; [discriminate H|]. specialize (N c i eq_refl). rewrite run_alt in H. cbn [srun chr] in H.
    destruct (Ascii.eqb c " ") eqn:E1.
    + apply Ascii.eqb_eq in E1 as ->. assert (a1 = acc) as -> by (apply N; intros X; discriminate X). injection H as <- <-. exists [" "%char]. repeat split; auto. constructor. auto.
    + destruct (Ascii.eqb c newline) eqn:E2; [|discriminate]. pose proof (proj1 (newline_code c) E2) as C.
      assert (a1 = acc) as -> by (apply N; intros ->; discriminate E2). injection H as <- <-. exists [c]. repeat split; auto. constructor. auto.
Qed.
Lemma seps_star n : forall acc i v r, sstar (srun s_separator) n acc i = SOk v (quote :: r) ->
  exists p, i = p ++ quote :: r /\ v = acc ++ p /\ (p = [] \/ separation p).
Proof.
  induction n as [|n IH]; intros acc i v r; cbn [sstar]; destruct (srun s_separator acc i) as [a1 i1|a1| |] eqn:E; try discriminate.
  - intros H; injection H as <- ->. cbn in E. injection E as <-. exists []. rewrite app_nil_r. auto.
  - destruct (_ <? _); [|discriminate]. intros H. apply IH in H as (p & -> & -> & P). apply sep_takes in E as (x & -> & -> & S).
    exists (x ++ p). rewrite !app_assoc. repeat split; auto. right. destruct P as [->|P]; [now rewrite app_nil_r|now constructor].
  - intros H; injection H as <- ->. cbn in E. injection E as <-. exists []. rewrite app_nil_r. auto.
Qed.
Lemma quoted_inv acc i a r : srun (SSeq (chr quote) (SSeq (SStar s_character_representation) (chr quote))) acc i = SOk a r ->
  exists x, i = x ++ r /\ a = acc ++ x /\ string_literal x.
Proof.
  rewrite run_seq. destruct (srun (chr quote) acc i) as [a1 i1| | |] eqn:E1; try discriminate. apply takes_char in E1 as (x1 & -> & -> & ->).
  rewrite run_seq. change (srun (SStar s_character_representation) (acc ++ [quote]) i1) with (sstar (srun (part sq)) (length i1) (acc ++ [quote]) i1).
  destruct (sstar _ _ _ _) as [a2 i2| | |] eqn:E2; try discriminate. apply star_part_inv in E2 as (b & -> & -> & D & _).
  intros H. apply takes_char in H as (x3 & -> & -> & ->). exists ([quote] ++ b ++ [quote]). rewrite <- !app_assoc. repeat split; auto.
  exists b. auto.
Qed.
Lemma chain_star n : forall acc i v r,
  sstar (srun (SHold (SSeq (SPlus s_separator) (SSeq (chr quote) (SSeq (SStar s_character_representation) (chr quote)))))) n acc i = SOk v r ->
  exists x, i = x ++ r /\ v = acc ++ x /\ forall t, literal_parts t -> literal_parts (t ++ x).
Proof.
  set (body := SSeq (SPlus s_separator) _).
  assert (B : forall acc i v r, srun body acc i = SOk v r -> exists p s, i = p ++ s ++ r /\ v = acc ++ p ++ s /\ separation p /\ string_literal s).
  { intros acc i v r H. unfold body in H. rewrite run_seq in H.
    destruct (srun (SPlus s_separator) acc i) as [a1 i1| | |] eqn:E; try discriminate.
    apply quoted_inv in H as (s & -> & -> & S). pose proof S as (b & -> & _).
    cbn [srun] in E. destruct (srun s_separator acc i) as [a2 i2| | |] eqn:E2; try discriminate. apply sep_takes in E2 as (x & -> & -> & X).
    cbn [app] in E. apply seps_star in E as (p & -> & -> & P). exists (x ++ p), (sq :: b ++ [sq]).
    rewrite <- !app_assoc. split; [cbn [app]; now rewrite <- app_assoc|]. repeat split; auto. destruct P as [->|P]; [now rewrite app_nil_r|now constructor]. }
  clearbody body. induction n as [|n IH]; intros acc i v r; cbn [sstar]; rewrite run_hold.
  - destruct (srun body acc i) as [a1 i1| | |] eqn:E; try discriminate. intros H; injection H as <- <-. exists []. rewrite app_nil_r. repeat split; auto.
    intros t. now rewrite app_nil_r.
  - destruct (srun body acc i) as [a1 i1| | |] eqn:E; try discriminate.
    + destruct (_ <? _); [|discriminate]. intros H. apply IH in H as (x & -> & -> & X). apply B in E as (p & s & -> & -> & P & S).
      exists ((p ++ s) ++ x). rewrite <- !app_assoc. repeat split; auto. intros t T. rewrite app_assoc, (app_assoc (t ++ p)). apply X. rewrite <- app_assoc. now constructor.
    + intros H; injection H as <- <-. exists []. rewrite app_nil_r. repeat split; auto. intros t. now rewrite app_nil_r.
Qed.
Lemma takes_string : takes s_character_string (fun x _ => literal_parts x).
Proof.
  intros acc i a r H. unfold s_character_string in H. rewrite run_seq in H.
  destruct (srun (chr quote) acc i) as [a1 i1| | |] eqn:E1; try discriminate. rewrite run_seq in H.
  destruct (srun (SStar s_character_representation) a1 i1) as [a2 i2| | |] eqn:E2; try discriminate. rewrite run_seq in H.
  destruct (srun (chr quote) a2 i2) as [a3 i3| | |] eqn:E3; try discriminate.
  assert (Q : srun (SSeq (chr quote) (SSeq (SStar s_character_representation) (chr quote))) acc i = SOk a3 i3) by now rewrite run_seq, E1, run_seq, E2.
  apply quoted_inv in Q as (s & -> & -> & S). cbn [srun] in H. apply chain_star in H as (x & -> & -> & X).
  exists (s ++ x). rewrite <- !app_assoc. repeat split; auto. apply X. now constructor.
Qed.

(** Floating-point numbers *)
Lemma span_spec f i : forall a b, span f i = (a, b) -> Forall (fun c => f c = true) a /\ i = a ++ b /\ stops (fun c => f c = true) b.
Proof.
  induction i as [|c i IH]; intros a b; cbn.
  - intros H; injection H as <- <-. repeat split; auto.
  - destruct (f c) eqn:E.
    + destruct (span f i) as [a' b']. intros H; injection H as <- <-. destruct (IH _ _ eq_refl) as (F & -> & S). auto.
    + intros H; injection H as <- <-. repeat split; auto. cbn. congruence.
Qed.
Lemma span_digit i a b : span is_digit i = (a, b) -> Forall digit a /\ i = a ++ b.
Proof. intros H. apply span_spec in H as (F & -> & _). split; auto. eapply Forall_impl; [|exact F]. intros c. apply is_digit_iff. Qed.
Lemma dbl_exp_inv i e r : dbl_exp i = (e, r) -> i = e ++ r /\ (e = [] \/ exponent e).
Proof.
  unfold dbl_exp. destruct i as [|c i]; [intros H; injection H as <- <-; auto|].
  destruct (Ascii.eqb c "e" || Ascii.eqb c "E") eqn:E; [|intros H; injection H as <- <-; auto].
  assert (C : c = "e"%char \/ c = "E"%char) by (apply orb_true_iff in E as [E|E]; apply Ascii.eqb_eq in E; auto).
  set (sg := match i with [] => _ | _ => _ end). assert (S : exists s i2, sg = (s, i2) /\ i = s ++ i2 /\ (s = [] \/ s = ["+"%char] \/ s = ["-"%char])).
  { unfold sg. destruct i as [|d i]; [exists [], []; auto|]. destruct (Ascii.eqb d "+" || Ascii.eqb d "-") eqn:D; [|exists [], (d :: i); auto].
    exists [d], i. repeat split; auto. apply orb_true_iff in D as [D|D]; apply Ascii.eqb_eq in D as ->; auto. }
  destruct S as (s & i2 & -> & -> & S). destruct (span is_digit i2) as [ds i3] eqn:Sp. apply span_digit in Sp as (F & ->).
  destruct ds as [|d ds]; cbn [is_nil]; intros H; injection H as <- <-; [auto|]. split.
  - cbn. now rewrite <- app_assoc.
  - right. exists c, s, (d :: ds). repeat split; auto. discriminate.
Qed.
Lemma dbl_unsigned_inv i m r : dbl_unsigned i = Some (m, r) -> i = m ++ r /\ real_magnitude m.
Proof.
  unfold dbl_unsigned. destruct (span is_digit i) as [ds i1] eqn:Sp. apply span_digit in Sp as (F & Ei).
  set (special := match strip true (L "nan") i with Some _ => _ | None => _ end).
  assert (Hs : forall m r, special = Some (m, r) -> i = m ++ r /\ real_magnitude m).
  { clear - i. intros m r. unfold special. destruct (strip true (L "nan") i) as [[x rx]|] eqn:E.
    - apply strip_nc_iff in E as [-> U]. assert (G : In (upper x) (map L ["NAN"; "INF"; "INFINITY"]%string)) by (rewrite U; now left).
      destruct rx as [|c rx]; [intros H; injection H as <- <-; split; auto; right; now left|].
      destruct (ascii_dec c "("%char) as [->|N].
      + destruct (span _ rx) as [b r'] eqn:Sp. apply span_spec in Sp as (Fb & -> & S).
        destruct r' as [|c r']; [discriminate|]. intros H; injection H as <- <-. cbn in S.
        assert (c = ")"%char) as ->. { destruct (Ascii.eqb c ")") eqn:Ec; [now apply Ascii.eqb_eq|]. now destruct S. }
        split; [cbn; rewrite <- !app_assoc; cbn; now rewrite <- !app_assoc|]. right; right. exists x, b. split; auto. split; auto.
        intros Hb. rewrite Forall_forall in Fb. specialize (Fb _ Hb). discriminate.
      + assert (Z : forall A (u v : A), match c with "("%char => u | _ => v end = v).
        { intros A u v. clear - N. destruct c as [[] [] [] [] [] [] [] []]; try reflexivity. now destruct N. }
        rewrite Z. intros H; injection H as <- <-. split; auto. right; now left.
    - destruct (strip true (L "inf") i) as [[x rx]|] eqn:E1; [|discriminate]. apply strip_nc_iff in E1 as [-> U].
      destruct (strip true (L "inity") rx) as [[y ry]|] eqn:E2.
      + apply strip_nc_iff in E2 as [-> V]. intros H; injection H as <- <-. split; [now rewrite app_assoc|]. right; left.
        rewrite upper_app, U, V. right; right; now left.
      + intros H; injection H as <- <-. split; auto. right; left. rewrite U. right; now left. }
  destruct (is_nil ds) eqn:Nd.
  - destruct special as [[x rx]|]; [intros H; injection H as <- <-; now apply Hs|]. destruct ds; [|discriminate]. cbn [app] in Ei. subst i1.
    destruct i as [|c i]; [discriminate|]. destruct (ascii_dec c "."%char) as [->|N].
    + destruct (span is_digit i) as [fs i3] eqn:S3. apply span_digit in S3 as (F3 & ->).
      destruct fs as [|f fs]; [discriminate|]. cbn [is_nil andb]. destruct (dbl_exp i3) as [ex i4] eqn:Ex. apply dbl_exp_inv in Ex as (-> & X).
      intros H; injection H as <- <-. split; [cbn; now rewrite <- app_assoc|]. left. exists ("."%char :: f :: fs), ex. split; auto. split; auto.
      right. exists [], (f :: fs). repeat split; auto. discriminate.
    + assert (Z : forall A (u v : A), match c with "."%char => u | _ => v end = v).
      { intros A u v. clear - N. destruct c as [[] [] [] [] [] [] [] []]; try reflexivity. now destruct N. }
      rewrite Z. discriminate.
  - clear Hs special. assert (Dd : digits ds) by (split; auto; now destruct ds).
    assert (G : forall m r, (let (ex, i4) := dbl_exp i1 in Some (ds ++ ex, i4)) = Some (m, r) -> i = m ++ r /\ real_magnitude m).
    { intros m' r'. destruct (dbl_exp i1) as [ex i4] eqn:Ex. apply dbl_exp_inv in Ex as (-> & X). intros H; injection H as <- <-.
      split; [now rewrite <- app_assoc|]. left. exists ds, ex. auto. }
    destruct i1 as [|c i1]; [apply G|]. destruct (ascii_dec c "."%char) as [->|N].
    + destruct (span is_digit i1) as [fs i3] eqn:S3. apply span_digit in S3 as (F3 & ->). cbn [andb].
      destruct (dbl_exp i3) as [ex i4] eqn:Ex. apply dbl_exp_inv in Ex as (-> & X). clear G.
      intros H; injection H as <- <-. split; [rewrite Ei; cbn; rewrite <- !app_assoc; cbn; now rewrite <- app_assoc|]. left. exists (ds ++ "."%char :: fs), ex.
      split; [now rewrite <- app_assoc|]. split; auto. right. exists ds, fs. repeat split; auto. destruct ds; discriminate.
    + assert (Z : forall A (u v : A), match c with "."%char => u | _ => v end = v).
      { intros A u v. clear - N. destruct c as [[] [] [] [] [] [] [] []]; try reflexivity. now destruct N. }
      rewrite Z. apply G.
Qed.
Lemma dbl_inv i m r : dbl i = Some (m, r) -> i = m ++ r /\ real_number m.
Proof.
  unfold dbl. destruct i as [|c i]; [discriminate|]. destruct (Ascii.eqb c "+" || Ascii.eqb c "-") eqn:E.
  - destruct (dbl_unsigned i) as [[x rx]|] eqn:D; [|discriminate]. intros H; injection H as <- <-. apply dbl_unsigned_inv in D as [-> M].
    split; auto. exists [c], x. repeat split; auto. right. apply orb_true_iff in E as [E|E]; apply Ascii.eqb_eq in E as ->; auto.
  - intros H. apply dbl_unsigned_inv in H as [-> M]. split; auto. exists [], m. auto.
Qed.
