(** The lexical part of canonical queries: the decision procedures of SpecCanon.v mean what the
    definitions of SpecLexical.v say, and names, columns and tables are read back. *)
From Verif Require Import Grammar Print PegProps PegSpec PegEquiv TextLemmas SpecLexical LexProofs LexProofs2 First Calc Look Tight Operand SpecCanon CanonBase.

Lemma one_of_iff t ws : one_of t ws = true <-> In t (map L ws).
Proof.
  unfold one_of. rewrite existsb_exists, in_map_iff. split; intros (w & A & B); exists w; [apply text_eqb_iff in B; split; auto|].
  subst. split; auto. now apply text_eqb_iff.
Qed.
Lemma one_of_nc_iff t ws : one_of_nc t ws = true <-> In (upper t) (map L ws).
Proof. apply one_of_iff. Qed.
Lemma is_word_ok t : is_word t = true -> word t.
Proof.
  destruct t as [|c t]; [discriminate|]. cbn. intros [A B]%andb_true_iff. exists c, t. repeat split; [now apply is_letter_iff|].
  rewrite forallb_forall in B. apply Forall_forall. intros x I. apply is_idchar_iff. auto.
Qed.
Lemma free_word_ok t : free_word t = true -> word t /\ ~ reserved t.
Proof.
  unfold free_word. intros [A B]%andb_true_iff. split; [now apply is_word_ok|]. intros R. apply negb_true_iff in B.
  apply Bool.not_true_iff_false in B. apply B. apply one_of_nc_iff. exact R.
Qed.
Lemma is_doubled_ok q : forall t, is_doubled q t = true -> doubled q t.
Proof.
  assert (G : forall n t, length t <= n -> is_doubled q t = true -> doubled q t); [|intros t; now apply (G (length t))].
  induction n as [|n IH]; intros [|c t] N H; try (constructor; fail); try (cbn in N; lia). cbn in H. destruct (Ascii.eqb_spec c q) as [->|E].
  - destruct t as [|d t]; [discriminate|]. apply andb_true_iff in H as [H1 H2]. apply Ascii.eqb_eq in H1 as ->. apply doubled_quote, IH; auto. cbn in N; lia.
  - apply doubled_byte; auto. apply IH; auto. cbn in N; lia.
Qed.
Lemma between_ok q t b : between q t = Some b -> t = q :: b ++ [q].
Proof.
  destruct t as [|c t]; [discriminate|]. cbn. destruct (rev t) as [|d r] eqn:R; [discriminate|].
  destruct (Ascii.eqb_spec c q), (Ascii.eqb_spec d q); try discriminate. cbn. intros [= <-]. subst. f_equal.
  apply (f_equal (@rev _)) in R. rewrite rev_involutive in R. exact R.
Qed.
Lemma is_delimited_ok t : is_delimited t = true -> delimited t.
Proof.
  unfold is_delimited. destruct (between dq t) as [b|] eqn:B; [|discriminate]. intros [A N]%andb_true_iff. exists b. repeat split.
  - now apply between_ok. - now apply is_doubled_ok. - now destruct b.
Qed.
Lemma is_quoted_ok t : is_quoted sq t = true -> string_literal t.
Proof.
  unfold is_quoted. destruct (between sq t) as [b|] eqn:B; [|discriminate]. intros A. exists b. split.
  - now apply between_ok. - now apply is_doubled_ok.
Qed.
Lemma cuts_ok c t a b : In (a, b) (cuts c t) -> t = a ++ c :: b.
Proof.
  revert a. induction t as [|x t IH]; intros a H; [destruct H|]. cbn [cuts] in H. apply in_app_iff in H as [H|H].
  - destruct (Ascii.eqb_spec x c) as [->|]; [|destruct H]. destruct H as [[= <- <-]|[]]. reflexivity.
  - apply in_map_iff in H as ((a' & b') & [= <- <-] & I). cbn. f_equal. auto.
Qed.
Lemma is_digits_ok t : is_digits t = true -> digits t.
Proof.
  unfold is_digits. intros [A B]%andb_true_iff. split; [now destruct t|]. rewrite forallb_forall in B. apply Forall_forall. intros x I. apply is_digit_iff. auto.
Qed.
Lemma is_mantissa_ok t : is_mantissa t = true -> mantissa t.
Proof.
  unfold is_mantissa. intros [A|A]%orb_true_iff; [left; now apply is_digits_ok|]. apply existsb_exists in A as ((a & b) & I & [A B]%andb_true_iff).
  apply cuts_ok in I. apply is_digits_ok in B. right. apply orb_true_iff in A as [A|A].
  - right. destruct a; [|discriminate]. exists b. auto.
  - left. exists a, b. apply is_digits_ok in A. auto.
Qed.
Lemma is_exponent_ok e t : e = "e"%char \/ e = "E"%char -> is_exponent t = true -> exponent (e :: t).
Proof.
  intros E. unfold is_exponent. intros [A|A]%orb_true_iff; [exists e, [], t; apply is_digits_ok in A; auto|].
  destruct t as [|c t]; [discriminate|]. apply andb_true_iff in A as [A B]. apply is_digits_ok in B. exists e, [c], t. repeat split; auto; try apply B.
  apply orb_true_iff in A as [A|A]; apply Ascii.eqb_eq in A; subst; auto.
Qed.
Lemma is_number_ok t : is_number t = true -> number t.
Proof.
  unfold is_number. intros [A|A]%orb_true_iff; [left; now apply is_mantissa_ok|]. right. apply existsb_exists in A as ((a & b) & I & [A B]%andb_true_iff).
  apply is_mantissa_ok in A. apply in_app_iff in I as [I|I]; apply cuts_ok in I; eexists a, _; repeat split; eauto; apply is_exponent_ok; auto.
Qed.

(** ** Names *)
Definition name (n : text) : Prop := (word n /\ ~ reserved n) \/ delimited n.
Lemma is_name_ok n : is_name n = true -> name n.
Proof. unfold is_name. intros [A|A]%orb_true_iff; [left; now apply free_word_ok|right; now apply is_delimited_ok]. Qed.
(** what may follow a name *)
Definition nstop (k : text) : Prop := match k with [] => True | c :: _ => is_idchar c = false /\ Ascii.eqb c dq = false end.
Lemma brk_no c : brk c = true -> is_idchar c = false /\ Ascii.eqb c dq = false.
Proof. destruct c as [[] [] [] [] [] [] [] []]; vm_compute; auto; discriminate. Qed.
Lemma boundary_nstop k : boundary k -> nstop k.
Proof. destruct k as [|c k]; [easy|]. cbn. apply brk_no. Qed.
Lemma name_before n k : name n -> nstop k -> identifier_before k n.
Proof.
  intros [[W R]|D] K; [left|right]; repeat split; auto.
  - destruct k as [|c k]; [exact I|]. cbn in *. intros X. apply is_idchar_iff in X. destruct K. congruence.
  - destruct k as [|c k]; [exact I|]. cbn in *. intros ->. destruct K as [_ K]. now rewrite Ascii.eqb_refl in K.
Qed.
Lemma name_free n : name n -> ~ (word n /\ reserved n).
Proof.
  intros [[W R]|D]; [tauto|]. intros [W _]. destruct (delimited_starts _ D) as (b & ->). destruct W as (c & w & [= <- _] & Lc & _).
  apply is_letter_iff in Lc. discriminate.
Qed.
Lemma name_dark n : name n -> dark n.
Proof.
  intros [[W R]|D].
  - destruct (word_starts _ W) as (c & w & -> & Hc). cbn. now apply idchar_space, letter_idchar.
  - destruct (delimited_starts _ D) as (b & ->). reflexivity.
Qed.
Lemma value_name_ok n : is_value_name n = true -> name n /\ (word n -> ~ read_as_value n).
Proof.
  unfold is_value_name. intros [A B]%andb_true_iff. split; [now apply is_name_ok|]. intros W. apply negb_true_iff in B. rewrite !orb_false_iff in B.
  destruct B as [[[B1 B2] B3] B4]. unfold begins_with_nc in *. intros [H|[H|[H|H]]].
  - destruct H as (x & r & -> & U). assert (E : strip true (L "TRUE") (x ++ r) = Some (x, r)) by now apply strip_nc_iff. now rewrite E in B1.
  - destruct H as (x & r & -> & U). assert (E : strip true (L "FALSE") (x ++ r) = Some (x, r)) by now apply strip_nc_iff. now rewrite E in B2.
  - destruct H as (x & r & -> & U). assert (E : strip true (L "CURRENT_TIMESTAMP") (x ++ r) = Some (x, r)) by now apply strip_nc_iff. now rewrite E in B3.
  - apply Bool.not_true_iff_false in B4. apply B4. apply one_of_nc_iff. left. now rewrite H.
Qed.
(** one, two or three names with points between, the first with [f] *)
Inductive tname (f : text -> Prop) : text -> Prop :=
| tn1 a : f a -> tname f a
| tn2 a b : f a -> name b -> tname f (a ++ "."%char :: b)
| tn3 a b c : f a -> name b -> name c -> tname f (a ++ "."%char :: b ++ "."%char :: c).
Lemma table_name_ok (f : text -> bool) (g : text -> Prop) t : (forall x, f x = true -> g x) -> table_name_from f t = true -> tname g t.
Proof.
  intros F. unfold table_name_from. intros [A|A]%orb_true_iff; [constructor; auto|].
  apply existsb_exists in A as ((a & b) & I & [A B]%andb_true_iff). apply cuts_ok in I as ->. apply orb_true_iff in B as [B|B].
  - apply tn2; auto. now apply is_name_ok.
  - apply existsb_exists in B as ((b1 & b2) & I & [B1 B2]%andb_true_iff). apply cuts_ok in I as ->. apply tn3; auto; now apply is_name_ok.
Qed.
Lemma is_table_name_ok t : is_table_name t = true -> tname name t.
Proof. apply table_name_ok, is_name_ok. Qed.
Lemma tname_dark (f : text -> Prop) t : (forall x, f x -> dark x) -> tname f t -> dark t.
Proof. intros F [a A|a b A B|a b c A B C]; [auto| |]; apply dark_app; auto. Qed.

(** a column whose parts are names *)
Definition cnames (f : text -> Prop) (c : colref) : Prop :=
  match c with CR4 a b c d => f a /\ name b /\ name c /\ name d | CR3 a b c => f a /\ name b /\ name c | CR2 a b => f a /\ name b | CR1 a => f a end.
Lemma c_colref_ok (f : text -> bool) (g : text -> Prop) c : (forall x, f x = true -> g x) -> c_colref f c = true -> cnames g c.
Proof.
  intros F. destruct c; cbn; rewrite ?andb_true_iff; intros H; repeat split; try (apply is_name_ok; tauto); try (apply F; tauto).
Qed.
Lemma cnames_impl (f g : text -> Prop) c : (forall x, f x -> g x) -> cnames f c -> cnames g c.
Proof. intros F. destruct c; cbn; intuition auto. Qed.
Lemma colref_dark (f : text -> Prop) c : (forall x, f x -> dark x) -> cnames f c -> dark (pr_colref c).
Proof. intros F. destruct c; cbn [cnames pr_colref]; intros N; try (apply dark_app; apply F; tauto). now apply F. Qed.
(** the first part of a column *)
Definition first_part (c : colref) : text := match c with CR4 a _ _ _ => a | CR3 a _ _ => a | CR2 a _ => a | CR1 a => a end.
Lemma colref_first c k : exists k', pr_colref c ++ k = first_part c ++ k' /\ (k' = k /\ (exists a, c = CR1 a) \/ exists r, k' = "."%char :: r).
Proof.
  destruct c; cbn [pr_colref first_part]; change (L ".") with ["."%char]; rewrite <- ?app_assoc; cbn [app]; eexists; split; eauto.
Qed.

Section Names.
Variable m : text -> option text.
Notation reads := (reads m).
Notation fails := (fails m).

Lemma rd_name n i k : name n -> nstop k -> skip i = skip (n ++ k) -> reads ident i n (skip k).
Proof. intros N K H. apply ident_reads; [now apply name_before|]. rewrite H. apply dark_skip. now apply name_dark. Qed.
Lemma dot_nstop k : nstop ("."%char :: k).
Proof. split; reflexivity. Qed.
Definition nodot (k : text) : Prop := strip false (L ".") (skip k) = None.

Lemma no_upload n i k : name n -> nstop k -> skip i = skip (n ++ k) -> fails (PLex (s_tap_upload m)) i.
Proof.
  intros N K H. eapply fails_lex; [reflexivity|]. rewrite H, dark_skip by now apply name_dark.
  apply tap_upload_no; [now apply name_before|now apply name_free].
Qed.

Lemma rd_cr1 a i k : name a -> nstop k -> nodot k -> skip i = skip (a ++ k) -> reads (g_column_reference m) i (CR1 a) (skip k).
Proof.
  intros Na K D H.
  assert (F : forall r, skip r = skip i -> fails (ident >> lit ".") r).
  { intros r Hr. eapply fails_seq2; [eapply rd_name; eauto; congruence|]. intros r' Hr'. eapply no_lit; eauto. }
  apply reads_alt2.
  { apply fails_map. do 5 apply fails_seq1. auto. }
  intros r Hr. apply reads_alt2.
  { apply fails_map. do 3 apply fails_seq1. auto. }
  intros r2 Hr2. apply reads_alt2.
  { apply fails_map. apply fails_seq1. eapply fails_seq2; [|intros r' Hr'; eapply no_lit; eauto].
    apply reads_alt2; [eapply no_upload; eauto; congruence|]. intros r3 Hr3. eapply rd_name; eauto. congruence. }
  intros r3 Hr3. eapply reads_map; [|reflexivity]. eapply rd_name; eauto. congruence.
Qed.
Lemma rd_dot a i k : name a -> skip i = skip (a ++ "."%char :: k) -> reads (ident >> lit ".") i (a, tt) (skip k).
Proof.
  intros Na H. eapply reads_seq; [eapply rd_name; eauto; apply dot_nstop|]. intros r Hr. eapply (rd_lit m "."); [reflexivity|exact Hr].
Qed.
Lemma rd_cr2 a b i k : name a -> name b -> nstop k -> nodot k -> skip i = skip (a ++ "."%char :: b ++ k) ->
  reads (g_column_reference m) i (CR2 a b) (skip k).
Proof.
  intros Na Nb K D H.
  assert (F : forall r, skip r = skip i -> fails (ident >> lit "." >> ident >> lit ".") r).
  { intros r Hr. eapply fails_seq2.
    - eapply reads_seq; [apply (rd_dot a); [exact Na|rewrite Hr; exact H]|]. intros r' Hr'. eapply (rd_name b); eauto.
    - intros r' Hr'. eapply no_lit; eauto. }
  apply reads_alt2.
  { apply fails_map. do 3 apply fails_seq1. auto. }
  intros r Hr. apply reads_alt2.
  { apply fails_map. apply fails_seq1. auto. }
  intros r2 Hr2. apply reads_alt1. eapply reads_map with (v := (a, tt, b)); [|reflexivity]. eapply reads_seq; [eapply reads_seq|].
  - apply reads_alt2; [apply (no_upload a _ ("."%char :: b ++ k)); [exact Na|apply dot_nstop|congruence]|]. intros r3 Hr3. apply (rd_name a _ ("."%char :: b ++ k)); [exact Na|apply dot_nstop|congruence].
  - intros r3 Hr3. eapply (rd_lit m "."); [reflexivity|exact Hr3].
  - intros r3 Hr3. eapply rd_name; eauto.
Qed.
Ltac nm := (eapply rd_name; [eassumption| |eassumption]; first [apply dot_nstop|eassumption]).
Lemma rd_cr3 a b c i k : name a -> name b -> name c -> nstop k -> nodot k -> skip i = skip (a ++ "."%char :: b ++ "."%char :: c ++ k) ->
  reads (g_column_reference m) i (CR3 a b c) (skip k).
Proof.
  intros Na Nb Nc K D H.
  assert (R : forall r, skip r = skip i -> reads (ident >> lit "." >> ident >> lit "." >> ident) r (a, tt, b, tt, c) (skip k)).
  { intros r Hr. eapply reads_seq; [eapply reads_seq; [eapply reads_seq; [apply (rd_dot a); [exact Na|rewrite Hr; exact H]|]|]|].
    - intros r' Hr'. nm.
    - intros r' Hr'. eapply (rd_lit m "."); [reflexivity|exact Hr'].
    - intros r' Hr'. nm. }
  apply reads_alt2.
  { apply fails_map. apply fails_seq1. eapply fails_seq2; [apply R; reflexivity|]. intros r' Hr'. eapply no_lit; eauto. }
  intros r Hr. apply reads_alt1. eapply reads_map with (v := (a, tt, b, tt, c)); [|reflexivity]. now apply R.
Qed.
Lemma rd_cr4 a b c d i k : name a -> name b -> name c -> name d -> nstop k -> skip i = skip (a ++ "."%char :: b ++ "."%char :: c ++ "."%char :: d ++ k) ->
  reads (g_column_reference m) i (CR4 a b c d) (skip k).
Proof.
  intros Na Nb Nc Nd K H. apply reads_alt1. eapply reads_map with (v := (a, tt, b, tt, c, tt, d)); [|reflexivity].
  eapply reads_seq; [eapply reads_seq; [eapply reads_seq; [eapply reads_seq; [eapply reads_seq; [apply (rd_dot a); [exact Na|exact H]|]|]|]|]|].
  - intros r' Hr'. nm.
  - intros r' Hr'. eapply (rd_lit m "."); [reflexivity|exact Hr'].
  - intros r' Hr'. nm.
  - intros r' Hr'. eapply (rd_lit m "."); [reflexivity|exact Hr'].
  - intros r' Hr'. nm.
Qed.
Lemma rd_colref c i k : cnames name c -> nstop k -> nodot k -> skip i = skip (pr_colref c ++ k) -> reads (g_column_reference m) i c (skip k).
Proof.
  intros N K D H. destruct c; cbn [cnames pr_colref] in *.
  - destruct N as (? & ? & ? & ?). apply rd_cr4; auto. rewrite H. f_equal. change (L ".") with ["."%char]. rewrite <- !app_assoc. cbn [app]. now rewrite <- ?app_assoc.
  - destruct N as (? & ? & ?). apply rd_cr3; auto. rewrite H. f_equal. change (L ".") with ["."%char]. rewrite <- !app_assoc. cbn [app]. now rewrite <- ?app_assoc.
  - destruct N as (? & ?). apply rd_cr2; auto. rewrite H. f_equal. change (L ".") with ["."%char]. rewrite <- !app_assoc. cbn [app]. now rewrite <- ?app_assoc.
  - apply rd_cr1; auto.
Qed.
End Names.

Section Tables.
Variable m : text -> option text.
Notation reads := (reads m).
Notation fails := (fails m).
(** what may follow the name of a table: no point, or a point and a star *)
Definition tstop (k : text) : Prop := nstop k /\ match k with c :: k' => if Ascii.eqb c "." then hd_of k' = Some "*"%char else True | [] => True end.
Lemma name_run n k acc : name n -> nstop k -> srun s_identifier acc (n ++ k) = SOk (acc ++ n) k.
Proof. intros N K. rewrite srun_acc, identifier_run by now apply name_before. reflexivity. Qed.
Lemma dot_run k acc : srun (chr ".") acc ("."%char :: k) = SOk (acc ++ L ".") k.
Proof. reflexivity. Qed.
Lemma star_no k acc : hd_of k = Some "*"%char -> exists a, srun s_identifier acc k = SFail a.
Proof.
  destruct k as [|c k]; [discriminate|]. intros [= ->]. destruct (sclass_ok s_identifier acc ("*"%char :: k)) as (a & H). apply sev_iff in H; [|reflexivity]. eauto.
Qed.
(** behind the name: either no point, or a point without identifier *)
Lemma more_no k acc (x : se) : tstop k -> exists a, srun (SSeq (chr ".") (SSeq s_identifier x)) acc k = SFail a.
Proof.
  intros [_ T]. destruct k as [|c k]; [eexists; reflexivity|]. destruct (Ascii.eqb_spec c ".") as [->|E].
  - destruct (star_no k (acc ++ L ".") T) as (a & H). exists a. cbn [srun]. rewrite dot_run. now rewrite H.
  - exists acc. cbn [srun chr]. apply Ascii.eqb_neq in E. now rewrite E.
Qed.
Lemma more_no1 k acc : tstop k -> exists a, srun (SSeq (chr ".") s_identifier) acc k = SFail a.
Proof.
  intros [_ T]. destruct k as [|c k]; [eexists; reflexivity|]. destruct (Ascii.eqb_spec c ".") as [->|E].
  - destruct (star_no k (acc ++ L ".") T) as (a & H). exists a. cbn [srun]. rewrite dot_run. now rewrite H.
  - exists acc. cbn [srun chr]. apply Ascii.eqb_neq in E. now rewrite E.
Qed.
Lemma seq_run a b acc i acc' i' : srun a acc i = SOk acc' i' -> srun (SSeq a b) acc i = srun b acc' i'.
Proof. intros H. cbn [srun]. now rewrite H. Qed.
Lemma hold_no e acc i a : srun e acc i = SFail a -> srun (SHold e) acc i = SFail acc.
Proof. intros H. cbn [srun]. now rewrite H. Qed.
Lemma hold_ok e acc i a r : srun e acc i = SOk a r -> srun (SHold e) acc i = SOk a r.
Proof. intros H. cbn [srun]. now rewrite H. Qed.
Lemma alt_no a b acc i acc' : srun a acc i = SFail acc' -> srun (SAlt a b) acc i = srun b acc' i.
Proof. intros H. cbn [srun]. now rewrite H. Qed.
Lemma alt_ok a b acc i acc' r : srun a acc i = SOk acc' r -> srun (SAlt a b) acc i = SOk acc' r.
Proof. intros H. cbn [srun]. now rewrite H. Qed.
Lemma tname_run (f : text -> Prop) t k : (forall x, f x -> name x) -> tname f t -> tstop k -> srun (s_table_name m) [] (t ++ k) = SOk t k.
Proof.
  intros F T S. pose proof (proj1 S) as K. unfold s_table_name. destruct T as [a A|a b A B|a b c A B C]; apply F in A.
  - rewrite (alt_no _ _ _ _ []) by (apply tap_upload_no; [now apply name_before|now apply name_free]).
    rewrite (alt_no _ _ _ _ []). 2:{ edestruct more_no as (x & Hx); [exact S|]. eapply hold_no. erewrite seq_run by (apply name_run; auto). apply Hx. }
    rewrite (alt_no _ _ _ _ []). 2:{ edestruct more_no1 as (x & Hx); [exact S|]. eapply hold_no. erewrite seq_run by (apply name_run; auto). apply Hx. }
    now rewrite name_run.
  - rewrite <- app_assoc. cbn [app].
    rewrite (alt_no _ _ _ _ []) by (apply tap_upload_no; [apply name_before; auto; apply dot_nstop|now apply name_free]).
    rewrite (alt_no _ _ _ _ []).
    2:{ edestruct more_no1 as (x & Hx); [exact S|]. eapply hold_no. erewrite seq_run by (apply name_run; auto; apply dot_nstop).
        erewrite seq_run by apply dot_run. erewrite seq_run by (apply name_run; auto). apply Hx. }
    apply alt_ok, hold_ok. erewrite seq_run by (apply name_run; auto; apply dot_nstop). erewrite seq_run by apply dot_run. rewrite name_run by auto. cbn [app]. now rewrite <- app_assoc.
  - rewrite <- app_assoc. cbn [app]. rewrite <- app_assoc. cbn [app].
    rewrite (alt_no _ _ _ _ []) by (apply tap_upload_no; [apply name_before; auto; apply dot_nstop|now apply name_free]).
    apply alt_ok, hold_ok. erewrite seq_run by (apply name_run; auto; apply dot_nstop). erewrite seq_run by apply dot_run.
    erewrite seq_run by (apply name_run; auto; apply dot_nstop). erewrite seq_run by apply dot_run. rewrite name_run by auto. cbn [app]. now rewrite <- !app_assoc.
Qed.
Lemma rd_table t i k : tname name t -> tstop k -> skip i = skip (t ++ k) -> reads (PLex (s_table_name m)) i t (skip k).
Proof.
  intros T S H. eapply reads_lex; [reflexivity|]. rewrite H, dark_skip by (eapply tname_dark; [apply name_dark|eauto]). eapply tname_run; eauto.
Qed.
Lemma rd_star_item (f : text -> Prop) t i k : (forall x, f x -> name x) -> tname f t -> skip i = skip (t ++ L ".*" ++ k) -> reads (PLex (s_qualifier_star m)) i (t ++ L ".*") (skip k).
Proof.
  intros F T H. eapply reads_lex; [reflexivity|]. rewrite H, dark_skip by (eapply tname_dark; [|eauto]; intros; apply name_dark; auto).
  unfold s_qualifier_star. erewrite seq_run by (eapply tname_run; eauto; repeat split; reflexivity). reflexivity.
Qed.
(** a name, or a column, in front of something that is not a point, is not a starred table *)
Lemma colref_no_star c i k : cnames name c -> nstop k -> stops (fun x => x = "."%char) k -> skip i = skip (pr_colref c ++ k) -> fails (PLex (s_qualifier_star m)) i.
Proof.
  intros N K S H.
  assert (T : tstop k). { split; auto. destruct k as [|x k]; [exact I|]. cbn in S. destruct (Ascii.eqb_spec x "."); [contradiction|exact I]. }
  assert (G : exists a, srun (s_qualifier_star m) [] (pr_colref c ++ k) = SFail a).
  { assert (Z : forall t, tname name t -> exists a, srun (s_qualifier_star m) [] (t ++ k) = SFail a).
    { intros t Ht. unfold s_qualifier_star. erewrite seq_run by (eapply tname_run; eauto). exists t. cbn [srun]. destruct k as [|x k]; [reflexivity|].
      cbn in S. change (L ".*") with ["."; "*"]%char. cbn [strip eq_ch]. destruct (Ascii.eqb_spec "." x); [congruence|reflexivity]. }
    destruct c as [a b c d|a b c|a b|a]; cbn [pr_colref cnames] in *; change (L ".") with ["."%char] in *.
    - destruct N as (Na & Nb & Nc & Nd). rewrite <- !app_assoc. cbn [app]. rewrite <- ?app_assoc. cbn [app]. unfold s_qualifier_star.
      assert (E : srun (s_table_name m) [] (a ++ "."%char :: b ++ "."%char :: c ++ "."%char :: d ++ k) = SOk (a ++ "."%char :: b ++ "."%char :: c) ("."%char :: d ++ k)).
      { unfold s_table_name. rewrite (alt_no _ _ _ _ []) by (apply tap_upload_no; [apply name_before; auto; apply dot_nstop|now apply name_free]).
        apply alt_ok, hold_ok. erewrite seq_run by (apply name_run; auto; apply dot_nstop). erewrite seq_run by apply dot_run.
        erewrite seq_run by (apply name_run; auto; apply dot_nstop). erewrite seq_run by apply dot_run. rewrite name_run by (auto; apply dot_nstop). cbn [app]. now rewrite <- !app_assoc. }
      erewrite seq_run by exact E. eexists. cbn [srun]. destruct d as [|x d]; [now apply name_dark in Nd|].
      assert (X : Ascii.eqb "*" x = false).
      { destruct Nd as [[(y & w & [= -> ->] & Ly & _) _]|D]; [apply is_letter_iff in Ly; apply Ascii.eqb_neq; intros <-; discriminate|].
        destruct (delimited_starts _ D) as (q & [= -> _]). reflexivity. }
      change (L ".*") with ["."; "*"]%char. cbn [strip eq_ch app]. rewrite X. reflexivity.
    - destruct N as (Na & Nb & Nc). apply Z. now apply tn3.
    - destruct N as (Na & Nb). apply Z. now apply tn2.
    - apply Z. now apply tn1. }
  destruct G as (a & G). eapply fails_lex; [reflexivity|]. rewrite H, dark_skip by (exact (colref_dark name c name_dark N)). exact G.
Qed.
End Tables.
