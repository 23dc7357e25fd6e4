(** The leaves of the grammar as tokens. *)
From Verif Require Import Query PegProps Gen Spec TextLemmas SpecLexical LexProofs LexProofs2 LexDec First Operand TopProofs SpecContent ContentCalc ContentLeaves.

(** ** Words *)
Lemma upc_letter c : is_letter (upc c) = is_letter c.
Proof. revert c. by_byte. Qed.
Lemma word_b_upper x : word_b (upper x) = word_b x.
Proof. destruct x as [|c x]; [reflexivity|]. cbn [upper map word_b]. rewrite upc_letter. f_equal. exact (all_id_upper x). Qed.
Definition other_keywords : list string := ["COT"; "ARRAY"; "ELLIPSE"; "BIGINT"; "FLOAT4"; "FLOAT8"; "VARCHAR2"; "TEXT"]%string.
Definition kwb (w : string) : bool :=
  word_b (L w) && (mem (upper (L w)) (sql_words ++ adql_words) || mem (upper (L w)) other_keywords).
Lemma kw_word w x : kwb w = true -> upper x = upper (L w) -> word x /\ keyword x.
Proof.
  unfold kwb. intros H U. apply andb_true_iff in H as [W M]. split.
  - apply word_dec. rewrite <- word_b_upper, U, word_b_upper. exact W.
  - unfold keyword, reserved. rewrite U. apply orb_true_iff in M as [M|M]; apply mem_iff in M; auto.
Qed.
Lemma LI_keyword k x : word x -> keyword x -> LI k x [x].
Proof. intros W K. apply lexes_one; [left; now left|]. left. now left. Qed.
Lemma LI_word k x : word x -> stops word_char k -> LI k x [x].
Proof. intros W K. apply lexes_one; [left; now left|]. auto. Qed.
Lemma last_unique {A} (a b : list A) c d : a ++ [c] = b ++ [d] -> c = d.
Proof. intros H. apply app_inj_tail in H. tauto. Qed.
Lemma quote_end q b : is_idchar q = false -> ~ ends_word (b ++ [q]).
Proof. intros H (a & c & E & W). apply last_unique in E as <-. apply is_idchar_iff in W. congruence. Qed.
Lemma delimited_end d : delimited d -> ~ ends_word d.
Proof. intros (b & -> & _). rewrite app_comm_cons. now apply quote_end. Qed.
Lemma LI_delimited k x : delimited x -> LI k x [x].
Proof. intros W. apply lexes_one; [left; right; now left|]. right. intros E. now apply delimited_end in E. Qed.
Lemma string_end s : string_literal s -> ~ ends_word s.
Proof. intros (b & -> & _). rewrite app_comm_cons. now apply quote_end. Qed.
Lemma parts_end s : literal_parts s -> ~ ends_word s.
Proof.
  intros [x X|t p x T P X]; [now apply string_end|]. destruct X as (b & -> & _). rewrite app_assoc, app_comm_cons, app_assoc. now apply quote_end.
Qed.
Lemma LI_literal k x : literal_parts x -> LI k x [x].
Proof. intros W. apply lexes_one; [left; right; right; now left|]. right. intros E. now apply parts_end in E. Qed.
Lemma LI_number k x : number x -> LI k x [x].
Proof. intros W. apply lexes_one; [left; do 3 right; now left|]. left. right; now left. Qed.
Lemma LI_real k x : real_number x -> LI k x [x].
Proof. intros W. apply lexes_one; [right; auto|]. left. right; now right. Qed.
Lemma LI_mark k x : In x (map L marks) -> LI k x [x].
Proof. intros W. apply lexes_one; [exact (mark_token x W)|]. right. intros E. destruct (mark_end x W E). Qed.

Section Tokens.
Variable m : text -> option text.
Variable stray : Prop.
Variable Nr : forall r, attr r -> list text -> Prop.
Notation cont := (cont stray Nr).
Notation cont0 := (cont0 stray Nr).

Definition tokenizes (e : se) (P : text -> list text -> Prop) : Prop :=
  forall x k v, lexeme e x k v -> exists l, LI k x l /\ P v l.
Definition tokenizes_dl (e : se) (P : text -> list text -> Prop) : Prop :=
  forall x k v, lexeme e x k v -> dotless k -> exists l, LI k x l /\ P v l.
Lemma c0_lex e P : tokenizes e P -> cont0 (PLex e) P.
Proof.
  intros H t k v (sp & x & -> & W & E) _. destruct (H _ _ _ E) as (l & Hl & Hp). exists l. split; auto.
  apply lexes_prefix; auto. now apply spaces_white.
Qed.
Lemma c_lex_dl e P : tokenizes_dl e P -> cont (PLex e) P.
Proof.
  intros H t k v (sp & x & -> & W & E) D _. destruct (H _ _ _ E D) as (l & Hl & Hp). exists l. split; auto.
  apply lexes_prefix; auto. now apply spaces_white.
Qed.
(** What an optional word leaves behind when it is absent. *)
Definition absent (v : text) (l : list text) : Prop := l = [] /\ (v = [] \/ (stray /\ upper v = L "NOT")).
Lemma c0_optlex e P : tokenizes e P -> clean e = true -> cont0 (POptLex e) (fun v l => P v l \/ (l = [] /\ v = [])).
Proof.
  intros H C t k v [(sp & x & -> & W & E)|(W & _ & E)] _.
  - destruct (H _ _ _ E) as (l & Hl & Hp). exists l. split; auto. apply lexes_prefix; auto. now apply spaces_white.
  - apply clean_ok in E as ->; auto. exists []. split; auto. now apply LI_sp.
Qed.
Lemma tok_weak e (P Q : text -> list text -> Prop) : tokenizes e P -> (forall v l, P v l -> Q v l) -> tokenizes e Q.
Proof. intros H W x k v E. destruct (H _ _ _ E) as (l & ? & ?). eauto. Qed.

(** *** Keywords *)
Definition kwp (ws : list string) (v : text) (l : list text) : Prop := l = [v] /\ word v /\ exists w, In w ws /\ upper v = upper (L w).
Definition kwo {A : Type} (w : string) (_ : A) (l : list text) : Prop := exists x, l = [x] /\ upper x = upper (L w).
Lemma tok_strs ws : forallb kwb ws = true -> tokenizes (strs_nc ws) (kwp ws).
Proof.
  intros F x k v H. eapply takes_lexeme in H; [|apply takes_strs]. destruct H as (-> & w & Hw & U). exists [x].
  rewrite forallb_forall in F. destruct (kw_word w x (F _ Hw) U) as [W K]. split; [now apply LI_keyword|]. split; eauto.
Qed.
Lemma lexeme_seq_and a b x k v : lexeme (SSeq a (SAnd b)) x k v -> lexeme a x k v.
Proof.
  unfold lexeme. rewrite run_seq. destruct (srun a [] (x ++ k)) as [a1 i1| | |]; try discriminate. intros H.
  apply takes_and in H as (y & -> & -> & -> & _). now rewrite app_nil_r.
Qed.
Lemma lexeme_exp_and a b x k v : lexeme (SExp a (SAnd b)) x k v -> lexeme a x k v.
Proof.
  intros H. apply (lexeme_seq_and a b). unfold lexeme in *. rewrite run_seq. cbn [srun] in *.
  destruct (srun a [] (x ++ k)) as [a1 i1| | |]; try discriminate. destruct (srun b [] i1); try discriminate; auto.
Qed.
Lemma lexeme_hold a x k v : lexeme (SHold a) x k v -> lexeme a x k v.
Proof. unfold lexeme. rewrite run_hold. destruct (srun a [] (x ++ k)); try discriminate; auto. Qed.
Lemma tok_seq_and a b P : tokenizes a P -> tokenizes (SSeq a (SAnd b)) P.
Proof. intros H x k v E. apply lexeme_seq_and in E. eauto. Qed.
Lemma tok_exp_and a b P : tokenizes a P -> tokenizes (SExp a (SAnd b)) P.
Proof. intros H x k v E. apply lexeme_exp_and in E. eauto. Qed.
Lemma tok_hold a P : tokenizes a P -> tokenizes (SHold a) P.
Proof. intros H x k v E. apply lexeme_hold in E. eauto. Qed.
Lemma tok_lit_nc w : kwb w = true -> tokenizes (SLit true (L w)) (kwo w).
Proof.
  intros F x k v H. unfold lexeme in H. cbn [srun] in H. destruct (strip true (L w) (x ++ k)) as [[y r]|] eqn:E; [|discriminate]. injection H as <- ->.
  apply strip_nc_iff in E as [E U]. apply app_inv_tail in E as ->. destruct (kw_word w y F U) as [W K].
  exists [y]. split; [now apply LI_keyword|]. exists y. auto.
Qed.
Lemma c0_kw w : kwb w = true -> cont0 (kw w) (kwo w).
Proof.
  intros F t k v (sp & x & -> & W & S) _. apply strip_nc_iff in S as [_ U]. destruct (kw_word w x F U) as [Wd K].
  exists [x]. split; [|exists x; auto]. apply lexes_prefix; [now apply spaces_white|]. now apply LI_keyword.
Qed.
Lemma c0_kw_soft w : kwb w = true -> cont0 (PLex (kw_soft w)) (kwo w).
Proof. intros F. apply c0_lex, tok_seq_and, tok_lit_nc, F. Qed.
Lemma c0_kw_hard w : kwb w = true -> cont0 (PLex (kw_hard w)) (kwo w).
Proof. intros F. apply c0_lex, tok_exp_and, tok_lit_nc, F. Qed.
Lemma c0_strs ws : forallb kwb ws = true -> cont0 (PLex (strs_nc ws)) (kwp ws).
Proof. intros F. apply c0_lex, tok_strs, F. Qed.
Lemma c0_kws_soft ws : forallb kwb ws = true -> cont0 (PLex (kws_soft ws)) (kwp ws).
Proof. intros F. apply c0_lex, tok_seq_and, tok_strs, F. Qed.
Lemma c0_held ws b : forallb kwb ws = true -> cont0 (PLex (SHold (SSeq (strs_nc ws) (SAnd b)))) (kwp ws).
Proof. intros F. apply c0_lex, tok_hold, tok_seq_and, tok_strs, F. Qed.

(** *** NOT *)
Definition notp (v : text) (l : list text) : Prop := (exists n, l = [n] /\ upper n = L "NOT" /\ v <> [] /\ (v = n \/ exists c, is_space c = true /\ v = n ++ [c])) \/ absent v l.
Lemma not_nonnil n : upper n = L "NOT" -> n <> []. Proof. intros H ->. discriminate. Qed.
Lemma tok_not : tokenizes (SStr true (L "NOT")) (fun v l => l = [v] /\ upper v = L "NOT").
Proof.
  intros x k v H. eapply takes_lexeme in H; [|apply takes_nc]. destruct H as (-> & U). exists [x]. split; [|auto].
  destruct (kw_word "NOT" x eq_refl U) as [W K]. now apply LI_keyword.
Qed.
Lemma c0_not_hard : cont0 (POptLex (kws_hard "NOT")) notp.
Proof.
  eapply c0_weak; [apply c0_optlex; [apply tok_exp_and, tok_not|reflexivity]|]. cbn beta. intros v l [[-> U]|[-> ->]].
  - left. exists v. repeat split; auto. now apply not_nonnil.
  - right. split; auto.
Qed.
Lemma c0_not_space : cont0 (POptLex (SExp (SStr true (L "NOT")) (SChr is_space))) notp.
Proof.
  eapply c0_weak; [apply (c0_optlex _ (fun v l => exists n c, l = [n] /\ upper n = L "NOT" /\ is_space c = true /\ v = n ++ [c]))|].
  - intros x k v H. eapply takes_lexeme in H; [|apply takes_exp; [apply takes_nc|apply takes_chr]].
    destruct H as (-> & n & y & -> & U & c & -> & C). exists [n]. split; [|eauto 7].
    destruct (kw_word "NOT" n eq_refl U) as [W K]. change [n] with ([n] ++ []). apply lexes_app; [now apply LI_keyword|].
    constructor. constructor; auto.
  - reflexivity.
  - cbn beta. intros v l [(n & c & -> & U & C & ->)|[-> ->]]; [left|right; split; auto]. exists n. split; [|split; [|split]]; eauto. now destruct n.
Qed.
Lemma c0_not_soft : cont0 (POptLex (kws_soft ["NOT"]%string)) notp.
Proof.
  intros t k v [(sp & x & -> & W & E)|(W & Sk & E)] Hs.
  - apply lexeme_seq_and in E. eapply takes_lexeme in E; [|apply takes_strs]. destruct E as (-> & w & [<-|[]] & U).
    destruct (kw_word "NOT" x eq_refl U) as [Wd K]. exists [x]. split; [apply lexes_prefix; [now apply spaces_white|now apply LI_keyword]|].
    left. exists x. repeat split; auto. now apply not_nonnil.
  - exists []. split; [now apply LI_sp|]. right. split; [reflexivity|]. unfold kws_soft in E. rewrite run_seq, strs_run in E. cbn [first_str] in E.
    destruct (strip true (L "NOT") k) as [[n r]|] eqn:S; [|left; congruence]. apply strip_nc_iff in S as [-> U].
    cbn [app] in E. right. cbn in E. destruct r as [|c r]; [|destruct (is_space c) eqn:C; [discriminate|]]; injection E as <-; (split; [|exact U]); apply Hs.
    + exists t, n, []. repeat split; auto.
    + exists t, n, (c :: r). repeat split; auto. cbn. congruence.
Qed.

(** *** Marks *)
Definition markp (ms : list string) (v : text) (l : list text) : Prop := l = [v] /\ In v (map L ms).
Lemma marks_incl ms v : forallb (fun s => mem (L s) marks) ms = true -> In v (map L ms) -> In v (map L marks).
Proof. intros F H. apply in_map_iff in H as (s & <- & Hs). rewrite forallb_forall in F. apply mem_iff. auto. Qed.
Lemma c0_marks ms : forallb (fun s => mem (L s) marks) ms = true -> cont0 (PLex (strs_cs ms)) (markp ms).
Proof.
  intros F. apply c0_lex. intros x k v H. eapply takes_lexeme in H; [|apply takes_strs_cs]. destruct H as (-> & Hx).
  exists [x]. split; [|split; auto]. apply LI_mark. eapply marks_incl; eauto.
Qed.
Lemma takes_sign : takes s_sign (fun x _ => In x (map L ["+"; "-"]%string)).
Proof. apply takes_alt; [reflexivity| |]; (eapply takes_weak; [apply takes_char|]); intros x r ->; cbn; auto. Qed.
Lemma c0_sign : cont0 (POptLex s_sign) (fun v l => markp ["+"; "-"]%string v l \/ (l = [] /\ v = [])).
Proof.
  apply c0_optlex; [|reflexivity]. intros x k v H. eapply takes_lexeme in H; [|apply takes_sign]. destruct H as (-> & Hx).
  exists [x]. split; [|split; auto]. apply LI_mark. eapply marks_incl; eauto. reflexivity.
Qed.
Definition arith : list string := ["+"; "-"; "*"; "/"]%string.
Lemma takes_arith : takes s_arithmetic_operator (fun x _ => In x (map L arith)).
Proof.
  repeat (apply takes_alt; [reflexivity|(eapply takes_weak; [apply takes_char|]); intros x r ->; cbn; auto 7|]).
  (eapply takes_weak; [apply takes_char|]); intros x r ->; cbn; auto 7.
Qed.
Lemma c0_arith : cont0 (PLex s_arithmetic_operator) (markp arith).
Proof.
  apply c0_lex. intros x k v H. eapply takes_lexeme in H; [|apply takes_arith]. destruct H as (-> & Hx).
  exists [x]. split; [|split; auto]. apply LI_mark. eapply marks_incl; eauto. reflexivity.
Qed.
Definition flagp (v : text) (l : list text) : Prop := l = [v] /\ flag v.
Lemma flag_number f : flag f -> number f.
Proof.
  intros [-> | ->]; left; left; (split; [discriminate|]); constructor; try constructor; unfold digit; cbn; lia.
Qed.
Lemma c0_flag : cont0 (PLex s_char_flag) flagp.
Proof.
  apply c0_lex. intros x k v H.
  assert (T : takes s_char_flag (fun x _ => flag x)).
  { apply takes_alt; [reflexivity| |]; (eapply takes_weak; [apply takes_char|]); intros y r ->; [left|right]; reflexivity. }
  eapply takes_lexeme in H; [|exact T]. destruct H as (-> & Hx). exists [x]. split; [|split; auto]. now apply LI_number, flag_number.
Qed.

(** *** Names *)
Definition namep (v : text) (l : list text) : Prop := l = [v] /\ (word v \/ delimited v).
Lemma before_name k v : identifier_before k v -> (word v \/ delimited v) /\ LI k v [v].
Proof. intros [(W & S & _)|(D & S)]; split; auto; [now apply LI_word|now apply LI_delimited]. Qed.
Lemma tok_ident : tokenizes s_identifier namep.
Proof.
  intros x k v H. apply identifier_inv in H as [E B]. apply app_inv_tail in E as ->. apply before_name in B as [N Hl].
  exists [v]. split; auto. split; auto.
Qed.
Lemma c0_ident : cont0 ident namep.
Proof. apply c0_lex, tok_ident. Qed.
Lemma takes_all_id : takes s_all_identifiers (fun x r => word x /\ stops word_char r).
Proof.
  intros acc i a r H. assert (T := H). unfold s_all_identifiers in T.
  eapply (takes_seq (SChr is_letter) (SStar (SChr is_idchar))) in T; [|apply takes_chr|apply takes_chars].
  destruct T as (x & -> & -> & y & z & -> & (c & -> & C) & F). exists ([c] ++ z). repeat split.
  - exists c, z. split; auto. split; [now apply is_letter_iff|]. eapply Forall_impl; [|exact F]. intros d. apply is_idchar_iff.
  - rewrite <- app_assoc in H. cbn [app srun s_all_identifiers] in H. rewrite C in H. cbn [length] in H.
    destruct r as [|d r]; [exact I|]. cbn. intros Wd. apply is_idchar_iff in Wd.
    exfalso. assert (G : forall z acc n a, Forall (fun c => is_idchar c = true) z -> sstar (srun (SChr is_idchar)) n acc (z ++ d :: r) = SOk a (d :: r) -> False).
    { clear - Wd. induction z as [|e z IH]; intros acc n a F H; cbn [app] in H; destruct n; cbn in H.
      - rewrite Wd in H. discriminate.
      - rewrite Wd in H. destruct (length r <? S (length r))%nat eqn:L; [|discriminate].
        assert (Hr : is_suffix (d :: r) r). { apply (star_takes (SChr is_idchar) _ eq_refl (takes_chr is_idchar)) in H as (xs & H & _). exists (concat xs). exact H. }
        destruct Hr as [p Hr]. apply (f_equal (@length ascii)) in Hr. rewrite app_length in Hr. cbn in Hr. lia.
      - inversion F; subst. rewrite H2 in H. discriminate.
      - inversion F; subst. rewrite H2 in H. destruct (_ <? _); [|discriminate]. eapply IH; eauto. }
    eapply G in H; eauto.
Qed.
Definition wordp (v : text) (l : list text) : Prop := l = [v] /\ word v.
Lemma c0_udf : cont0 (PLex s_udf_name) wordp.
Proof.
  apply c0_lex. intros x k v H. unfold lexeme, s_udf_name in H. rewrite run_alt in H.
  destruct (srun s_regular_identifier [] (x ++ k)) as [a1 i1|a1| |] eqn:E; try discriminate.
  - injection H as -> ->. eapply takes_diff in E; [|exact takes_all_id]. destruct E as (y & E & -> & W & S). apply app_inv_tail in E as ->.
    exists [y]. split; [now apply LI_word|split; auto].
  - assert (a1 = []) as ->. { eapply clean_ok in E; [exact E|reflexivity]. }
    eapply (tok_strs ["RIGHT"; "LEFT"; "UPPER"; "LOWER"; "DISTINCT"; "TRIM"]%string eq_refl x k v) in H as (l & Hl & -> & W & _).
    exists [v]. split; auto. split; auto.
Qed.

(** *** Values *)
Definition litp (v : text) (l : list text) : Prop := l = [v] /\ (number v \/ literal_parts v \/ word v).
Lemma c_literal : cont (PLex s_unsigned_literal) litp.
Proof.
  apply c_lex_dl. intros x k v H D. unfold lexeme, s_unsigned_literal in H. rewrite run_alt in H.
  destruct (srun s_unsigned_numeric [] (x ++ k)) as [a1 i1|a1| |] eqn:E; try discriminate.
  - injection H as -> ->. apply number_inv in E as (y & E & -> & N); auto. apply app_inv_tail in E as ->.
    exists [y]. split; [now apply LI_number|split; auto].
  - assert (C : a1 = [] \/ exists r, x ++ k = "."%char :: r).
    { destruct (x ++ k) as [|c r]; [left; cbn in E; congruence|]. destruct (ascii_dec c "."%char) as [->|N]; [eauto|left].
      unfold s_unsigned_numeric in E. rewrite run_alt in E.
      destruct (srun s_approximate_numeric [] (c :: r)) as [a2 i2|a2| |] eqn:E2; try discriminate.
      unfold s_approximate_numeric in E2. apply clean_ok in E2 as ->; [|reflexivity].
      unfold s_exact_numeric in E. rewrite run_alt in E.
      destruct (srun (SSeq s_unsigned_integer (SOpt (SSeq (chr ".") s_unsigned_integer))) [] (c :: r)) as [a3 i3|a3| |] eqn:E3; try discriminate.
      apply clean_ok in E3 as ->; [|reflexivity]. rewrite run_seq in E. cbn in E. apply Ascii.eqb_neq in N. rewrite N in E. congruence. }
    rewrite run_alt in H. destruct C as [->|(r & C)].
    + destruct (srun s_character_string [] (x ++ k)) as [a2 i2|a2| |] eqn:E2; try discriminate.
      * injection H as -> ->. apply takes_string in E2 as (y & E2 & -> & P). apply app_inv_tail in E2 as ->.
        exists [y]. split; [now apply LI_literal|split; auto].
      * assert (C : a2 = [] \/ exists r, x ++ k = quote :: r).
        { destruct (x ++ k) as [|c r]; [left; cbn in E2; congruence|]. destruct (ascii_dec c quote) as [->|N]; [eauto|left].
          unfold s_character_string in E2. rewrite run_seq in E2. cbn [srun chr] in E2. apply Ascii.eqb_neq in N. rewrite N in E2. congruence. }
        destruct C as [->|(r & C)]; [|rewrite C in H; discriminate H].
        eapply (tok_strs ["True"; "False"]%string eq_refl x k v) in H as (l & Hl & -> & W & _). exists [v]. split; auto. split; auto.
    + rewrite C in H. discriminate H.
Qed.
Definition digitsp (v : text) (l : list text) : Prop := l = [v] /\ digits v.
Lemma c0_digits : cont0 (PLex s_unsigned_integer) digitsp.
Proof.
  apply c0_lex. intros x k v H. eapply takes_lexeme in H; [|apply takes_digits]. destruct H as (-> & D).
  exists [x]. split; [apply LI_number; now left; left|split; auto].
Qed.
Definition realp (v : text) (l : list text) : Prop := l = [v] /\ real_number v.
Lemma c0_dbl : cont0 PDbl realp.
Proof.
  intros t k v (sp & -> & W & D) _. apply dbl_inv in D as [_ R]. exists [v]. split; [|split; auto].
  apply lexes_prefix; [now apply spaces_white|now apply LI_real].
Qed.
Definition topp (v : N) (l : list text) : Prop := exists d, l = [d] /\ digits d /\ decimal d = v.
Lemma c0_top : cont0 PTop topp.
Proof.
  intros t k v (sp & ds & -> & W & D) _. unfold ulong in D. destruct (span is_digit (ds ++ k)) as [d r] eqn:Sp.
  destruct d as [|c d]; [discriminate|]. cbn [is_nil] in D. destruct (_ <? _)%N; [|discriminate]. injection D as <- ->.
  apply span_digit in Sp as (F & E). apply app_inv_tail in E as ->. exists [c :: d]. split.
  - apply lexes_prefix; [now apply spaces_white|]. apply LI_number. left; left. split; [discriminate|auto].
  - exists (c :: d). repeat split; auto; [discriminate|]. now rewrite dec_value_decimal.
Qed.
End Tokens.
