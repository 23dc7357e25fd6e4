(** Identifiers, literals and numbers as value expressions (C06-C09). *)
From Verif Require Import Query PegProps PegSpec PegEquiv Gen TextLemmas SpecLexical LexProofs LexProofs2 First Calc.

Ltac by_byte := let c := fresh "c" in intros c; destruct c as [[] [] [] [] [] [] [] []]; vm_compute; try congruence; auto.

(** ** Word lists on words *)
Fixpoint first_str (ws : list string) (i : text) : option (text * text) :=
  match ws with [] => None | w :: ws' => match strip true (L w) i with Some x => Some x | None => first_str ws' i end end.
Lemma strs_run ws acc i : srun (strs_nc ws) acc i = match first_str ws i with Some (u, r) => SOk (acc ++ u) r | None => SFail acc end.
Proof.
  induction ws as [|w ws IH]; [destruct i; reflexivity|]. cbn [first_str]. unfold strs_nc. cbn [map alts srun].
  destruct (strip true (L w) i) as [[u r]|]; [reflexivity|]. exact IH.
Qed.
Lemma first_str_in ws i u r : first_str ws i = Some (u, r) -> exists w, In w ws /\ i = u ++ r /\ upper u = upper (L w).
Proof.
  induction ws as [|w ws IH]; [discriminate|]. cbn [first_str]. destruct (strip true (L w) i) as [[u' r']|] eqn:E.
  - intros H; injection H as -> ->. apply strip_nc_iff in E as [-> U]. exists w. repeat split; auto. now left.
  - intros H. destruct (IH H) as (w' & I & R). exists w'. split; auto. now right.
Qed.
Definition words_ok (ws : list string) (w : text) : Prop := forall u, In u ws -> all_id (L u) = true /\ upper w <> upper (L u).
Lemma strs_word ws w k : words_ok ws w -> Forall word_char w -> stops word_char k ->
  srun (strs_nc ws) [] (w ++ k) = SFail [] \/ exists u c r, srun (strs_nc ws) [] (w ++ k) = SOk u (c :: r) /\ is_idchar c = true.
Proof.
  intros W F K. rewrite strs_run. destruct (first_str ws (w ++ k)) as [[u r]|] eqn:E; [right|now left].
  apply first_str_in in E as (x & Hx & E & U). destruct (W x Hx) as [A N].
  assert (all_id u = true) as Au by (rewrite <- all_id_upper, U, all_id_upper; exact A).
  destruct (word_prefix w k u r E K Au) as (w' & -> & ->). destruct w' as [|c w'].
  - exfalso. apply N. rewrite app_nil_r. exact U.
  - exists u, c, (w' ++ k). split; [reflexivity|]. apply Forall_app in F as [_ F]. inversion F; subst. now apply is_idchar_iff.
Qed.
Lemma held_word ws w k : words_ok ws w -> Forall word_char w -> stops word_char k ->
  srun (SHold (SSeq (strs_nc ws) ahead_nonid)) [] (w ++ k) = SFail [].
Proof.
  intros W F K. cbn [srun]. destruct (strs_word ws w k W F K) as [->|(u & c & r & -> & C)]; [reflexivity|].
  cbn [ahead_nonid srun]. unfold ahead_nonid. cbn [srun]. now rewrite C.
Qed.
Lemma kw_word u w k : words_ok [u] w -> Forall word_char w -> stops word_char k ->
  strip true (L u) (w ++ k) = None \/ exists x c r, strip true (L u) (w ++ k) = Some (x, c :: r) /\ is_idchar c = true.
Proof.
  intros W F K. destruct (strs_word [u] w k W F K) as [H|(x & c & r & H & C)]; rewrite strs_run in H; cbn [first_str] in H;
    destruct (strip true (L u) (w ++ k)) as [[a b]|]; try discriminate; auto.
  injection H as H1 H2. subst. right. eauto 6.
Qed.
Lemma reserved_ne ws w : ~ reserved w -> forallb (fun u => all_id (L u) && mem (upper (L u)) (sql_words ++ adql_words)) ws = true -> words_ok ws w.
Proof.
  intros R F u Hu. apply (proj1 (forallb_forall _ _) F) in Hu. apply andb_true_iff in Hu as [A M]. split; auto.
  intros E. apply R. unfold reserved. rewrite E. now apply mem_iff.
Qed.

Ltac inner := repeat match goal with |- Calc.fails _ (PSeq (PSeq _ _) _) _ => apply fails_seq1 end.
Section Operand.
Variable m : text -> option text.
Notation reads := (reads m).
Notation fails := (fails m).

Lemma idchar_lit c s i r : is_idchar c = true -> skip r = c :: i -> match L s with [] => False | a :: _ => is_idchar a = false end -> fails (lit s) r.
Proof.
  intros C E H. apply fails_lit. rewrite E. destruct (L s) as [|a l]; [contradiction|]. cbn.
  destruct (Ascii.eqb a c) eqn:Ea; [|reflexivity]. apply Ascii.eqb_eq in Ea as ->. congruence.
Qed.
Lemma skip_id c i : is_idchar c = true -> skip (c :: i) = c :: i.
Proof. intros C. cbn. now rewrite idchar_space. Qed.

(** What follows. *)
Lemma after_value_lit k s : after_value k -> In (L s) (map L ["."; "("; "["; "*"; "/"; "+"; "-"; "||"]%string) -> strip false (L s) (skip k) = None.
Proof.
  intros (b & r & -> & Wb & Sr & N) H. assert (skip (b ++ r) = r) as ->.
  { assert (Hs : forall c, is_space c = true <-> (9 <= N_of_ascii c <= 13 \/ N_of_ascii c = 32)%N).
    { intros c. unfold is_space, code. rewrite orb_true_iff, andb_true_iff, !N.leb_le, N.eqb_eq. reflexivity. }
    induction Wb as [|c b Hc _ IH]; cbn.
    - destruct r as [|c r]; [reflexivity|]. cbn in *. destruct (is_space c) eqn:E; [|reflexivity]. apply Hs in E. contradiction.
    - apply Hs in Hc. now rewrite Hc. }
  destruct (strip false (L s) r) as [[x y]|] eqn:E; [|reflexivity]. apply strip_cs_iff in E as [-> ->]. exfalso. eapply N; [exact H|].
  exists y. reflexivity.
Qed.
Lemma after_operators k r : after_value k -> skip r = skip k -> fails (g_term m) r.
Proof.
  intros K E. apply fails_map, fails_seq1. eapply fails_lex; [reflexivity|]. rewrite E.
  assert (srun s_binary_operators [] (skip k) = SFail []) as ->; [|reflexivity].
  unfold s_binary_operators, strs_cs. cbn [map alts srun].
  rewrite !(after_value_lit k) by (auto; repeat first [left; reflexivity | right]). destruct (skip k); reflexivity.
Qed.
Lemma after_index k r : after_value k -> skip r = skip k -> fails g_array_index r.
Proof.
  intros K E. apply fails_map, fails_seq1, fails_seq1, fails_lit. rewrite E. apply after_value_lit; auto. repeat first [left; reflexivity | right].
Qed.
Lemma after_lit k r s : after_value k -> skip r = skip k -> In (L s) (map L ["."; "("; "["; "*"; "/"; "+"; "-"; "||"]%string) -> fails (lit s) r.
Proof. intros K E H. apply fails_lit. rewrite E. now apply after_value_lit. Qed.

(** A primary expression without anything around it is a value expression. *)
Lemma primary_reads i v k : after_value k ->
  srun s_sign [] (skip i) = SFail [] ->
  (forall r, skip r = skip i -> fails (g_numeric_value_function m) r) ->
  (forall r, skip r = skip i -> reads
     (g_array_constructor <|> (PLex s_unsigned_literal ==> VP_str) <|> (g_column_reference m ==> VP_col) <|>
      g_set_function_specification <|> g_case_expression <|> g_any_expression <|>
      (PLex s_null_cast ==> VP_str) <|> (PLex s_null_literal ==> VP_str) <|> g_value_subexpression) r v (skip k)) ->
  reads p_venb i (VENB (Factor [] (NP_vep (VEP v []))) []) (skip k).
Proof.
  intros K Sg Nv Pv. apply (reads_rule m R_venb).
  apply (reads_map m _ _ i (Factor [] (NP_vep (VEP v [])), []) _ _); [|reflexivity].
  eapply (reads_seq m (g_factor m) (PStar (g_term m)) i (Factor [] (NP_vep (VEP v []))) (skip k) [] (skip k)).
  - apply (reads_map m _ _ i ([], NP_vep (VEP v [])) _ _); [|reflexivity].
    eapply (reads_seq m _ _ i [] (skip i) (NP_vep (VEP v []))); [eapply reads_olex_none; [reflexivity|exact Sg]|].
    intros r Er. apply reads_alt2; [apply fails_map, Nv, Er|]. intros r2 Er2. apply (reads_map m _ _ r2 (VEP v [])); [|reflexivity].
    apply (reads_map m _ _ r2 (v, [])); [|reflexivity]. eapply (reads_seq m _ _ r2 v (skip k) [] (skip k)); [apply Pv; congruence|].
    intros r3 Er3. rewrite <- Er3. apply reads_star_nil. eapply after_index; eauto.
  - intros r Er. rewrite <- Er. apply reads_star_nil. eapply after_operators; eauto.
Qed.

(** *** Columns *)
Lemma ident_reads v k r : identifier_before k v -> skip r = v ++ k -> reads ident r v (skip k).
Proof. intros H E. eapply reads_lex; [reflexivity|]. rewrite E. now apply identifier_run. Qed.
Lemma ident_dot v k r : identifier_before k v -> after_value k -> skip r = v ++ k -> fails (ident >> lit ".") r.
Proof.
  intros H K E. eapply fails_seq2; [eapply ident_reads; eauto|]. intros r2 E2. eapply after_lit; eauto. repeat first [left; reflexivity | right].
Qed.
Lemma tap_upload_no v k : identifier_before k v -> ~ (word v /\ reserved v) -> srun (s_tap_upload m) [] (v ++ k) = SFail [].
Proof.
  intros H R. unfold s_tap_upload. cbn [srun]. destruct (strip false (L "TAP_UPLOAD.") (v ++ k)) as [[x y]|] eqn:E; [exfalso|reflexivity].
  apply strip_cs_iff in E as [-> E]. change (L "TAP_UPLOAD.") with (L "TAP_UPLOAD" ++ ["."%char]) in E. rewrite <- app_assoc in E. cbn [app] in E.
  destruct H as [(W & K & F)|(D & K)].
  - destruct (word_prefix v k (L "TAP_UPLOAD") ("."%char :: y) E K eq_refl) as (w' & -> & E2). destruct w' as [|c w'].
    + rewrite app_nil_r in *. apply R. split; auto. apply mem_iff. vm_compute. reflexivity.
    + injection E2 as <- ->. apply word_chars in W. apply Forall_app in W as [_ W]. inversion W as [|? ? Wc _]; subst.
      apply is_idchar_iff in Wc. discriminate.
  - destruct (delimited_starts v D) as (b & ->). discriminate.
Qed.
Lemma column_reads v k i : identifier_before k v -> ~ (word v /\ reserved v) -> after_value k -> skip i = v ++ k ->
  reads (g_column_reference m) i (CR1 v) (skip k).
Proof.
  intros H R K E. apply reads_alt2; [apply fails_map; inner; eapply ident_dot; eauto|].
  intros r1 E1. apply reads_alt2; [apply fails_map; inner; eapply ident_dot; eauto; congruence|].
  intros r2 E2. apply reads_alt2.
  - apply fails_map, fails_seq1. eapply (fails_seq2 m _ _ r2 v (skip k)).
    + apply reads_alt2; [eapply fails_lex; [reflexivity|]; rewrite E2, E1, E; now apply tap_upload_no|].
      intros r3 E3. eapply ident_reads; eauto; congruence.
    + intros r3 E3. eapply after_lit; eauto. repeat first [left; reflexivity | right].
  - intros r3 E3. eapply reads_map; [|reflexivity]. eapply ident_reads; eauto; congruence.
Qed.

Lemma words_lit_no ws w k r s : words_ok ws w -> Forall word_char w -> stops word_char k -> skip r = w ++ k ->
  match L s with [] => False | a :: _ => is_idchar a = false end -> fails (PLex (strs_nc ws) >> lit s) r.
Proof.
  intros W F K E S. destruct (strs_word ws w k W F K) as [H|(u & c & x & H & C)].
  - apply fails_seq1. eapply fails_lex; [|rewrite E; exact H]. clear; unfold strs_nc; induction ws; cbn; auto.
  - eapply fails_seq2; [eapply reads_lex; [|rewrite E; exact H]; clear; unfold strs_nc; induction ws; cbn; auto|].
    intros r2 E2. rewrite skip_id in E2 by exact C. eapply idchar_lit; eauto.
Qed.
Lemma kw_lit_no u w k r s : words_ok [u] w -> Forall word_char w -> stops word_char k -> skip r = w ++ k ->
  match L s with [] => False | a :: _ => is_idchar a = false end -> fails (kw u >> lit s) r.
Proof.
  intros W F K E S. destruct (kw_word u w k W F K) as [H|(x & c & y & H & C)].
  - apply fails_seq1. apply fails_lit. now rewrite E.
  - eapply fails_seq2; [eapply reads_lit; rewrite E; exact H|]. intros r2 E2. rewrite skip_id in E2 by exact C. eapply idchar_lit; eauto.
Qed.

(** A word that is free of the exceptions is a column. *)
Lemma word_no_function w k i : word w -> ~ reserved w -> ~ read_as_value w -> stops word_char k -> after_value k -> skip i = w ++ k ->
  fails (g_numeric_value_function m) i.
Proof.
  intros W R V K A E. pose proof (word_chars w W) as F.
  assert (cot : upper w <> L "COT") by (intros H; apply V; right; right; now right).
  apply fails_alt; [|intros r1 E1; apply fails_alt; [|intros r2 E2; apply fails_alt; [|intros r3 E3; apply fails_alt; [|intros r4 E4; apply fails_alt; [|intros r5 E5]]]]].
  - apply fails_alt; [|intros r1 E1].
    + apply fails_map. repeat apply fails_exp1. eapply fails_lex; [reflexivity|]. rewrite E. apply held_word; auto.
      intros u Hu. destruct (string_dec u "COT") as [->|N]; [split; auto|]. revert u Hu N.
      assert (words_ok ["ACOS"; "ASIN"; "ATAN"; "COS"; "SIN"; "TAN"]%string w) as H by (apply reserved_ne; [exact R|vm_compute; reflexivity]).
      intros u Hu N. apply H. clear - Hu N. cbn [In] in *. intuition congruence.
    + apply fails_map. repeat apply fails_exp1. eapply fails_lex; [reflexivity|]. rewrite E1, E. apply held_word; auto.
      apply reserved_ne; [exact R|vm_compute; reflexivity].
  - apply fails_alt; [|intros r2 E2; apply fails_alt; [|intros r3 E3]]; apply fails_map; inner;
      eapply words_lit_no; eauto; try (apply reserved_ne; [exact R|vm_compute; reflexivity]); try reflexivity; congruence.
  - apply fails_map. inner. eapply kw_lit_no; eauto; try (apply reserved_ne; [exact R|vm_compute; reflexivity]); try reflexivity; congruence.
  - apply fails_alt; [|intros r4 E4]; apply fails_map; repeat apply fails_exp1; (eapply fails_lex; [reflexivity|]);
      rewrite ?E4, ?E3, ?E2, ?E1, ?E; apply held_word; auto; (apply reserved_ne; [exact R|vm_compute; reflexivity]).
  - apply fails_map. inner. eapply fails_seq2; [eapply (reads_lex m s_udf_name _ w k); [reflexivity|]|].
    + rewrite ?E4, ?E3, ?E2, ?E1, ?E. unfold s_udf_name, s_regular_identifier. cbn [srun]. rewrite free_word_not_keyword by auto.
      rewrite all_identifiers_run by auto. reflexivity.
    + intros r5 E5. eapply after_lit; eauto. repeat first [left; reflexivity | right].
  - apply fails_map. eapply fails_lex; [reflexivity|]. rewrite ?E5, ?E4, ?E3, ?E2, ?E1, ?E. unfold s_no_arg_function. rewrite strs_run.
    cbn [first_str]. destruct (strip true (L "CURRENT_TIMESTAMP") (w ++ k)) as [[x y]|] eqn:Es; [exfalso|reflexivity].
    apply strip_nc_iff in Es as [Es U]. destruct (word_prefix w k x y Es K) as (w' & -> & _); [rewrite <- all_id_upper, U; reflexivity|].
    apply V. right. right. left. exists x, w'. auto.
Qed.
Lemma word_no_literal w k acc : word w -> ~ read_as_value w -> stops word_char k -> exists a, srun s_unsigned_literal acc (w ++ k) = SFail a.
Proof.
  intros W V K. destruct (word_starts w W) as (c & w0 & Ew & Lc).
  assert (Hc : forall e, sclass e (Some c) = C_fail -> swf e = true -> forall acc, exists a, srun e acc (w ++ k) = SFail a).
  { intros e He We acc'. pose proof (sclass_ok e acc' (w ++ k)) as H. rewrite Ew in *. cbn [app hd_of] in H. rewrite He in H. destruct H as (a & H).
    exists a. apply sev_iff in H; auto. }
  unfold s_unsigned_literal. cbn [srun].
  destruct (Hc s_unsigned_numeric) with (acc := acc) as (a1 & ->); [revert c Lc Hc Ew; clear; intros c Lc _ _; revert c Lc; by_byte|reflexivity|].
  destruct (Hc s_character_string) with (acc := a1) as (a2 & ->); [revert c Lc Hc Ew; clear; intros c Lc _ _; revert c Lc; by_byte|reflexivity|].
  exists a2. unfold s_boolean_literal. rewrite strs_run. cbn [first_str].
  assert (forall u, all_id (L u) = true -> ~ begins_nc (L u) w -> strip true (L u) (w ++ k) = None) as H.
  { intros u A B. destruct (strip true (L u) (w ++ k)) as [[x y]|] eqn:Es; [exfalso|reflexivity]. apply strip_nc_iff in Es as [Es U].
    destruct (word_prefix w k x y Es K) as (w' & -> & _); [rewrite <- all_id_upper, U, all_id_upper; exact A|]. apply B. exists x, w'. auto. }
  rewrite !H; auto; intros (x & y & -> & U); apply V; [right; left|left]; exists x, y; auto.
Qed.
Lemma word_no_array w k i : word w -> stops word_char k -> after_value k -> skip i = w ++ k -> fails g_array_constructor i.
Proof.
  intros W K A E. apply fails_map, fails_exp1, fails_seq1. pose proof (word_chars w W) as F.
  destruct (text_dec (upper w) (L "ARRAY")) as [U|U].
  - eapply (fails_seq2 m _ _ i tt (skip k)).
    + eapply reads_lit. rewrite E. apply strip_nc_iff. split; [reflexivity|]. rewrite U. reflexivity.
    + intros r Er. eapply after_lit; eauto. repeat first [left; reflexivity | right].
  - eapply kw_lit_no; eauto; [|reflexivity]. intros u [<-|[]]. split; [reflexivity|exact U].
Qed.
Lemma sign_none c i : c <> "+"%char -> c <> "-"%char -> srun s_sign [] (c :: i) = SFail [].
Proof. intros H1 H2. apply Ascii.eqb_neq in H1, H2. unfold s_sign. cbn. now rewrite H1, H2. Qed.
Definition column_value (v : text) : venb := VENB (Factor [] (NP_vep (VEP (VP_col (CR1 v)) []))) [].
Definition literal_value (v : text) : venb := VENB (Factor [] (NP_vep (VEP (VP_str v) []))) [].
Lemma word_column w k i : word w -> ~ reserved w -> ~ read_as_value w -> stops word_char k -> after_value k -> skip i = w ++ k ->
  reads p_venb i (column_value w) (skip k).
Proof.
  intros W R V K A E. destruct (word_starts w W) as (c & w0 & Ew & Lc). apply primary_reads; auto.
  - rewrite E, Ew. apply sign_none; intros ->; discriminate.
  - intros r Er. eapply word_no_function; eauto. congruence.
  - intros r Er. apply reads_alt2; [eapply word_no_array; eauto; congruence|]. intros r1 E1.
    destruct (word_no_literal w k [] W V K) as (a & Ha).
    apply reads_alt2; [apply fails_map; eapply fails_lex; [reflexivity|]; rewrite E1, Er, E; exact Ha|]. intros r2 E2.
    apply reads_alt1. eapply reads_map; [|reflexivity]. eapply column_reads; eauto; [left; auto|tauto|congruence].
Qed.
Lemma delimited_column d k i : delimited d -> stops (fun c => c = dq) k -> after_value k -> skip i = d ++ k ->
  reads p_venb i (column_value d) (skip k).
Proof.
  intros D K A E. destruct (delimited_starts d D) as (b & Ed).
  assert (hd : forall r, skip r = skip i -> hd_of (skip r) = Some dq) by (intros r ->; rewrite E, Ed; reflexivity).
  apply primary_reads; auto.
  - rewrite E, Ed. apply sign_none; discriminate.
  - intros r Er. apply reads_first. rewrite hd by exact Er. vm_compute. reflexivity.
  - intros r Er. apply reads_alt2; [apply reads_first; rewrite hd by exact Er; vm_compute; reflexivity|]. intros r1 E1.
    apply reads_alt2; [apply reads_first; rewrite hd by congruence; vm_compute; reflexivity|]. intros r2 E2.
    apply reads_alt1. eapply reads_map; [|reflexivity]. eapply column_reads; eauto; [right; auto| |congruence].
    intros [W _]. destruct (word_starts d W) as (c & w0 & Ew & Lc). rewrite Ew in Ed. injection Ed as -> _. discriminate.
Qed.
Lemma literal_reads s k i : srun s_unsigned_literal [] (s ++ k) = SOk s k -> after_value k -> skip i = s ++ k ->
  (match hd_of s with Some c => is_digit c = true \/ c = "."%char \/ c = sq | None => False end) ->
  reads p_venb i (literal_value s) (skip k).
Proof.
  intros H A E C. destruct s as [|c s]; [contradiction|]. cbn [hd_of] in C.
  assert (hd : forall r, skip r = skip i -> hd_of (skip r) = Some c) by (intros r ->; rewrite E; reflexivity).
  assert (Hf : gclass m (g_numeric_value_function m) (Some c) = C_fail /\ gclass m g_array_constructor (Some c) = C_fail).
  { destruct C as [C|[->| ->]]; [|split; vm_compute; reflexivity..]. revert c C hd H E. clear. intros c C _ _ _.
    revert c C. by_byte. }
  apply primary_reads; auto.
  - rewrite E. apply sign_none; destruct C as [C|[->| ->]]; try discriminate; intros ->; discriminate.
  - intros r Er. apply reads_first. rewrite hd by exact Er. apply Hf.
  - intros r Er. apply reads_alt2; [apply reads_first; rewrite hd by exact Er; apply Hf|]. intros r1 E1.
    apply reads_alt1. eapply reads_map; [|reflexivity]. eapply reads_lex; [reflexivity|]. rewrite E1, Er, E. exact H.
Qed.
Lemma number_value t k i : number t -> after_number k -> after_value k -> skip i = t ++ k -> reads p_venb i (literal_value t) (skip k).
Proof.
  intros N K A E. apply literal_reads; auto; [now apply number_literal_run|].
  destruct (number_starts t N) as (c & t' & -> & [C|C]); cbn; auto.
Qed.
Lemma string_value s k i : string_literal s -> no_more_literal k -> after_value k -> skip i = s ++ k -> reads p_venb i (literal_value s) (skip k).
Proof.
  intros N K A E. apply literal_reads; auto; [now apply string_literal_run|]. destruct N as (b & -> & _). cbn. auto.
Qed.
End Operand.
