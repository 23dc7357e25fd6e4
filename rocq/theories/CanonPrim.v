(** Primary values that are printed are read back. *)
From Verif Require Import Grammar Print PegProps PegSpec PegEquiv TextLemmas SpecLexical LexProofs LexProofs2 First Calc Look Tight Operand TopProofs SpecCanon PrintEq CanonBase CanonLex CanonGeo CanonHead CanonLead CanonFun.

Section Prim.
Variable m : text -> option text.
Variable fmt : text -> text.
Notation reads := (reads m).
Notation fails := (fails m).
Notation EV := (ev (g_body m) _).
Notation arg := (arg m fmt).
Notation g_nvf := (g_numeric_value_function m).
Notation g_prim := (g_array_constructor <|> (PLex s_unsigned_literal ==> VP_str) <|> (g_column_reference m ==> VP_col) <|>
   g_set_function_specification <|> g_case_expression <|> g_any_expression <|>
   (PLex s_null_cast ==> VP_str) <|> (PLex s_null_literal ==> VP_str) <|> g_value_subexpression).
Definition cond (s : sc) : Prop := forall i k, astop k = true -> skip i = skip (pr_sc fmt s ++ k) -> reads p_sc i s (skip k).
Definition res (r : result) : Prop := forall i k, astop k = true -> skip i = skip (pr_result fmt r ++ k) -> reads g_result i r (skip k).
(** a primary value is not read as a function and is read as a primary value *)
Definition prim (v : vepv) (i k : text) : Prop := fails g_nvf i /\ reads g_prim i v (skip k).

Ltac lookp p H := eapply look_fail; [eapply (starts_text p); [|exact H]|]; reflexivity.
Ltac pass p H := apply reads_alt2; [lookp p H|let r0 := fresh "y" in let E := fresh "E" in intros r0 E; rewrite <- E in H; clear E].
Ltac arg_by A Hr := let Z := fresh in pose proof (fun Z => A _ _ Z Hr) as Z; apply Z; reflexivity.

Lemma rd_array l i k : l <> [] -> Forall arg l -> skip i = skip (pr_vepv fmt (VP_array l) ++ k) -> prim (VP_array l) i k.
Proof.
  intros N A H. rewrite pr_vepv_VP_array, <- !app_assoc in H. split; [lookp (L "ARRAY[") H|]. apply reads_alt1.
  eapply reads_map with (v := (tt, tt, l, tt)); [|reflexivity]. eapply reads_exp; [eapply reads_seq; [eapply reads_seq|]|].
  - eapply rd_kw with (t := L "ARRAY"); [reflexivity..|exact H]. - intros r Hr. eapply rd_lit; [|exact Hr]. reflexivity.
  - intros r Hr. eapply rd_args; [exact N|exact A| | |exact Hr]; reflexivity. - intros r Hr. eapply rd_lit; [|exact Hr]. reflexivity.
Qed.
Lemma first_byte {A : Set} (e : PE A) i c t : skip i = c :: t -> gclass m e (Some c) = C_fail -> fails e i.
Proof. intros H C. apply reads_first. rewrite H. exact C. Qed.
Lemma rd_literal s i k c t : s = c :: t -> existsb (Ascii.eqb c) (L ".0123456789'") = true -> srun s_unsigned_literal [] (s ++ k) = SOk s k -> skip i = skip (s ++ k) -> prim (VP_str s) i k.
Proof.
  intros -> C R H. assert (D : is_space c = false) by (revert C; clear; destruct c as [[] [] [] [] [] [] [] []]; vm_compute; congruence).
  assert (G : forall r, skip r = skip i -> fails g_nvf r /\ fails g_array_constructor r).
  { intros r Hr. rewrite H in Hr. cbn [app] in Hr. rewrite (dark_skip0 (c :: t ++ k)) in Hr by exact D. apply existsb_exists in C as (x & I & X). apply Ascii.eqb_eq in X as <-.
    split; (eapply first_byte; [exact Hr|]); cbn in I; repeat (destruct I as [<-|I]; [reflexivity|]); destruct I. }
  split; [now apply G|]. apply reads_alt2; [now apply G|]. intros r E. apply reads_alt1. eapply reads_map with (v := c :: t); [|reflexivity].
  eapply reads_lex; [reflexivity|]. rewrite E, H. rewrite dark_skip by exact D. exact R.
Qed.
Lemma rd_number s i k : is_number s = true -> stop1 k = true -> skip i = skip (s ++ k) -> prim (VP_str s) i k.
Proof.
  intros N K H. apply is_number_ok in N. destruct (number_starts s N) as (c & t & E & C). eapply rd_literal; [exact E| | |exact H].
  - destruct C as [C| ->]; [|reflexivity]. revert C. clear. destruct c as [[] [] [] [] [] [] [] []]; vm_compute; congruence.
  - apply number_literal_run; [exact N|now apply stop1_number].
Qed.
Lemma rd_string s i k : is_quoted sq s = true -> no_more_literal k -> skip i = skip (s ++ k) -> prim (VP_str s) i k.
Proof.
  intros N K H. apply is_quoted_ok in N. pose proof N as (b & E & _). eapply rd_literal; [exact E|reflexivity| |exact H]. now apply string_literal_run.
Qed.
(** words of which the letter case in the grammar does not matter *)
Lemma strip_up s i : strip true (upper s) i = strip true s i.
Proof.
  revert i. induction s as [|a s IH]; intros [|b i]; auto. change (upper (a :: s)) with (upc a :: upper s). cbn [strip]. rewrite IH. assert (eq_ch true (upc a) b = eq_ch true a b) as ->; [|reflexivity].
  unfold eq_ch, eq_nc. f_equal. destruct a as [[] [] [] [] [] [] [] []]; reflexivity.
Qed.
Lemma strs_up ws ws' acc i : map (fun w => upper (L w)) ws = map (fun w => upper (L w)) ws' -> srun (strs_nc ws) acc i = srun (strs_nc ws') acc i.
Proof.
  revert ws' acc. induction ws as [|w ws IH]; intros [|w' ws'] acc E; try discriminate; [reflexivity|]. cbn [map] in E. injection E as E1 E2.
  change (srun (SAlt (SStr true (L w)) (strs_nc ws)) acc i = srun (SAlt (SStr true (L w')) (strs_nc ws')) acc i). cbn [srun].
  rewrite <- (strip_up (L w)), <- (strip_up (L w')), E1. destruct (strip _ _ _) as [[x y]|]; [reflexivity|]. now apply IH.
Qed.
Lemma rd_bool s i k : one_of_nc s ["TRUE"; "FALSE"]%string = true -> stop1 k = true -> skip i = skip (s ++ k) -> prim (VP_str s) i k.
Proof.
  intros I K H. apply one_of_nc_iff in I. assert (W : word s) by (eapply listed_word; [|exact I]; reflexivity). apply stop1_bnd in K.
  assert (G : forall r, skip r = skip i -> fails g_nvf r /\ fails g_array_constructor r).
  { intros r Hr. rewrite H in Hr. split; (eapply look_fail; [eapply starts_bnd; [exact K|exact Hr]|]); cbn in I; repeat (destruct I as [<-|I]; [reflexivity|]); destruct I. }
  split; [now apply G|]. apply reads_alt2; [now apply G|]. intros r E. apply reads_alt1. eapply reads_map with (v := s); [|reflexivity].
  eapply reads_lex; [reflexivity|]. rewrite E, H. rewrite dark_skip by now apply word_dark'.
  assert (N : srun s_unsigned_numeric [] (s ++ k) = SFail [] /\ srun s_character_string [] (s ++ k) = SFail []).
  { destruct s as [|c s]; [destruct I as [I|[I|[]]]; discriminate I|]. assert (C : existsb (Ascii.eqb c) (L "TtFf") = true).
    { destruct I as [I|[I|[]]]; injection I as I _; revert I; clear; destruct c as [[] [] [] [] [] [] [] []]; vm_compute; congruence. }
    apply existsb_exists in C as (x & J & X). apply Ascii.eqb_eq in X as <-. cbn in J. repeat (destruct J as [<-|J]; [split; reflexivity|]). destruct J. }
  destruct N as [N1 N2]. unfold s_unsigned_literal. cbn [srun]. rewrite N1, N2.
  unfold s_boolean_literal. rewrite (strs_up _ ["TRUE"; "FALSE"]%string) by reflexivity.
  apply strs_pick; [|now left|reflexivity]. cbn in I. repeat (destruct I as [<-|I]; [reflexivity|]); destruct I.
Qed.

(** the names of the list [I : In (upper f) ...] *)
Ltac names I := cbn [map In] in I; repeat (destruct I as [I|I]); [..|destruct I]; symmetry in I.
Lemma rd_null s i k : one_of_nc s ["NULL"]%string = true -> stop1 k = true -> skip i = skip (s ++ k) -> prim (VP_str s) i k.
Proof.
  intros I K H. apply one_of_nc_iff in I. assert (W : word s) by (eapply listed_word; [|exact I]; reflexivity). apply stop1_bnd in K. names I.
  assert (S : forall r, skip r = skip i -> starts_as true r (L "NULL")) by (intros r Hr; rewrite <- I; eapply starts_bnd; [exact K|now rewrite Hr]).
  split; [eapply look_fail; [now apply S|reflexivity]|].
  do 7 (apply reads_alt2; [eapply look_fail; [apply S; reflexivity|reflexivity]|let r0 := fresh "y" in let E := fresh "E" in intros r0 E; rewrite <- E in H, S; clear E]). apply reads_alt1.
  eapply reads_map with (v := s); [|reflexivity]. eapply reads_lex; [reflexivity|]. rewrite H, dark_skip by now apply word_dark'. apply strs_pick; [rewrite I; reflexivity|now left|reflexivity].
Qed.
Lemma rd_null_cast s i k : one_of_nc s ["NULL::CHAR"; "NULL::INT"; "NULL::FLOAT"]%string = true -> stop1 k = true -> skip i = skip (s ++ k) -> prim (VP_str s) i k.
Proof.
  intros I K H. apply one_of_nc_iff in I. apply stop1_bnd in K.
  assert (S : forall r, skip r = skip i -> starts_as true r (upper s)) by (intros r Hr; eapply starts_bnd; [exact K|now rewrite Hr]).
  assert (D : dark s). { apply dark_upper. names I; rewrite I; reflexivity. }
  assert (G : forall r, skip r = skip i -> fails g_nvf r /\ fails g_array_constructor r /\ fails (PLex s_unsigned_literal ==> VP_str) r /\ fails (g_column_reference m ==> VP_col) r /\
    fails g_set_function_specification r /\ fails g_case_expression r /\ fails g_any_expression r).
  { intros r Hr. specialize (S r Hr). repeat split; names I; rewrite I in S; (eapply look_fail; [exact S|reflexivity]). }
  split; [now apply G|].
  do 6 (apply reads_alt2; [now apply G|let r0 := fresh "y" in let E := fresh "E" in intros r0 E; rewrite <- E in H, G; clear E]). apply reads_alt1.
  eapply reads_map with (v := s); [|reflexivity]. eapply reads_lex; [reflexivity|]. rewrite H, dark_skip by exact D.
  unfold s_null_cast. rewrite (strs_up _ ["NULL::CHAR"; "NULL::INT"; "NULL::FLOAT"]%string) by reflexivity.
  apply strs_pick; [names I; rewrite I; reflexivity|now left|reflexivity].
Qed.
(** columns *)
Definition no_index (v : vepv) (k : text) : Prop := match v with VP_col (CR1 w) => upper w = L "ARRAY" -> nostart "[" k = true | _ => True end.
Lemma word_fails w k i : word w -> ~ reserved w -> ~ read_as_value w -> stops word_char k -> strip false (L "(") (skip k) = None -> (upper w = L "ARRAY" -> strip false (L "[") (skip k) = None) -> skip i = w ++ k ->
  fails g_nvf i /\ fails g_array_constructor i /\ fails (PLex s_unsigned_literal) i.
Proof.
  intros W R V K P B E. pose proof (word_chars w W) as F. assert (cot : upper w <> L "COT") by (intros H; apply V; right; right; now right).
  assert (X : forall r, skip r = skip i -> fails (g_trig_function) r /\ fails (g_math_function) r /\ fails g_cast_function r /\ fails (g_geo_function m) r).
  { intros r Hr. eapply free_no_builtin; [exact W|exact R|exact cot|exact K|]. congruence. }
  split; [|split].
  - apply fails_alt; [now apply X|]. intros r1 E1. apply fails_alt; [now apply X|]. intros r2 E2. apply fails_alt; [apply X; congruence|]. intros r3 E3. apply fails_alt; [apply X; congruence|]. intros r4 E4.
    apply fails_alt; [|intros r5 E5].
    + apply fails_map. inner. eapply fails_seq2; [eapply (reads_lex m s_udf_name _ w k); [reflexivity|]|].
      * replace (skip r4) with (w ++ k) by congruence. now apply udf_free_run.
      * intros r Hr. eapply no_lit; eauto.
    + apply fails_map. eapply fails_lex; [reflexivity|]. replace (skip r5) with (w ++ k) by congruence. unfold s_no_arg_function. rewrite strs_run.
      cbn [first_str]. destruct (strip true (L "CURRENT_TIMESTAMP") (w ++ k)) as [[x y]|] eqn:Es; [exfalso|reflexivity].
      apply strip_nc_iff in Es as [Es U]. destruct (word_prefix w k x y Es K) as (w' & -> & _); [rewrite <- all_id_upper, U; reflexivity|].
      apply V. right. right. left. exists x, w'. auto.
  - apply fails_map, fails_exp1, fails_seq1. destruct (text_dec (upper w) (L "ARRAY")) as [U|U].
    + eapply (fails_seq2 m _ _ i tt (skip k)).
      * eapply reads_lit. rewrite E. apply strip_nc_iff. split; [reflexivity|]. rewrite U. reflexivity.
      * intros r Er. eapply no_lit; [|exact Er]. auto.
    + eapply kw_lit_no; eauto; [|reflexivity]. intros u [<-|[]]. split; [reflexivity|exact U].
  - destruct (word_no_literal w k [] W V K) as (a & Ha). eapply fails_lex; [reflexivity|]. rewrite E. exact Ha.
Qed.
Lemma rd_col c i k : c_colref is_value_name c = true -> stop1 k = true -> no_index (VP_col c) k -> skip i = skip (pr_colref c ++ k) -> prim (VP_col c) i k.
Proof.
  intros C K X H. assert (CN : cnames (fun n => name n /\ (word n -> ~ read_as_value n)) c) by (eapply c_colref_ok; [|exact C]; apply value_name_ok). clear C.
  assert (Cn : cnames name c) by (eapply cnames_impl; [|exact CN]; now intros x []).
  assert (G : forall r, skip r = skip i -> fails g_nvf r /\ fails g_array_constructor r /\ fails (PLex s_unsigned_literal) r).
  { intros r Hr. rewrite H in Hr. destruct (colref_first c k) as (k' & E & HK). rewrite E in Hr. clear E H.
    assert (FN : name (first_part c) /\ (word (first_part c) -> ~ read_as_value (first_part c))) by (destruct c; cbn in CN |- *; tauto). destruct FN as [FN FV].
    assert (K' : stops word_char k' /\ strip false (L "(") (skip k') = None /\ (upper (first_part c) = L "ARRAY" -> strip false (L "[") (skip k') = None)).
    { destruct HK as [[-> [a ->]]|(z & ->)].
      - repeat split; [now apply stop1_word| |intros U].
        + unfold stop1 in K. ands. eapply nostart_lit; [eassumption|reflexivity].
        + cbn in X, U. eapply nostart_lit; [now apply X|reflexivity].
      - split; [now apply (no_word_char "." z)|split; [reflexivity|intros _; reflexivity]]. }
    destruct K' as (K1 & K2 & K3). destruct FN as [[W R]|D].
    - rewrite dark_skip in Hr by now apply word_dark'. eapply word_fails; eauto.
    - destruct (delimited_starts _ D) as (b & E). rewrite E in Hr. cbn [app] in Hr. change (skip (dq :: b ++ k')) with (dq :: b ++ k') in Hr. repeat split; (eapply first_byte; [exact Hr|reflexivity]). }
  split; [now apply G|]. apply reads_alt2; [now apply G|]. intros r1 E1. apply reads_alt2; [apply fails_map; apply G; congruence|]. intros r2 E2. apply reads_alt1.
  eapply reads_map with (v := c); [|reflexivity]. apply rd_colref; [exact Cn|now apply stop1_nstop|now apply stop1_nodot|congruence].
Qed.

(** set functions *)
Lemma upc_mark c x : upc c = x -> existsb (Ascii.eqb x) (L "(*)") = true -> c = x.
Proof. intros <-. destruct c as [[] [] [] [] [] [] [] []]; vm_compute; congruence. Qed.
Lemma rd_chr c i k : is_space c = false -> skip i = skip (c :: k) -> reads (PLex (chr c)) i [c] (skip k).
Proof. intros D H. eapply reads_lex; [reflexivity|]. rewrite H, dark_skip0 by exact D. cbn. now rewrite Ascii.eqb_refl. Qed.
Lemma rd_count_star s i k : one_of_nc s ["COUNT(*)"%string] = true -> skip i = skip (s ++ k) -> prim (VP_setstr s) i k.
Proof.
  intros I H. apply one_of_nc_iff in I. names I. assert (exists w, s = w ++ L "(*)" /\ upper w = L "COUNT") as (w & -> & U).
  { do 8 (destruct s as [|? s]; [discriminate I|]). destruct s; [|discriminate I]. injection I as E1 E2 E3 E4 E5 E6 E7 E8.
    apply upc_mark in E6, E7, E8; try reflexivity. subst. match goal with |- exists w, ?a :: ?b :: ?c :: ?d :: ?e :: _ = _ /\ _ => exists [a; b; c; d; e] end.
    split; [reflexivity|]. unfold upper. cbn [map]. now rewrite E1, E2, E3, E4, E5. }
  clear I. rewrite <- app_assoc in H. change (L "(*)" ++ k) with (L "(" ++ L "*)" ++ k) in H. assert (S : forall r, skip r = skip i -> starts_as false r (L "COUNT(")).
  { intros r Hr. change (L "COUNT(") with (L "COUNT" ++ L "("). rewrite <- U. eapply starts_call. rewrite Hr. exact H. }
  split; [eapply look_fail; [now apply S|reflexivity]|].
  do 3 (apply reads_alt2; [eapply look_fail; [apply S; reflexivity|reflexivity]|let r0 := fresh "y" in let E := fresh "E" in intros r0 E; rewrite <- E in H, S; clear E]). apply reads_alt1, reads_alt1.
  eapply reads_map with (v := w ++ L "(*)"); [|reflexivity]. eapply reads_map with (v := (w, L "(", L "*", L ")")); [|reflexivity].
  eapply reads_exp; [eapply reads_seq; [eapply reads_seq|]|].
  - eapply rd_name_call; [..|exact H]; try reflexivity. rewrite U. reflexivity.
  - intros r Hr. eapply rd_chr; [reflexivity|exact Hr]. - intros r Hr. eapply rd_chr; [reflexivity|exact Hr]. - intros r Hr. eapply rd_chr; [reflexivity|exact Hr].
Qed.
Lemma rd_set ty q a i k : one_of_nc ty ["AVG"; "COUNT"; "MAX"; "MIN"; "SUM"]%string = true -> is_nil q || one_of_nc q ["ALL"; "DISTINCT"]%string = true -> arg a -> lead (pr_ve fmt a ++ L ")" ++ k) ->
  skip i = skip (pr_vepv fmt (VP_set ty q a) ++ k) -> prim (VP_set ty q a) i k.
Proof.
  intros I Q A LA H. rewrite pr_vepv_VP_set, <- !app_assoc in H. apply one_of_nc_iff in I.
  assert (S : forall r, skip r = skip i -> starts_as false r (upper ty ++ L "(")) by (intros r Hr; eapply starts_call; rewrite Hr; exact H).
  assert (G : forall r, skip r = skip i -> fails g_nvf r /\ fails g_array_constructor r /\ fails (PLex s_unsigned_literal ==> VP_str) r /\ fails (g_column_reference m ==> VP_col) r).
  { intros r Hr. specialize (S r Hr). repeat split; names I; rewrite I in S; (eapply look_fail; [exact S|reflexivity]). }
  split; [now apply G|].
  do 3 (apply reads_alt2; [now apply G|let r0 := fresh "y" in let E := fresh "E" in intros r0 E; rewrite <- E in H, G, S; clear E]). apply reads_alt1.
  assert (QL : q = [] \/ In (upper q) (map L ["ALL"; "DISTINCT"]%string)) by (apply orb_true_iff in Q as [Q|Q]; [left; now destruct q|right; now apply one_of_nc_iff]). clear Q.
  apply reads_alt2.
  { apply fails_map, fails_map, fails_exp1. destruct (text_dec (upper ty) (L "COUNT")) as [U|U].
    - eapply fails_seq2; [eapply reads_seq|].
      + eapply rd_name_call; [..|exact H]; try reflexivity. rewrite U. reflexivity.
      + intros r Hr. eapply rd_chr; [reflexivity|exact Hr].
      + intros r Hr. destruct QL as [->|QL]; (eapply fails_lex; [reflexivity|]); rewrite Hr.
        * cbn [nl_sp is_nil app]. pose proof (lead_dark _ LA) as D. rewrite dark_skip0 by exact D. destruct (lead_hd _ LA) as (c & t & -> & C). cbn. assert (Ascii.eqb c "*" = false) as ->; [|reflexivity].
          revert C. clear. destruct c as [[] [] [] [] [] [] [] []]; vm_compute; intuition congruence.
        * assert (W : word q) by (eapply listed_word; [|exact QL]; reflexivity). destruct (word_starts q W) as (c & t & -> & C). cbn [nl_sp is_nil app]. rewrite skip_id by now apply letter_idchar. cbn.
          assert (Ascii.eqb c "*" = false) as ->; [|reflexivity]. revert C. clear. destruct c as [[] [] [] [] [] [] [] []]; vm_compute; congruence.
    - specialize (S _ eq_refl). apply fails_seq1, fails_seq1. names I; rewrite I in S, U; try (eapply look_fail; [exact S|reflexivity]). congruence. }
  intros r E. rewrite <- E in H. eapply reads_map with (v := (ty, tt, (q, a), tt)); [|reflexivity].
  eapply reads_exp; [eapply reads_exp; [eapply reads_seq|]|].
  - eapply rd_name_call; [..|exact H]; try reflexivity. names I; rewrite I; reflexivity.
  - intros r2 Hr. eapply rd_open; exact Hr.
  - intros r2 Hr. instantiate (1 := skip (L ")" ++ k)). eapply reads_seq with (j := skip (pr_ve fmt a ++ L ")" ++ k)).
    + destruct QL as [->|QL]; [now apply lead_no_quant|]. assert (W : word q) by (eapply listed_word; [|exact QL]; reflexivity). destruct q as [|x q]; [destruct W as (? & ? & ? & _); discriminate|].
      cbn [nl_sp is_nil] in Hr. rewrite <- app_assoc in Hr. eapply (reads_olex m _ _ (x :: q) (L " " ++ pr_ve fmt a ++ L ")" ++ k)); [reflexivity|]. rewrite Hr, dark_skip by now apply word_dark'.
      unfold s_set_quantifier. cbn [srun]. rewrite (strs_pick ["DISTINCT"; "ALL"]%string (x :: q)); [reflexivity| |left; reflexivity|reflexivity]. names QL; rewrite QL; reflexivity.
    + intros r3 H3. eapply A; [|exact H3]. reflexivity.
  - intros r2 Hr. eapply rd_close; exact Hr.
Qed.
Lemma rd_nullif a b i k : arg a -> arg b -> skip i = skip (pr_vepv fmt (VP_nullif a b) ++ k) -> prim (VP_nullif a b) i k.
Proof.
  intros A B H. rewrite pr_vepv_VP_nullif, <- !app_assoc in H. split; [lookp (L "NULLIF(") H|]. do 4 pass (L "NULLIF(") H. apply reads_alt1, reads_alt1, reads_alt1.
  eapply reads_map with (v := (tt, tt, a, tt, b, tt)); [|reflexivity]. eapply reads_seq; [eapply reads_seq; [eapply reads_seq; [eapply reads_seq; [eapply reads_seq|]|]|]|].
  - eapply rd_kw with (t := L "NULLIF"); [reflexivity..|exact H]. - intros r Hr. eapply rd_open; exact Hr. - intros r Hr. eapply A; [|exact Hr]. reflexivity.
  - intros r Hr. eapply rd_comma; exact Hr. - intros r Hr. eapply B; [|exact Hr]. reflexivity. - intros r Hr. eapply rd_close; exact Hr.
Qed.
Lemma rd_coalesce l i k : l <> [] -> Forall arg l -> skip i = skip (pr_vepv fmt (VP_coalesce l) ++ k) -> prim (VP_coalesce l) i k.
Proof.
  intros N A H. rewrite pr_vepv_VP_coalesce, <- !app_assoc in H. split; [lookp (L "COALESCE(") H|]. do 4 pass (L "COALESCE(") H. apply reads_alt1, reads_alt1. pass (L "COALESCE(") H.
  eapply reads_map with (v := (tt, tt, l, tt)); [|reflexivity]. eapply reads_seq; [eapply reads_seq; [eapply reads_seq|]|].
  - eapply rd_kw with (t := L "COALESCE"); [reflexivity..|exact H]. - intros r Hr. eapply rd_open; exact Hr.
  - intros r Hr. eapply rd_args; [exact N|exact A| | |exact Hr]; reflexivity. - intros r Hr. eapply rd_close; exact Hr.
Qed.
Lemma rd_any a i k : arg a -> skip i = skip (pr_vepv fmt (VP_any a) ++ k) -> prim (VP_any a) i k.
Proof.
  intros A H. rewrite pr_vepv_VP_any, <- !app_assoc in H. split; [lookp (L "ANY(") H|]. do 5 pass (L "ANY(") H. apply reads_alt1.
  eapply reads_map with (v := (tt, tt, a, tt)); [|reflexivity]. eapply reads_exp; [eapply reads_exp; [eapply reads_seq|]|].
  - eapply rd_kw with (t := L "ANY"); [reflexivity..|exact H]. - intros r Hr. eapply rd_open; exact Hr. - intros r Hr. eapply A; [|exact Hr]. reflexivity.
  - intros r Hr. eapply rd_close; exact Hr.
Qed.
Lemma rd_sub a i k : arg a -> skip i = skip (pr_vepv fmt (VP_sub a) ++ k) -> prim (VP_sub a) i k.
Proof.
  intros A H. rewrite pr_vepv_VP_sub, <- !app_assoc in H. split; [lookp (L "(") H|]. do 8 pass (L "(") H.
  eapply reads_map with (v := (tt, a, tt)); [|reflexivity]. eapply reads_seq; [eapply reads_seq|].
  - eapply rd_open; exact H. - intros r Hr. eapply A; [|exact Hr]. reflexivity. - intros r Hr. eapply rd_close; exact Hr.
Qed.

(** CASE *)
Lemma exp_exact {A B : Set} (a : PE A) (b : PE B) i va j vb x : reads a i va j -> (forall r, skip r = j -> EV b r (Ok vb x)) -> EV (PExp a b) i (Ok (va, vb) x).
Proof. intros (r & Ha & Hr) Hb. eapply ev_exp_ok; eauto. Qed.
Lemma exp_space {A : Set} (a : PE A) i v c k : EV a i (Ok v (c :: k)) -> is_space c = true -> reads (PExp a PSpace) i (v, tt) (skip k).
Proof. intros H S. eexists. split; [eapply ev_exp_ok; [exact H|now apply ev_space_ok]|]. now apply skip_space. Qed.
(** what follows the parts of CASE *)
Definition wstop (k : text) : Prop := exists k', k = L "WHEN " ++ k' \/ k = L "ELSE " ++ k' \/ k = L "END" ++ k'.
Lemma wstop_astop k : wstop k -> astop (L " " ++ k) = true.
Proof. intros (k' & [-> |[-> | ->]]); reflexivity. Qed.
Lemma rd_else r i k : res r -> skip i = skip (L "ELSE " ++ pr_result fmt r ++ L " END" ++ k) -> reads g_else_clause i r (skip (L "END" ++ k)).
Proof.
  intros R H. eapply reads_map with (v := (tt, tt, r)); [|reflexivity]. eapply reads_seq.
  - eapply (rd_kw_space m "ELSE" " "%char _ (pr_result fmt r ++ L " END" ++ k)); [reflexivity..|exact H].
  - intros r2 Hr. apply (R r2 (L " END" ++ k)); [reflexivity|exact Hr].
Qed.
Definition else_text (e : option result) : text := match e with None => [] | Some r => if result_empty r then [] else L "ELSE " ++ pr_result fmt r ++ L " " end.
Definition else_ok (e : option result) : Prop := match e with None => True | Some r => result_empty r = false /\ res r end.
Lemma rd_oelse e i k : else_ok e -> skip i = skip (else_text e ++ L "END" ++ k) -> reads (POpt g_else_clause) i e (skip (L "END" ++ k)).
Proof.
  destruct e as [r|]; cbn [else_ok else_text].
  - intros [N R] H. rewrite N in H. rewrite <- !app_assoc in H. apply reads_some. now apply rd_else.
  - intros _ H. cbn [app] in H. rewrite <- H. apply reads_none. lookp (L "END") H.
Qed.
Lemma else_wstop e k : else_ok e -> wstop (else_text e ++ L "END" ++ k).
Proof. destruct e as [r|]; cbn [else_ok else_text]; [intros [-> _]; rewrite <- !app_assoc; eexists; right; left; reflexivity|]. intros _. eexists. right. right. reflexivity. Qed.
Definition whenr {A : Set} (g : PE A) (pr : A -> text) (w : A) : Prop := forall i k, wstop k -> skip i = skip ((pr w ++ L " ") ++ k) -> reads g i w (skip k).
Lemma rd_swhen a r : arg a -> res r -> whenr g_simple_when (pr_swhen fmt) (SWhen a r).
Proof.
  intros A R i k K H. rewrite pr_swhen_SWhen, <- !app_assoc in H. apply wstop_astop in K. eapply reads_map with (v := (tt, tt, (a, tt), tt, r)); [|reflexivity].
  eapply reads_exp; [eapply exp_space with (c := " "%char) (k := pr_result fmt r ++ L " " ++ k); [|reflexivity]|].
  - eapply exp_exact; [eapply (rd_kw_space m "WHEN" " "%char); [reflexivity..|exact H]|]. intros r1 H1. eapply seq_exact.
    + arg_by A H1.
    + intros r2 H2. eapply (ev_kw m "THEN"); [reflexivity|exact H2].
  - intros r2 Hr. change (skip k) with (skip (L " " ++ k)). now apply (R r2 (L " " ++ k)).
Qed.
Lemma rd_qwhen c r : cond c -> res r -> whenr g_searched_when (pr_qwhen fmt) (QWhen c r).
Proof.
  intros A R i k K H. rewrite pr_qwhen_QWhen, <- !app_assoc in H. apply wstop_astop in K. eapply reads_map with (v := (tt, tt, c, tt, tt, r)); [|reflexivity].
  eapply reads_seq; [eapply seq_space with (c := " "%char) (k := pr_result fmt r ++ L " " ++ k); [|reflexivity]|].
  - eapply seq_exact; [eapply reads_seq; [eapply (rd_kw_space m "WHEN" " "%char); [reflexivity..|exact H]|]|].
    + intros r1 H1. arg_by A H1.
    + intros r2 H2. eapply (ev_kw m "THEN"); [reflexivity|exact H2].
  - intros r2 Hr. change (skip k) with (skip (L " " ++ k)). now apply (R r2 (L " " ++ k)).
Qed.
Lemma wstop_else {A : Set} (g : PE A) e i k : else_ok e -> glook m false g (L "ELSE ") = LFail -> glook m false g (L "END") = LFail -> skip i = skip (else_text e ++ L "END" ++ k) -> fails g i.
Proof.
  intros E G1 G2 H. destruct e as [r|]; cbn [else_ok else_text] in E, H.
  - destruct E as [E _]. rewrite E in H. rewrite <- !app_assoc in H. eapply look_fail; [eapply (starts_text (L "ELSE ")); [reflexivity|exact H]|exact G1].
  - eapply look_fail; [eapply (starts_text (L "END")); [reflexivity|exact H]|exact G2].
Qed.
Lemma rd_case x w e i k : arg x -> w <> [] -> Forall (whenr g_simple_when (pr_swhen fmt)) w -> else_ok e -> skip i = skip (pr_vepv fmt (VP_case x w e) ++ k) -> prim (VP_case x w e) i k.
Proof.
  intros A N W E H. rewrite pr_vepv_VP_case in H. fold (else_text e) in H. rewrite <- !app_assoc in H. split; [lookp (L "CASE ") H|]. do 4 pass (L "CASE ") H. apply reads_alt1. pass (L "CASE ") H.
  eapply reads_map with (v := (tt, tt, VP_case x w e)); [|reflexivity]. eapply reads_exp; [eapply (rd_kw_space m "CASE" " "%char); [reflexivity..|exact H]|].
  intros r Hr. apply reads_alt1. eapply reads_map with (v := (x, w, e, tt)); [|reflexivity]. eapply reads_exp; [eapply reads_seq; [eapply reads_seq|]|].
  - apply (A r (L " " ++ concat (map (fun w => pr_swhen fmt w ++ L " ") w) ++ else_text e ++ L "END" ++ k)); [|exact Hr].
    destruct w as [|[a1 r1] w]; [congruence|]. cbn [map concat]. rewrite pr_swhen_SWhen. reflexivity.
  - intros r2 H2. eapply (rd_plus m _ (fun w => pr_swhen fmt w ++ L " ") wstop); [exact N|exact W| | | |exact H2].
    + intros [a1 r1] t _. rewrite pr_swhen_SWhen, <- !app_assoc. eexists. left. reflexivity.
    + now apply else_wstop.
    + intros r3 H3. eapply wstop_else; eauto; reflexivity.
  - intros r3 H3. eapply rd_oelse; eauto.
  - intros r4 H4. eapply rd_kw with (t := L "END"); [reflexivity..|exact H4].
Qed.
Lemma rd_scase w e i k : w <> [] -> Forall (whenr g_searched_when (pr_qwhen fmt)) w -> else_ok e -> skip i = skip (pr_vepv fmt (VP_scase w e) ++ k) -> prim (VP_scase w e) i k.
Proof.
  intros N W E H. rewrite pr_vepv_VP_scase in H. fold (else_text e) in H. rewrite <- !app_assoc in H. split; [lookp (L "CASE ") H|]. do 4 pass (L "CASE ") H. apply reads_alt1. pass (L "CASE ") H.
  eapply reads_map with (v := (tt, tt, VP_scase w e)); [|reflexivity]. eapply reads_exp; [eapply (rd_kw_space m "CASE" " "%char); [reflexivity..|exact H]|].
  intros r Hr. apply reads_alt2.
  { destruct w as [|[a1 r1] w]; [congruence|]. cbn [map concat] in Hr. rewrite pr_qwhen_QWhen, <- !app_assoc in Hr. lookp (L "WHEN ") Hr. }
  intros r1 H1. rewrite <- H1 in Hr. clear r H1. eapply reads_map with (v := (w, e, tt, tt)); [|reflexivity]. eapply reads_seq; [|intros r4 H4; eapply rd_kw with (t := L "END"); [reflexivity..|exact H4]].
  assert (T : exists t, concat (map (fun w => pr_qwhen fmt w ++ L " ") w) ++ else_text e = t ++ L " ").
  { destruct e as [z|]; cbn [else_ok else_text] in *; [destruct E as [-> _]; rewrite !app_assoc; eauto|]. rewrite app_nil_r. destruct (exists_last N) as (w' & z & ->).
    rewrite map_app, concat_app. cbn [map concat]. rewrite app_nil_r, app_assoc. eauto. }
  assert (D : dark (concat (map (fun w => pr_qwhen fmt w ++ L " ") w) ++ else_text e ++ L "END" ++ k)).
  { destruct w as [|[a1 q1] w]; [congruence|]. cbn [map concat]. rewrite pr_qwhen_QWhen. reflexivity. }
  destruct T as (t & T). eapply (seq_space_after m _ _ _ t " "%char (L "END" ++ k)); [reflexivity|reflexivity| |].
  { rewrite Hr, dark_skip0 by exact D. rewrite (app_assoc (concat _) (else_text e)), T, <- app_assoc. reflexivity. }
  clear t T D. eapply reads_seq.
  - eapply (rd_plus m _ (fun w => pr_qwhen fmt w ++ L " ") wstop); [exact N|exact W| | | |exact Hr].
    + intros [a1 q1] z _. rewrite pr_qwhen_QWhen, <- !app_assoc. eexists. left. reflexivity.
    + now apply else_wstop.
    + intros r3 H3. eapply wstop_else; eauto; reflexivity.
  - intros r3 H3. eapply rd_oelse; eauto.
Qed.
End Prim.
