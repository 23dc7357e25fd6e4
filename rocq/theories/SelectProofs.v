(** Whole queries "select x from t" (C06-C09, C11). *)
From Verif Require Import Query PegProps PegSpec PegEquiv Gen TextLemmas SpecLexical Spec LexProofs LexProofs2 First Calc Operand QueryProofs.

Lemma strip_kw u t r : upper t = upper (L u) -> strip true (L u) (t ++ r) = Some (t, r).
Proof. intros H. apply strip_nc_iff. auto. Qed.
Lemma skip_dark c i : is_space c = false -> skip (c :: i) = c :: i.
Proof. intros H. cbn. now rewrite H. Qed.

Lemma strip_ne a l c i : a <> c -> strip false (a :: l) (c :: i) = None.
Proof. intros H. cbn [strip eq_ch]. apply Ascii.eqb_neq in H. now rewrite H. Qed.
Section Select.
Variable tm : mapping.
Notation m := (lookup tm).
Notation reads := (reads m).
Notation fails := (fails m).

(** A table name that is a plain identifier, at the end of the text. *)
Definition plain_table (t : text) : Prop := identifier_before [] t /\ ~ (word t /\ reserved t).
Lemma identifier_dark k v : identifier_before k v -> exists c v', v = c :: v' /\ (is_letter c = true \/ c = dq).
Proof.
  intros [(W & _)|(D & _)]; [destruct (word_starts v W) as (c & w & -> & H)|destruct (delimited_starts v D) as (b & ->)]; eauto.
Qed.
Lemma identifier_skip k v : identifier_before k v -> skip (v ++ k) = v ++ k.
Proof.
  intros H. destruct (identifier_dark k v H) as (c & v' & -> & [C| ->]); [|reflexivity]. apply skip_dark, idchar_space, letter_idchar, C.
Qed.
(** table_name on an identifier that no point follows *)
Lemma table_name_run v k : identifier_before k v -> ~ (word v /\ reserved v) -> stops (fun c => c = "."%char) k ->
  srun (s_table_name m) [] (v ++ k) = SOk v k.
Proof.
  intros H R K. unfold s_table_name. cbn [srun]. rewrite tap_upload_no by auto. rewrite identifier_run by auto.
  assert (srun (chr ".") v k = SFail v) as Hd.
  { destruct k as [|c k]; [reflexivity|]. cbn in *. destruct (Ascii.eqb c ".") eqn:E; [apply Ascii.eqb_eq in E; contradiction|reflexivity]. }
  unfold chr in Hd. cbn [srun chr] in *. rewrite Hd, identifier_run, Hd by auto. now rewrite identifier_run.
Qed.
Lemma qualifier_star_no v k : identifier_before k v -> ~ (word v /\ reserved v) -> stops (fun c => c = "."%char) k ->
  exists a, srun (s_qualifier_star m) [] (v ++ k) = SFail a.
Proof.
  intros H R K. unfold s_qualifier_star. cbn [srun]. rewrite table_name_run by auto. exists v.
  destruct k as [|c k]; [reflexivity|]. cbn [stops] in K. change (L ".*") with ["."; "*"]%char. now rewrite strip_ne by congruence.
Qed.
Lemma swf_table_name : swf (s_table_name m) = true. Proof. reflexivity. Qed.

Lemma correlation_reads t r : plain_table t -> skip r = t -> reads (g_table_correlation m) r (t, []) [].
Proof.
  intros [H R] E. apply (reads_map m _ _ r (t, None)); [|reflexivity].
  apply (reads_seq m _ _ r t [] None []).
  - change ([] : text) with (skip []). eapply reads_lex; [reflexivity|]. rewrite E, <- (app_nil_r t) at 1. now apply table_name_run.
  - intros r1 E1. rewrite <- E1. apply reads_none. apply reads_first. rewrite E1. vm_compute. reflexivity.
Qed.
Lemma tref_reads t r : plain_table t -> skip r = t -> reads p_tref r (TR_tc t []) [].
Proof.
  intros P E. pose proof P as [H R]. destruct (identifier_dark [] t H) as (c & t' & Et & C).
  assert (par : forall r, skip r = t -> fails (lit "(") r).
  { intros r1 E1. apply fails_lit. rewrite E1, Et. apply strip_ne. destruct C as [C| ->]; [|discriminate]. intros <-. discriminate. }
  apply (reads_rule m R_tref). apply reads_alt2.
  - apply fails_map. apply (fails_rule m R_jt). apply fails_alt.
    + apply fails_map. eapply (fails_seq2 m _ _ r (QH_tc t []) []).
      * apply reads_alt2; [apply fails_map, fails_seq1, fails_seq1, par, E|]. intros r1 E1.
        apply (reads_map m _ _ r1 (t, [])); [|reflexivity]. apply correlation_reads; auto. congruence.
      * intros r1 E1. apply reads_first. rewrite E1. vm_compute. reflexivity.
    + intros r1 E1. apply fails_map, fails_seq1, fails_seq1, par. congruence.
  - intros r1 E1. apply reads_alt1. apply (reads_map m _ _ r1 (t, [])); [|reflexivity]. apply correlation_reads; auto. congruence.
Qed.
(** " from t" *)
Definition from (t : text) : text := L " from " ++ t.
Lemma from_reads t r : plain_table t -> skip r = skip (from t) -> reads g_from_clause r [TR_tc t []] [].
Proof.
  intros P E. pose proof P as [H R]. apply (reads_map m _ _ r ([], [TR_tc t []])); [|reflexivity].
  eapply (reads_exp m _ _ r [] t [TR_tc t []]).
  - assert (skip (" "%char :: t) = t) as <-; [cbn; rewrite <- (app_nil_r t); now apply identifier_skip|].
    eapply reads_lex; [reflexivity|]. rewrite E. reflexivity.
  - intros r1 E1. eapply (reads_list m _ _ r1 (TR_tc t []) [] [] []); [apply tref_reads; auto|].
    intros r2 E2. rewrite <- E2. apply readsl_stop. apply reads_first. rewrite E2. vm_compute. reflexivity.
Qed.
Lemma after_from t : after_value (from t).
Proof.
  exists [" "%char], (L "from " ++ t). split; [reflexivity|]. split; [repeat constructor; right; reflexivity|].
  split; [cbn; lia|]. intros o Ho (r & E). cbn [map In] in Ho. repeat destruct Ho as [<-|Ho]; try contradiction; discriminate.
Qed.

(** What a select list item has to satisfy. *)
Record item (x : text) (w : venb) (k : text) : Prop := {
  item_first : exists c x', x = c :: x' /\ is_space c = false /\ c <> "*"%char;
  item_value : forall i, skip i = x ++ k -> reads p_venb i w (skip k);
  item_quantifier : srun s_set_quantifier [] (x ++ k) = SFail [];
  item_top : srun (kw_soft "TOP") [] (x ++ k) = SFail [];
  item_star : exists a, srun (s_qualifier_star m) [] (x ++ k) = SFail a }.

Lemma item_columns x w t r : item x w (from t) -> skip r = x ++ from t -> reads (g_columns m) r (C_list [CV_ve (VE_nb w)]) (skip (from t)).
Proof.
  intros [(c & x' & Ex & Sp & St) V _ _ (a & Qs)] E. 
  assert (Ve : forall r, skip r = x ++ from t -> reads p_ve r (VE_nb w) (skip (from t))).
  { intros r1 E1. apply (reads_rule m R_ve). apply reads_alt1. apply (reads_map m _ _ r1 w); [|reflexivity]. auto. }
  apply reads_alt2.
  - apply fails_map. eapply fails_lex; [reflexivity|]. rewrite E, Ex. unfold strs_cs. cbn [map alts srun app].
    change (L "*") with ["*"%char]. rewrite strip_ne by congruence. reflexivity.
  - intros r1 E1. apply (reads_map m _ _ r1 [CV_ve (VE_nb w)]); [|reflexivity].
    apply (reads_list m _ _ r1 _ (skip (from t)) [] (skip (from t))).
    + apply reads_alt2.
      * apply fails_map, fails_exp1. eapply (fails_seq2 m _ _ r1 (VE_nb w)); [apply Ve; congruence|].
        intros r2 E2. apply reads_first. rewrite E2. vm_compute. reflexivity.
      * intros r2 E2. apply reads_alt2; [apply fails_map; eapply fails_lex; [reflexivity|]; rewrite E2, E1, E; exact Qs|].
        intros r3 E3. apply (reads_map m _ _ r3 (VE_nb w)); [|reflexivity]. apply Ve. congruence.
    + intros r2 E2. rewrite <- E2. apply readsl_stop. apply reads_first. rewrite E2. vm_compute. reflexivity.
Qed.

Definition query_of (c : columns) (t : text) (top : N) : qspec :=
  QS None (SFW (Select [] top c) [TR_tc t []] (Where None None)) [] [] None [].
(** Everything around the select list. *)
Lemma around i c t top : plain_table t -> hd_of (skip i) = Some "s"%char ->
  (forall r, skip r = skip i -> reads (g_select m) r (Select [] top c) (skip (from t))) ->
  reads (g_query m) i (query_of c t top) [].
Proof.
  intros P Hd Hs.
  assert (none : forall {A : Set} (e : PE A) r, skip r = [] -> gclass m e None = C_fail -> reads (POpt e) r None []).
  { intros A e r E G. rewrite <- E. apply reads_none. apply reads_first. rewrite E. exact G. }
  apply (reads_map m _ _ i (None, (SFW (Select [] top c) [TR_tc t []] (Where None None), []), None, None, None)); [|reflexivity].
  eapply (reads_seq m _ _ i _ [] None []); [eapply (reads_seq m _ _ i _ [] None []); [eapply (reads_seq m _ _ i _ [] None []); [eapply (reads_seq m _ _ i None (skip i))|]|]|].
  - apply reads_none. apply reads_first. rewrite Hd. vm_compute. reflexivity.
  - intros r E. apply (reads_seq m _ _ r (SFW (Select [] top c) [TR_tc t []] (Where None None)) [] [] []).
    + apply (reads_map m _ _ r (Select [] top c, ([TR_tc t []], None))); [|reflexivity].
      eapply (reads_exp m _ _ r _ (skip (from t))); [apply Hs, E|]. intros r1 E1.
      apply (reads_seq m _ _ r1 [TR_tc t []] [] None []); [apply from_reads; auto|]. intros r2 E2. apply none; [exact E2|vm_compute; reflexivity].
    + intros r1 E1. rewrite <- E1. apply reads_star_nil. apply reads_first. rewrite E1. vm_compute. reflexivity.
  - intros r E. apply none; [exact E|vm_compute; reflexivity].
  - intros r E. apply none; [exact E|vm_compute; reflexivity].
  - intros r E. apply none; [exact E|vm_compute; reflexivity].
Qed.
Lemma parse_of i q : reads (g_query m) i q [] -> parse_it tm i = Q_ok q.
Proof. intros (r & H & E). apply parse_it_ok. exists r. split; auto. now apply skip_white. Qed.

Definition select1 (x t : text) : text := L "select " ++ x ++ from t.
Lemma select1_parses x w t : item x w (from t) -> plain_table t ->
  parse_it tm (select1 x t) = Q_ok (query_of (C_list [CV_ve (VE_nb w)]) t top_none).
Proof.
  intros I P. apply parse_of, around; auto. intros r E.
  pose proof I as [(c & x' & Ex & Sp & _) _ Qu Tp _].
  assert (Es : skip (x ++ from t) = x ++ from t) by (rewrite Ex; apply skip_dark, Sp).
  apply (reads_map m _ _ r ([], [], None, C_list [CV_ve (VE_nb w)])); [|reflexivity].
  apply (reads_exp m _ _ r _ (x ++ from t)).
  - apply (reads_seq m _ _ r _ (x ++ from t)); [apply (reads_seq m _ _ r _ (x ++ from t))|].
    + rewrite <- Es. change (skip (x ++ from t)) with (skip (" "%char :: x ++ from t)). eapply reads_lex; [reflexivity|]. rewrite E. reflexivity.
    + intros r1 E1. rewrite <- E1. eapply reads_olex_none; [reflexivity|]. rewrite E1. exact Qu.
    + intros r1 E1. rewrite <- E1. apply reads_none. apply fails_map, fails_exp1. eapply fails_lex; [reflexivity|]. rewrite E1. exact Tp.
  - intros r1 E1. apply (item_columns x); auto.
Qed.

(** ** The four kinds of items *)
Lemma held_space ws w k : words_ok ws w -> Forall word_char w -> stops word_char k -> srun (SHold (SSeq (strs_nc ws) ahead_space)) [] (w ++ k) = SFail [].
Proof.
  intros W F K. cbn [srun]. destruct (strs_word ws w k W F K) as [->|(u & c & r & -> & C)]; [reflexivity|].
  unfold ahead_space. cbn [srun]. now rewrite idchar_space.
Qed.
Lemma word_item w t : word w -> ~ reserved w -> ~ read_as_value w -> item w (column_value w) (from t).
Proof.
  intros W R V. pose proof (word_chars w W) as F. destruct (word_starts w W) as (c & w0 & Ew & Lc).
  assert (K : stops word_char (from t)) by (cbn; intros [H|[H|H]]; [| |discriminate]; revert H; unfold letter, digit; cbn; lia).
  constructor.
  - exists c, w0. repeat split; auto; [now apply idchar_space, letter_idchar|intros ->; discriminate].
  - intros i E. apply word_column; auto. apply after_from.
  - apply held_space; auto. apply reserved_ne; [exact R|vm_compute; reflexivity].
  - unfold kw_soft. cbn [srun]. destruct (kw_word "TOP" w (from t)) as [->|(x & d & y & -> & D)]; auto; [apply reserved_ne; [exact R|vm_compute; reflexivity]|].
    unfold ahead_space. cbn [srun]. now rewrite idchar_space.
  - apply qualifier_star_no; [left; auto|tauto|discriminate].
Qed.
Lemma held_class e acc i : sclass e (hd_of i) = C_fail -> swf e = true -> srun (SHold e) acc i = SFail acc.
Proof.
  intros H W. pose proof (sclass_ok e acc i) as S. rewrite H in S. destruct S as (a & S). apply sev_iff in S; auto. cbn [srun]. now rewrite S.
Qed.
Lemma class_fail e acc i : sclass e (hd_of i) = C_fail -> swf e = true -> exists a, srun e acc i = SFail a.
Proof. intros H W. pose proof (sclass_ok e acc i) as S. rewrite H in S. destruct S as (a & S). apply sev_iff in S; eauto. Qed.
Lemma top_no c i : upc c <> "T"%char -> srun (kw_soft "TOP") [] (c :: i) = SFail [].
Proof.
  intros H. unfold kw_soft. cbn [srun L list_ascii_of_string strip eq_ch]. unfold eq_nc. change (upc "T") with "T"%char.
  assert (Ascii.eqb "T" (upc c) = false) as -> by (apply Ascii.eqb_neq; congruence). reflexivity.
Qed.
Lemma delimited_item d t : delimited d -> item d (column_value d) (from t).
Proof.
  intros D. destruct (delimited_starts d D) as (b & Ed).
  assert (K : stops (fun c => c = dq) (from t)) by discriminate.
  constructor.
  - exists dq, b. repeat split; auto. discriminate.
  - intros i E. apply delimited_column; auto. apply after_from.
  - rewrite Ed. apply held_class; reflexivity.
  - rewrite Ed. apply top_no. discriminate.
  - apply qualifier_star_no; [right; auto| |discriminate]. intros [W _]. destruct (word_starts d W) as (c & w0 & Ew & Lc).
    rewrite Ew in Ed. injection Ed as -> _. discriminate.
Qed.
Lemma number_item n t : number n -> item n (literal_value n) (from t).
Proof.
  intros N. destruct (number_starts n N) as (c & n' & En & C).
  assert (Hc : is_space c = false /\ c <> "*"%char /\ upc c <> "T"%char /\
     sclass (SSeq (strs_nc ["DISTINCT"; "ALL"]%string) ahead_space) (Some c) = C_fail /\ sclass (s_qualifier_star m) (Some c) = C_fail).
  { destruct C as [C| ->]; [|repeat split; try discriminate; reflexivity]. clear - C. revert c C. intros c C.
    split; [revert c C; by_byte|]. split; [intros ->; discriminate|]. split; [revert c C; by_byte|]. split; revert c C; by_byte. }
  destruct Hc as (H1 & H2 & H3 & H4 & H5). constructor.
  - exists c, n'. auto.
  - intros i E. apply number_value; auto; [|apply after_from]. cbn. intros [[H|[H|H]]|H]; try discriminate; revert H; unfold letter, digit; cbn; lia.
  - rewrite En. apply held_class; [exact H4|reflexivity].
  - rewrite En. apply top_no. exact H3.
  - rewrite En. apply class_fail; [exact H5|reflexivity].
Qed.
Lemma string_item s t : string_literal s -> item s (literal_value s) (from t).
Proof.
  intros N. pose proof N as (b & Es & _). constructor.
  - exists sq, (b ++ [sq]). repeat split; auto. discriminate.
  - intros i E. apply string_value; auto; [|apply after_from]. exists [" "%char], (L "from " ++ t). repeat split.
    + repeat constructor.
    + cbn. intros [H|[H|H]]; discriminate.
    + intros (r & H). discriminate.
  - rewrite Es. apply held_class; reflexivity.
  - rewrite Es. apply top_no. discriminate.
  - rewrite Es. apply class_fail; reflexivity.
Qed.
(** Printed. *)
Lemma print_column fmt v t : to_string fmt (query_of (C_list [CV_ve (VE_nb (column_value v))]) t top_none) = L "SELECT " ++ v ++ L " FROM " ++ t.
Proof. cbn. unfold pr_tc. cbn. rewrite !app_nil_r. reflexivity. Qed.
Lemma print_literal fmt v t : to_string fmt (query_of (C_list [CV_ve (VE_nb (literal_value v))]) t top_none) = L "SELECT " ++ v ++ L " FROM " ++ t.
Proof. cbn. unfold pr_tc. cbn. rewrite !app_nil_r. reflexivity. Qed.
End Select.
