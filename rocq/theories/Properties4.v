(** C05-C09, C11: identifiers, columns, literals, numbers, TOP. *)
From Verif Require Import Query PegSpec TextLemmas Spec SpecLexical LexProofs LexProofs2 First Calc Operand SelectProofs TopProofs RewriteSound LexDec Properties3.

(** A text that is not touched in front of the parser (see C34). *)
Definition untouched (i : text) : Prop :=
  ~ occurs_nc (L "WHERE") i \/ (~ occurs_nc (L "CONTAINS") i /\ ~ occurs_nc (L "INTERSECTS") i).
Lemma untouched_query tm i r : untouched i -> parse_it tm i = r -> query tm i = r.
Proof. intros H. unfold query. now rewrite (not_rewritten i H). Qed.
(** "select [x] from [t]" *)
Definition select_from (x t : text) : text := L "select " ++ x ++ L " from " ++ t.
(** Its result: one item, one table, nothing else. *)
Definition only_item (c : columns) (top : N) (t : text) : qspec :=
  QS None (SFW (Select [] top c) [TR_tc t []] (Where None None)) [] [] None [].
Definition a_column (v : text) : venb := VENB (Factor [] (NP_vep (VEP (VP_col (CR1 v)) []))) [].
Definition a_literal (v : text) : venb := VENB (Factor [] (NP_vep (VEP (VP_str v) []))) [].
(** A table name: a word that is not reserved, or a delimited identifier. *)
Definition table_word (t : text) : Prop := (word t /\ ~ reserved t) \/ delimited t.
Lemma table_word_plain t : table_word t -> plain_table t.
Proof.
  intros [[W R]|D]; split; [left; split; [exact W|split; [exact I|now left]]|tauto|right; split; [exact D|exact I]|].
  intros [W _]. destruct (word_starts t W) as (c & w & E & C). destruct (delimited_starts t D) as (b & E'). rewrite E in E'. injection E' as -> _. discriminate.
Qed.

Example untouched_case : untouched (select_from (L """contains"", a") (L "t")) /\ untouched (L "select top 007 * from t").
Proof. split; left; apply find_nc_false; vm_compute; reflexivity. Qed.

(** ** C05: identifiers. *)
(** The identifier rule accepts exactly the words that are not reserved -- with the exceptions of
    [shadowed] and [end_exec_more] -- and the delimited identifiers, and takes them whole. *)
Theorem C05_identifiers_exactly :
  forall i v r, srun s_identifier [] i = SOk v r <-> i = v ++ r /\ identifier_before r v.
Proof. exact identifier_iff. Qed.
Print Assumptions C05_identifiers_exactly.
Theorem C05_other_words_are_identifiers :
  forall w k, word w -> ~ reserved w -> stops word_char k -> srun s_identifier [] (w ++ k) = SOk w k.
Proof. intros w k W R K. apply identifier_run. left. auto. Qed.
Print Assumptions C05_other_words_are_identifiers.
Theorem C05_reserved_words_rejected_partial :
  forall w k, word w -> reserved w -> stops word_char k -> ~ shadowed w -> ~ end_exec_more w k ->
    srun s_identifier [] (w ++ k) = SFail [].
Proof. intros w k W R K S N. exact (reserved_rejected w k W K R S N). Qed.
Print Assumptions C05_reserved_words_rejected_partial.
Example C05_case_free : word (L "selected_1") /\ ~ reserved (L "selected_1") /\ stops word_char (L ", b").
Proof.
  split; [|split].
  - apply word_dec. reflexivity.
  - apply reserved_no. vm_compute. reflexivity.
  - apply stops_dec. reflexivity.
Qed.
Example C05_case_reserved : reserved (L "SeLecT") /\ ~ shadowed (L "SeLecT") /\ ~ end_exec_more (L "SeLecT") [].
Proof.
  split; [|split].
  - apply reserved_yes. vm_compute. reflexivity.
  - apply shadowed_no. vm_compute. reflexivity.
  - intros [H _]. discriminate.
Qed.
(** Reserved words that are accepted as identifiers, for instance as the name of a table. *)
Theorem C05_shadowed_refuted :
  exists w q, word w /\ reserved w /\ query default_mapping (L "select * from " ++ w) = Q_ok q.
Proof.
  exists (L "area"). eexists. split; [|split].
  - apply word_dec. reflexivity.
  - apply reserved_yes. vm_compute. reflexivity.
  - vm_compute. reflexivity.
Qed.
Print Assumptions C05_shadowed_refuted.
(** Which ones: exactly the six of [shadowed], whatever follows. *)
Theorem C05_shadowed_words_accepted :
  forall w k, shadowed w -> stops word_char k -> word w /\ reserved w /\ srun s_identifier [] (w ++ k) = SOk w k.
Proof.
  intros w k S K. assert (W : word w).
  { assert (H : forall x y, upc x = y -> is_letter y = true -> letter x).
    { intros x y <- Hy. apply is_letter_iff. revert Hy. destruct x as [[] [] [] [] [] [] [] []]; cbn; congruence. }
    unfold shadowed in S. apply (proj2 (mem_iff _ shadowed_words)) in S.
    destruct w as [|c w]; [discriminate|]. exists c, w. split; [reflexivity|]. apply mem_iff in S. cbn [map In shadowed_words] in S.
    assert (all_id (c :: w) = true /\ is_letter (upc c) = true) as [A U].
    { rewrite <- all_id_upper. repeat destruct S as [S|S]; try contradiction; rewrite <- S; (split; [reflexivity|]);
        apply (f_equal (fun t => match t with x :: _ => is_letter x | [] => false end)) in S; cbn in S; now rewrite <- S. }
    split; [eapply H; [reflexivity|exact U]|]. apply all_id_iff in A. now inversion A. }
  split; [exact W|]. split; [now apply shadowed_reserved|]. apply identifier_run. left. auto.
Qed.
Print Assumptions C05_shadowed_words_accepted.

(** ** C06: words as columns. *)
(** In front of any text that ends the value, every word that is neither reserved nor one of the
    exceptions of [read_as_value] is read as a column. *)
Theorem C06_word_is_a_column_partial :
  forall tm w k, word w -> ~ reserved w -> ~ read_as_value w -> stops word_char k -> after_value k ->
    exists r, ev (g_body (lookup tm)) venb p_venb (w ++ k) (Ok (a_column w) r) /\ skip r = skip k.
Proof.
  intros tm w k W R V K A. apply (word_column (lookup tm) w k (w ++ k) W R V K A).
  destruct (word_starts w W) as (c & w' & -> & C). apply skip_dark. now apply idchar_space, letter_idchar.
Qed.
Print Assumptions C06_word_is_a_column_partial.
Theorem C06_selected_word_partial :
  forall tm fmt w t, word w -> ~ reserved w -> ~ read_as_value w -> table_word t -> untouched (select_from w t) ->
    query tm (select_from w t) = Q_ok (only_item (C_list [CV_ve (VE_nb (a_column w))]) top_none t) /\
    to_string fmt (only_item (C_list [CV_ve (VE_nb (a_column w))]) top_none t) = L "SELECT " ++ w ++ L " FROM " ++ t.
Proof.
  intros tm fmt w t W R V T U. split; [|exact (print_column fmt w t)]. apply untouched_query; [exact U|].
  apply select1_parses; [now apply word_item|now apply table_word_plain].
Qed.
Print Assumptions C06_selected_word_partial.
Example C06_case : ~ read_as_value (L "selected_1") /\ after_value (L " , b").
Proof.
  split.
  - intros [H|[H|[H|H]]]; [| | |discriminate]; destruct H as (x & y & E & U);
      (destruct x as [|x1 x]; [discriminate|]; injection E as <- E; discriminate).
  - exists [" "%char], (L ", b"). split; [reflexivity|]. split; [repeat constructor; now right|]. split; [cbn; lia|].
    intros o H (r & E). cbn [map In] in H. repeat destruct H as [<-|H]; try contradiction; discriminate.
Qed.
(** The exceptions are real: words that are not reserved and not accepted as a column. *)
Theorem C06_words_rejected :
  Forall (fun w => word w /\ ~ reserved w /\ forall q, query default_mapping (select_from w (L "t")) <> Q_ok q)
    [L "trueness"; L "falsely"; L "cot"; L "current_timestamp_x"].
Proof.
  assert (H : forall w, word_b w = true -> mem (upper w) (sql_words ++ adql_words) = false ->
     match query default_mapping (select_from w (L "t")) with Q_ok _ => false | _ => true end = true ->
     word w /\ ~ reserved w /\ forall q, query default_mapping (select_from w (L "t")) <> Q_ok q).
  { intros w A M Q. split; [now apply word_dec|]. split; [now apply reserved_no|]. intros q E. rewrite E in Q. discriminate. }
  repeat apply Forall_cons; try apply Forall_nil; apply H; vm_compute; reflexivity.
Qed.
Print Assumptions C06_words_rejected.
Theorem C06_word_rejected_refuted :
  exists w, word w /\ ~ reserved w /\ forall q, query default_mapping (select_from w (L "t")) <> Q_ok q.
Proof. exists (L "trueness"). exact (Forall_inv C06_words_rejected). Qed.
Print Assumptions C06_word_rejected_refuted.

(** ** C07: delimited identifiers. *)
Theorem C07_delimited_identifier_kept :
  forall d k, delimited d -> stops (fun c => c = dq) k -> srun s_identifier [] (d ++ k) = SOk d k.
Proof. intros d k D K. apply identifier_run. right. auto. Qed.
Print Assumptions C07_delimited_identifier_kept.
Theorem C07_delimited_column :
  forall tm d k, delimited d -> stops (fun c => c = dq) k -> after_value k ->
    exists r, ev (g_body (lookup tm)) venb p_venb (d ++ k) (Ok (a_column d) r) /\ skip r = skip k.
Proof.
  intros tm d k D K A. apply (delimited_column (lookup tm) d k (d ++ k) D K A).
  destruct (delimited_starts d D) as (b & ->). reflexivity.
Qed.
Print Assumptions C07_delimited_column.
Theorem C07_selected_delimited :
  forall tm fmt d t, delimited d -> table_word t -> untouched (select_from d t) ->
    query tm (select_from d t) = Q_ok (only_item (C_list [CV_ve (VE_nb (a_column d))]) top_none t) /\
    to_string fmt (only_item (C_list [CV_ve (VE_nb (a_column d))]) top_none t) = L "SELECT " ++ d ++ L " FROM " ++ t.
Proof.
  intros tm fmt d t D T U. split; [|exact (print_column fmt d t)]. apply untouched_query; [exact U|].
  apply select1_parses; [now apply delimited_item|now apply table_word_plain].
Qed.
Print Assumptions C07_selected_delimited.
Example C07_case : delimited (L """a """"from x""") /\ table_word (L """;t""").
Proof.
  split; [|right].
  - exists (L "a """"from x"). split; [reflexivity|]. split; [apply (doubled_dec 40); reflexivity|discriminate].
  - exists (L ";t"). split; [reflexivity|]. split; [apply (doubled_dec 40); reflexivity|discriminate].
Qed.

(** ** C08: string literals. *)
Theorem C08_string_literal_kept_partial :
  forall tm s k, string_literal s -> no_more_literal k -> after_value k ->
    exists r, ev (g_body (lookup tm)) venb p_venb (s ++ k) (Ok (a_literal s) r) /\ skip r = skip k.
Proof.
  intros tm s k S K A. apply (string_value (lookup tm) s k (s ++ k) S K A). destruct S as (b & -> & _). reflexivity.
Qed.
Print Assumptions C08_string_literal_kept_partial.
Theorem C08_selected_literal_partial :
  forall tm fmt s t, string_literal s -> table_word t -> untouched (select_from s t) ->
    query tm (select_from s t) = Q_ok (only_item (C_list [CV_ve (VE_nb (a_literal s))]) top_none t) /\
    to_string fmt (only_item (C_list [CV_ve (VE_nb (a_literal s))]) top_none t) = L "SELECT " ++ s ++ L " FROM " ++ t.
Proof.
  intros tm fmt s t S T U. split; [|exact (print_literal fmt s t)]. apply untouched_query; [exact U|].
  apply select1_parses; [now apply string_item|now apply table_word_plain].
Qed.
Print Assumptions C08_selected_literal_partial.
Example C08_case : string_literal (L "'it''s -- from "" x'") /\ no_more_literal (L " , b").
Proof.
  split.
  - exists (L "it''s -- from "" x"). split; [reflexivity|]. apply (doubled_dec 40); reflexivity.
  - exists [" "%char], (L ", b"). repeat split; [repeat constructor; now left|cbn; intros [H|[H|H]]; discriminate|]. intros (r & E). discriminate.
Qed.
(** The contents of a literal can trigger the rewriting of WHERE clauses. *)
Theorem C08_literal_rewritten_refuted :
  exists s, string_literal s /\ forall q, query default_mapping (select_from s (L "t")) <> Q_ok q.
Proof.
  exists (L "'where abc and contains'"). split.
  - exists (L "where abc and contains"). split; [reflexivity|]. apply (doubled_dec 40); reflexivity.
  - intros q. vm_compute. discriminate.
Qed.
Print Assumptions C08_literal_rewritten_refuted.

(** ** C09: numbers. *)
Theorem C09_number_kept :
  forall tm n k, number n -> after_number k -> after_value k ->
    exists r, ev (g_body (lookup tm)) venb p_venb (n ++ k) (Ok (a_literal n) r) /\ skip r = skip k.
Proof.
  intros tm n k N K A. apply (number_value (lookup tm) n k (n ++ k) N K A).
  destruct (number_starts n N) as (c & n' & -> & C). apply skip_dark. destruct C as [C| ->]; [|reflexivity].
  revert C. clear. destruct c as [[] [] [] [] [] [] [] []]; vm_compute; congruence.
Qed.
Print Assumptions C09_number_kept.
Theorem C09_selected_number :
  forall tm fmt n t, number n -> table_word t -> untouched (select_from n t) ->
    query tm (select_from n t) = Q_ok (only_item (C_list [CV_ve (VE_nb (a_literal n))]) top_none t) /\
    to_string fmt (only_item (C_list [CV_ve (VE_nb (a_literal n))]) top_none t) = L "SELECT " ++ n ++ L " FROM " ++ t.
Proof.
  intros tm fmt n t N T U. split; [|exact (print_literal fmt n t)]. apply untouched_query; [exact U|].
  apply select1_parses; [now apply number_item|now apply table_word_plain].
Qed.
Print Assumptions C09_selected_number.
Example C09_case : number (L "00.120e-007") /\ after_number (L " , b").
Proof.
  split.
  - right. exists (L "00.120"), (L "e-007"). split; [reflexivity|]. split.
    + right. left. exists (L "00"), (L "120"). split; [reflexivity|]. split; apply digits_dec; reflexivity.
    + exists "e"%char, (L "-"), (L "007"). split; [reflexivity|]. split; [auto|]. split; [auto|]. apply digits_dec; reflexivity.
  - cbn. intros [[H|[H|H]]|H]; try discriminate; revert H; unfold letter, digit; cbn; lia.
Qed.

(** ** C11: TOP. *)
(** Every accepted text that starts with SELECT [DISTINCT | ALL] TOP digits gives a query with that
    TOP and that quantifier; numbers from 2^64 on are rejected. *)
Theorem C11_top_is_the_number :
  forall tm sel b1 q b2 t b3 d c k qs,
    upper sel = L "SELECT" -> white b1 -> b1 <> [] ->
    (q = [] /\ b2 = []) \/ ((upper q = L "DISTINCT" \/ upper q = L "ALL") /\ white b2 /\ b2 <> []) ->
    upper t = L "TOP" -> white b3 -> b3 <> [] -> digits d -> is_space c = true ->
    untouched (sel ++ b1 ++ q ++ b2 ++ t ++ b3 ++ d ++ c :: k) ->
    query tm (sel ++ b1 ++ q ++ b2 ++ t ++ b3 ++ d ++ c :: k) = Q_ok qs ->
    (decimal d < 2 ^ 64)%N /\ exists cs ts w ad g h o, qs = QS None (SFW (Select q (decimal d) cs) ts w) ad g h o.
Proof.
  intros tm sel b1 q b2 t b3 d c k qs H1 H2 H3 H4 H5 H6 H7 H8 H9 U H.
  unfold query in H. rewrite (not_rewritten _ U) in H. exact (accepted_top tm sel b1 q b2 t b3 d c k qs H1 H2 H3 H4 H5 H6 H7 H8 H9 H).
Qed.
Print Assumptions C11_top_is_the_number.
Theorem C11_every_number_below_2_64_accepted :
  forall tm d t, digits d -> table_word t -> untouched (L "select top " ++ d ++ L " * from " ++ t) ->
    (query tm (L "select top " ++ d ++ L " * from " ++ t) = Q_ok (only_item (C_star (L "*")) (decimal d) t) <-> (decimal d < 2 ^ 64)%N).
Proof.
  intros tm d t D T U. split.
  - intros H. unfold query in H. rewrite (not_rewritten _ U) in H.
    eapply (accepted_top tm (L "select") (L " ") [] [] (L "top") (L " ") d " " (L "* from " ++ t)); try exact H; try reflexivity; try discriminate; auto; repeat constructor.
  - intros Lt. apply untouched_query; [exact U|]. apply top_query_parses; auto. now apply table_word_plain.
Qed.
Print Assumptions C11_every_number_below_2_64_accepted.
(** Printing gives a decimal numeral of the same value, when there was a TOP other than 2^64-1. *)
Theorem C11_top_printed_partial :
  forall fmt q n c, n <> (2 ^ 64 - 1)%N ->
    exists d, digits d /\ decimal d = n /\
      pr_select fmt (Select q n c) = L "SELECT " ++ (if is_nil q then [] else q ++ L " ") ++ L "TOP " ++ d ++ L " " ++ pr_columns fmt c.
Proof.
  intros fmt q n c N. exists (pr_N n). destruct (pr_N_decimal n) as [V D]. repeat split; try apply D; auto.
  change (pr_select fmt (Select q n c)) with (L "SELECT " ++ nl_sp q ++ (if (n =? top_none)%N then [] else L "TOP " ++ pr_N n ++ L " ") ++ pr_columns fmt c).
  assert ((n =? top_none)%N = false) as -> by now apply N.eqb_neq. unfold nl_sp. now rewrite <- !app_assoc.
Qed.
Print Assumptions C11_top_printed_partial.
Theorem C11_top_not_given_not_printed :
  forall fmt q c, pr_select fmt (Select q top_none c) = L "SELECT " ++ (if is_nil q then [] else q ++ L " ") ++ pr_columns fmt c.
Proof. reflexivity. Qed.
Print Assumptions C11_top_not_given_not_printed.
(** The largest number is taken for "no TOP". *)
Theorem C11_largest_top_lost_refuted :
  exists d q, digits d /\ decimal d = (2 ^ 64 - 1)%N /\ query default_mapping (L "select top " ++ d ++ L " * from t") = Q_ok q /\
    forall fmt, to_string fmt q = L "SELECT * FROM t".
Proof.
  exists (L "18446744073709551615"). eexists. split; [apply digits_dec; reflexivity|].
  split; [vm_compute; reflexivity|]. split; [vm_compute; reflexivity|]. intros fmt. vm_compute. reflexivity.
Qed.
Print Assumptions C11_largest_top_lost_refuted.
Example C11_case : digits (L "007") /\ decimal (L "007") = 7%N.
Proof. split; [apply digits_dec; reflexivity|reflexivity]. Qed.
