(** C49: the text of an accepted query, as a database reads it, is one statement. *)
From Verif Require Import Query Print Spec SpecNodes SpecLexical SpecContent SpecSpelling SpecStatement PrintEq StatementProofs MinusText Properties8.

(** Unless a minus sign is followed by a minus sign, and given a mapping and a number format that write nothing strange. *)
Theorem C49_one_statement_partial :
  forall tm fmt input q,
    (forall n v, n <> [] -> lookup tm n = Some v -> harmless_name v) -> plain_numbers fmt ->
    query tm input = Q_ok q -> minuses_apart q -> one_statement (to_string fmt q).
Proof.
  intros tm fmt input q M F Q A. apply C35_text in Q as (t & _ & W). exact (written_one _ _ M F t q W A).
Qed.
Print Assumptions C49_one_statement_partial.

(** The same in terms of the text that is parsed. *)
Theorem C49_text_partial :
  forall tm fmt input t q,
    (forall n v, n <> [] -> lookup tm n = Some v -> harmless_name v) -> plain_numbers fmt ->
    preprocess input = inr t -> query tm input = Q_ok q -> ~ minus_minus t -> one_statement (to_string fmt q).
Proof.
  intros tm fmt input t q M F P Q N. pose proof (C35_text tm input q Q) as (t' & P' & W). rewrite P in P'. injection P' as <-.
  apply (C49_one_statement_partial tm fmt input q M F Q). exact (written_apart _ _ _ W N).
Qed.
Print Assumptions C49_text_partial.

(** The statement is a SELECT, possibly behind the named query of a WITH. *)
Theorem C49_select : forall fmt q, exists w r,
  to_string fmt q = w ++ L "SELECT " ++ r /\ (w = [] \/ exists n b, w = L "WITH " ++ n ++ b ++ L ") ").
Proof.
  intros fmt [w [[qu t c] ts wh] ad g h o].
  assert (S : exists r, pr_sfw fmt (SFW (Select qu t c) ts wh) = L "SELECT " ++ r).
  { rewrite pr_sfw_SFW, pr_select_Select. rewrite <- app_assoc. now eexists. }
  destruct S as [r S]. unfold to_string. rewrite pr_qspec_QS, S, <- app_assoc. clear S.
  destruct w as [[n cols sq]|]; [|exists []; eexists; split; [reflexivity|now left]].
  destruct (with_empty (With n cols sq)); [exists []; eexists; split; [reflexivity|now left]|].
  assert (B : exists b, pr_subq fmt sq = b ++ L ")") by (destruct sq; eexists (L "(" ++ _); rewrite <- app_assoc; reflexivity). destruct B as [b B].
  rewrite pr_with_With, B. eexists. eexists. split; [reflexivity|]. right.
  exists n, ((if is_nil cols then [] else L " (" ++ join (L ",") cols ++ L ")") ++ L " AS " ++ b). now rewrite <- !app_assoc.
Qed.
Print Assumptions C49_select.
Example C49_select_case : exists q, query default_mapping (L "with x(a) as (select b from t) select a from x") = Q_ok q /\
  to_string (fun x => x) q = L "WITH x (a) AS (SELECT b FROM t) SELECT a FROM x".
Proof. eexists. split; vm_compute; reflexivity. Qed.

(** A mapping and a number format that meet the hypotheses. *)
Local Definition signed_first (d : text) : text :=
  (match d with c :: _ => if Ascii.eqb c "-" then L "-" else [] | [] => [] end) ++
  match filter harmless d with [] => L "0" | u => u end.
Example C49_numbers_case : plain_numbers signed_first /\ signed_first (L "-1.5") = L "-1.5".
Proof.
  split; [|reflexivity]. intros d m _ O M. unfold signed_first.
  assert (T : harmless_name (match filter harmless d with [] => L "0" | u => u end)).
  { destruct (filter harmless d) eqn:E; [now apply tame_harmless|]. rewrite <- E. apply tame_harmless; [now rewrite E|].
    apply forallb_forall. intros c I. now apply filter_In in I. }
  destruct d as [|c d]; [now apply T|]. destruct (Ascii.eqb c "-") eqn:Ec; [|now apply T]. apply Ascii.eqb_eq in Ec. subst c.
  rewrite read_app. destruct O as [->|[->| ->]]; [| |]; cbn [sql_read sql_char L list_ascii_of_string]; [|exfalso; apply M; [reflexivity|now eexists]|]; apply T; right; now left.
Qed.
Local Definition one_table : mapping := [(L "u", L "real_u")].
Example C49_mapping_case : forall n v, n <> [] -> lookup one_table n = Some v -> harmless_name v.
Proof.
  intros n v _ H. cbn [lookup one_table] in H. destruct (text_eqb (L "u") n); [|discriminate]. injection H as <-. now apply tame_harmless.
Qed.
(** A quote, a comment within a literal, semicolons, minus signs, a number: all of it is one statement. *)
Local Definition strange : text := L "select -a-(-b)*-c,'x;--' from TAP_UPLOAD.u where contains(point('',-1,2),p)".
Example C49_text_case : exists q, query one_table strange = Q_ok q /\
  to_string signed_first q = L "SELECT -a-(-b)*-c, 'x;--' FROM real_u WHERE CONTAINS(POINT('ICRS GEOCENTER',-1,2),p)=1" /\
  sql_read Code (to_string signed_first q) = Some Code.
Proof. eexists. split; [vm_compute; reflexivity|]. split; vm_compute; reflexivity. Qed.

(** A minus sign behind a minus sign: the formatted text has a comment, and it may hide the quote of a literal, whose text is then read as code. *)
Theorem C49_comment_refuted :
  forall fmt, exists input q a b, query default_mapping input = Q_ok q /\ to_string fmt q = a ++ L ";" ++ b /\ sql_read Code a = Some Code.
Proof.
  intros fmt. exists (L "select a - -b,'" ++ [ascii_of_nat 10] ++ L ";' from t"). eexists. exists (L "SELECT a--b, '" ++ [ascii_of_nat 10]), (L "' FROM t").
  split; [vm_compute; reflexivity|]. split; vm_compute; reflexivity.
Qed.
Print Assumptions C49_comment_refuted.
(** The end of the query is lost. *)
Theorem C49_lost_end_refuted :
  forall fmt, exists input q, query default_mapping input = Q_ok q /\ to_string fmt q = L "SELECT a--b FROM t" /\
    sql_read Code (to_string fmt q) = Some Comment.
Proof. intros fmt. exists (L "select a- -b from t"). eexists. split; [vm_compute; reflexivity|]. split; vm_compute; reflexivity. Qed.
Print Assumptions C49_lost_end_refuted.
