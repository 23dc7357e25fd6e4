(** C41: brackets and quotes of accepted queries. *)
From Verif Require Import Query Spec SpecLexical SpecRewrite SpecSpelling SpecBrackets RewriteSound BracketProofs LexProofs LexProofs2 TextLemmas Properties3 Properties8.

(** In every accepted query the brackets outside of quotes have their partners, properly nested, and every
    quote is closed; in the text that reaches the grammar.  Missing: texts with a comment or with a number
    of the form nan(...), for which it is false (below). *)
Theorem C41_brackets_partial :
  forall tm input q, query tm input = Q_ok q ->
    exists t, preprocess input = inr t /\ (~ occurs (L "--") t -> ~ occurs_nc (L "NAN(") t -> bracketed t).
Proof.
  intros tm input q H. apply C35_text in H as (t & P & W). exists t. split; [exact P|]. intros N1 N2.
  now apply (written_bracketed _ _ _ W).
Qed.
Print Assumptions C41_brackets_partial.
(** A text that is not rewritten and whose brackets do not match is refused, with every mapping. *)
Theorem C41_refused_partial :
  forall tm input, preprocess input = inr input -> ~ occurs (L "--") input -> ~ occurs_nc (L "NAN(") input ->
    ~ bracketed input -> exists e, query tm input = Q_err e.
Proof.
  intros tm input P N1 N2 B. destruct (query tm input) as [q|e] eqn:Q; [|now exists e].
  apply C41_brackets_partial in Q as (t & P' & W). rewrite P in P'. injection P' as <-. now destruct (B (W N1 N2)).
Qed.
Print Assumptions C41_refused_partial.

Section Case.
Let t : text := L "select a[1],'(' from t where b in (1)".
Example C41_case : exists q, query default_mapping t = Q_ok q /\ preprocess t = inr t /\ bracketed t.
Proof.
  assert (T : forall r, match r with Q_ok _ => true | Q_err _ => false end = true -> exists q, r = Q_ok q) by (intros [q|e]; [eauto|discriminate]).
  destruct (T (query default_mapping t)) as [q Q]; [vm_compute; reflexivity|]. exists q. split; [exact Q|]. now split.
Qed.
Let u : text := L "select a from (t".
Example C41_refused_case : preprocess u = inr u /\ ~ bracketed u /\ scan (None, []) u = Some (None, ["("%char]).
Proof. split; [reflexivity|]. now split. Qed.
End Case.

Section Refuted.
Let T : forall r, match r with Q_ok _ => true | Q_err _ => false end = true -> exists q, r = Q_ok q.
Proof. intros [q|e]; [eauto|discriminate]. Qed.
(** nan( is read up to the next closing bracket as one number. *)
Theorem C41_nan_refuted :
  exists input q, query default_mapping input = Q_ok q /\ preprocess input = inr input /\ ~ bracketed input.
Proof.
  exists (L "select a from t where contains(point('',+nan((),1),p)").
  edestruct (T (query default_mapping (L "select a from t where contains(point('',+nan((),1),p)"))) as [q Q]; [vm_compute; reflexivity|].
  exists q. split; [exact Q|]. split; [reflexivity|discriminate].
Qed.
Print Assumptions C41_nan_refuted.
(** Comments are allowed between the pieces of a string literal. *)
Theorem C41_comment_refuted :
  exists input q, query default_mapping input = Q_ok q /\ preprocess input = inr input /\ ~ bracketed input.
Proof.
  exists (L "select 'a'--(" ++ ["010"%char] ++ L "'b' from t").
  edestruct (T (query default_mapping (L "select 'a'--(" ++ ["010"%char] ++ L "'b' from t"))) as [q Q]; [vm_compute; reflexivity|].
  exists q. split; [exact Q|]. split; [reflexivity|discriminate].
Qed.
Print Assumptions C41_comment_refuted.
(** The text as it is given need not have matching brackets: the rewriting drops an ORDER BY clause without looking at it. *)
Theorem C41_dropped_refuted :
  exists input q, query default_mapping input = Q_ok q /\ ~ bracketed input /\ ~ occurs_nc (L "--") input.
Proof.
  exists (L "select * from t where a=1 and contains(p,q) order by (").
  edestruct (T (query default_mapping (L "select * from t where a=1 and contains(p,q) order by ("))) as [q Q]; [vm_compute; reflexivity|].
  exists q. split; [exact Q|]. split; [discriminate|].
  apply find_nc_false. reflexivity.
Qed.
Print Assumptions C41_dropped_refuted.
End Refuted.
