(** C55: how many parts the tree of an accepted query has. *)
From Verif Require Import Query Print Spec SpecNodes SpecLexical SpecContent SpecSpelling TreeSize RewriteSize TreeGrow Properties8 Properties10 Properties28.
From Coq Require Import Lia.
Local Open Scope nat_scope.

(** At most 17 parts (of all types, at all depths) for each character of the text that is parsed. *)
Theorem C55_parsed :
  forall tm input t q,
    preprocess input = inr t -> query tm input = Q_ok q -> length (nodes_qspec q) <= 17 * length t.
Proof.
  intros tm input t q P Q. pose proof (C35_text tm input q Q) as (t' & P' & W). rewrite P in P'. injection P' as <-.
  exact (written_nodes _ t q W).
Qed.
Print Assumptions C55_parsed.
(** In terms of the text that was given: linear if it has no '$', quadratic in any case. *)
Theorem C55_given_partial :
  forall tm input q,
    ~ In "$"%char input -> query tm input = Q_ok q -> length (nodes_qspec q) <= 17 * (length input + 4).
Proof.
  intros tm input q D Q. pose proof (C35_text tm input q Q) as (t & P & _). pose proof (C55_parsed tm input t q P Q).
  pose proof (C48_no_dollar_partial input t D P). lia.
Qed.
Print Assumptions C55_given_partial.
Theorem C55_square_partial :
  forall tm input q,
    query tm input = Q_ok q -> length (nodes_qspec q) <= 17 * (length input * (length input + 4)).
Proof.
  intros tm input q Q. pose proof (C35_text tm input q Q) as (t & P & _). pose proof (C55_parsed tm input t q P Q).
  pose proof (C48_square_partial input t P). lia.
Qed.
Print Assumptions C55_square_partial.
Example C55_case :
  exists q, query default_mapping (L "select a,(b) from t") = Q_ok q /\ length (nodes_qspec q) = 26 /\
    preprocess (L "select a,(b) from t") = inr (L "select a,(b) from t").
Proof. eexists. split; [vm_compute; reflexivity|split; vm_compute; reflexivity]. Qed.

(** With a '$' no factor suffices: $3 on the left of the geometry stands for the condition on its right. *)
Theorem C55_linear_refuted :
  forall tm c, exists input q, query tm input = Q_ok q /\ c * (length input + 1) < length (nodes_qspec q).
Proof.
  intros tm c. set (n := 66 * c + 1). exists (call_text n n), (spread_query n n). split.
  - unfold query. rewrite call_rewritten, <- (spread_printed (fun d => d)). apply C13_read_back, spread_query_canonical.
  - rewrite call_length. pose proof (spread_nodes n n). subst n. nia.
Qed.
Print Assumptions C55_linear_refuted.
Example C55_linear_case :
  call_text 1 2 = L "SELECT a FROM t WHERE $3 OR $3 OR b = 1 AND CONTAINS(p,q)=1 AND b = b+b" /\
  spread_text 1 2 = L "SELECT a FROM t WHERE CONTAINS(p,q)=1 AND b = b+b OR b = b+b OR b = 1 AND b = b+b".
Proof. split; reflexivity. Qed.
