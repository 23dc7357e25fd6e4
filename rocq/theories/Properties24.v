(** C43: the recursion of the parser. *)
From Verif Require Import Query Spec Work WorkProofs Depth DepthProofs.

(** At most 3 l + 4 rules are open at the same time, for a text of length l. *)
Theorem C43_linear : forall tm input t, preprocess input = inr t -> depth tm input <= 3 * length t + 4.
Proof. intros tm input t H. unfold depth. rewrite H. apply query_depth. Qed.
Print Assumptions C43_linear.
Example C43_linear_case :
  preprocess (L "SELECT * FROM t WHERE (a) = 1") = inr (L "SELECT * FROM t WHERE (a) = 1") /\
  depth default_mapping (L "SELECT * FROM t WHERE (a) = 1") = 4.
Proof. split; vm_compute; reflexivity. Qed.

(** n pairs of parentheses around a column: the query of length 27 + 2 n is accepted, and at least 2 n rules are open at
    the same time. *)
Theorem C43_nested :
  forall tm n, exists input, input = L "SELECT * FROM t WHERE " ++ parens n (L "a") ++ L " = 1" /\ length input = 27 + 2 * n /\
    (exists q, query tm input = Q_ok q) /\ 2 * n <= depth tm input.
Proof.
  intros tm n. eexists. split; [reflexivity|]. split; [|split].
  - unfold parens. rewrite !app_length, !repeat_length. cbn [L list_ascii_of_string length]. lia.
  - eexists. apply deep_accepted.
  - unfold depth. rewrite deep_plain. unfold parens. rewrite <- !app_assoc. apply (nested_depth tm n (repeat ")"%char n ++ L " = 1")).
Qed.
Print Assumptions C43_nested.

(** No number bounds the depth, not even for accepted queries. *)
Theorem C43_bounded_refuted :
  forall d, exists input q, query default_mapping input = Q_ok q /\ d < depth default_mapping input.
Proof.
  intros d. destruct (C43_nested default_mapping (S d)) as (input & _ & _ & (q & Q) & D). exists input, q. split; [exact Q|lia].
Qed.
Print Assumptions C43_bounded_refuted.
