(** C04, C31, C33, C36: white space around, conjunctions, table functions, names that start
    with a keyword.  First part: what does not hold, and C31. *)
From Verif Require Import Query PegProps Spec SpecNodes SpecClauses SpecRewrite NodeProps ChainProofs.

(** ** C31: WHERE geometry AND c_1 o_1 c_2 o_2 ...
    [chain_truth v os] is the truth value of a chain of conditions with the connectives [os]
    between them, AND binding tighter than OR, condition number n having the value [v n].
    Number 0 is the geometry.  The clause as written is "the geometry and the search condition"
    for all truth assignments iff the search condition has no OR at its top level.
    Missing for the full property: search conditions with an OR (see the refuted version). *)
Theorem C31_conjunction_partial :
  forall tm input q c g s,
    query tm input = Q_ok q -> In c (components q) -> where_of c = Where (Some g) (Some s) ->
    Forall (fun o => upper o = L "AND" \/ upper o = L "OR") (connectives s) /\
    ((forall v, chain_truth v (L "AND" :: connectives s) = v 0 && chain_truth (fun n => v (S n)) (connectives s)) <->
     Forall (fun o => upper o = L "AND") (connectives s)).
Proof. exact accepted_where. Qed.
Print Assumptions C31_conjunction_partial.
Example C31_case : exists q g s,
  query default_mapping (L "select * from t where contains(p,q) and a=1 AND b=2") = Q_ok q /\
  In (q_initial q) (components q) /\ where_of (q_initial q) = Where (Some g) (Some s) /\
  connectives s = [L "AND"] /\ length (conditions s) = 2.
Proof.
  eexists; eexists; eexists. split; [vm_compute; reflexivity|]. split; [left; reflexivity|]. split; [reflexivity|]. split; reflexivity.
Qed.
(** "where G and a=1 or b=2" is recorded as the geometry G and the search condition a=1 or b=2;
    with G false and b=2 true the clause is true, but the geometry is not. *)
Theorem C31_or_refuted :
  exists q g s v,
    query default_mapping (L "select * from t where contains(p,q) and a=1 or b=2") = Q_ok q /\
    where_of (q_initial q) = Where (Some g) (Some s) /\
    chain_truth v (L "and" :: connectives s) = true /\ v 0 = false.
Proof.
  eexists; eexists; eexists. exists (fun n => n =? 2)%nat. split; [vm_compute; reflexivity|]. split; [reflexivity|]. split; vm_compute; reflexivity.
Qed.
Print Assumptions C31_or_refuted.

(** ** C33: a table function without arguments is formatted to text that is not accepted. *)
Theorem C33_no_arguments_refuted :
  exists q e,
    query default_mapping (L "select * from table(f(''))") = Q_ok q /\
    to_string (fun x => x) q = L "SELECT * FROM table(f())" /\
    query default_mapping (to_string (fun x => x) q) = Q_err e.
Proof. eexists; eexists. split; [vm_compute; reflexivity|]. split; vm_compute; reflexivity. Qed.
Print Assumptions C33_no_arguments_refuted.

(** ** C36: a column that is tested alone, named like a keyword and more, is taken for the
    keyword; so is any condition that starts with NOT (see C16). *)
Theorem C36_exists_x_refuted :
  (exists q, query default_mapping (L "select * from t where exist_x") = Q_ok q) /\
  (exists e, query default_mapping (L "select * from t where exists_x") = Q_err e).
Proof. split; eexists; vm_compute; reflexivity. Qed.
Print Assumptions C36_exists_x_refuted.

(** ** C04: white space behind the text is not irrelevant. *)
Definition newline : text := [ascii_of_N 10].
Theorem C04_blank_behind_refuted :
  exists input q e, query default_mapping input = Q_ok q /\ query default_mapping (input ++ L " ") = Q_err e.
Proof. exists (L "select * from t where cot"). eexists; eexists. split; vm_compute; reflexivity. Qed.
Print Assumptions C04_blank_behind_refuted.
(** A newline behind the text switches the rewriting off, since "." does not match it. *)
Theorem C04_newline_behind_refuted :
  exists input q e, query default_mapping input = Q_ok q /\ query default_mapping (input ++ newline) = Q_err e.
Proof. exists (L "select * from t where a=1 and contains(p,q)"). eexists; eexists. split; vm_compute; reflexivity. Qed.
Print Assumptions C04_newline_behind_refuted.
