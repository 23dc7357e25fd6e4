(** C37: the kind and amount of white space between words and marks. *)
From Verif Require Import Query Spec SpecWhite WhiteProofs.
From Verif Require Properties3.

Definition nl : string := String (ascii_of_N 10) ""%string.
Definition tab : string := String (ascii_of_N 9) ""%string.

(** Texts that differ in the white space between words and marks only ([spaced], SpecWhite.v) get the
    same answer of the parser: the same structure, or a rejection of the same kind.  This is stronger
    than acceptance of both: what one is rejected for, the other is rejected for. *)
Theorem C37_white_space_partial :
  forall tm i j, spaced i j -> same_answer (parse_it tm i) (parse_it tm j).
Proof. intros tm i j. apply parse_sim. Qed.
Print Assumptions C37_white_space_partial.
(** In particular, a query stays accepted and has the same structure. *)
Theorem C37_accepted_partial :
  forall tm i j q, spaced i j -> parse_it tm i = Q_ok q -> parse_it tm j = Q_ok q.
Proof. intros tm i j q K H. pose proof (parse_sim tm i j K) as X. rewrite H in X. destruct (parse_it tm j); cbn in X; [now subst|contradiction]. Qed.
Print Assumptions C37_accepted_partial.
Definition w1 : text := L ("SELECT a,'x  y' FROM b WHERE NOT c=1").
Definition w2 : text := L ("SELECT" ++ nl ++ "  a,'x  y'  FROM" ++ tab ++ "b" ++ nl ++ "WHERE NOT  c=1")%string.
Example C37_white_space_case : spaced w1 w2 /\ exists q, parse_it [] w1 = Q_ok q.
Proof. split; [apply (spacedb_sound 60); vm_compute; reflexivity|]. eexists. vm_compute. reflexivity. Qed.
(** ... and rejected texts *)
Example C37_rejected_case : spaced (L "SELECT  a FROM b c d") (L ("SELECT a" ++ nl ++ "FROM b   c d")%string) /\
  parse_it [] (L "SELECT  a FROM b c d") = Q_err (E_trailing (L "d")).
Proof. split; [apply (spacedb_sound 60); vm_compute; reflexivity|]. vm_compute. reflexivity. Qed.

(** The same for the constructor, where the text is not rewritten first (C12). *)
Theorem C37_query_partial :
  forall tm i j, spaced i j ->
    ~ occurs_nc (L "WHERE") i \/ ~ occurs_nc (L "CONTAINS") i /\ ~ occurs_nc (L "INTERSECTS") i ->
    same_answer (query tm i) (query tm j).
Proof. intros tm i j. apply query_sim_plain. Qed.
Print Assumptions C37_query_partial.
Example C37_query_case : spaced w1 w2 /\ ~ occurs_nc (L "CONTAINS") w1 /\ ~ occurs_nc (L "INTERSECTS") w1.
Proof. split; [apply (spacedb_sound 60); vm_compute; reflexivity|]. split; apply Properties3.find_nc_false; vm_compute; reflexivity. Qed.

(** The exceptions of [spaced] are there because the code makes them. *)
(** UNION ALL is one word: two blanks between UNION and ALL, or a new line, are an error. *)
Theorem C37_union_refuted :
  exists tm a b w w', white w /\ white w' /\ w <> [] /\ w' <> [] /\ (exists q, parse_it tm (a ++ w ++ b) = Q_ok q) /\
    a = L "SELECT a FROM b UNION" /\ b = L "ALL SELECT a FROM b" /\ w = L " " /\ w' = L nl /\
    forall q, parse_it tm (a ++ w' ++ b) <> Q_ok q.
Proof.
  exists [], (L "SELECT a FROM b UNION"), (L "ALL SELECT a FROM b"), (L " "), (L nl).
  split; [repeat constructor|]. split; [repeat constructor|]. split; [discriminate|]. split; [discriminate|].
  split; [eexists; vm_compute; reflexivity|]. do 4 (split; [reflexivity|]). intros q. vm_compute. discriminate.
Qed.
Print Assumptions C37_union_refuted.
(** The pieces of a string may be separated by blanks and new lines, but not by a tabulator. *)
Theorem C37_string_refuted :
  exists tm a b w w', white w /\ white w' /\ w <> [] /\ w' <> [] /\ (exists q, parse_it tm (a ++ w ++ b) = Q_ok q) /\
    a = L "SELECT 'x'" /\ b = L "'y' FROM b" /\ w = L " " /\ w' = L tab /\
    forall q, parse_it tm (a ++ w' ++ b) <> Q_ok q.
Proof.
  exists [], (L "SELECT 'x'"), (L "'y' FROM b"), (L " "), (L tab).
  split; [repeat constructor|]. split; [repeat constructor|]. split; [discriminate|]. split; [discriminate|].
  split; [eexists; vm_compute; reflexivity|]. do 4 (split; [reflexivity|]). intros q. vm_compute. discriminate.
Qed.
Print Assumptions C37_string_refuted.
(** What separates NOT from IN is part of the structure, though not of the text it is written as. *)
Theorem C37_not_in_refuted :
  exists tm a b w w' q q', white w /\ white w' /\ w <> [] /\ w' <> [] /\
    parse_it tm (a ++ w ++ b) = Q_ok q /\ parse_it tm (a ++ w' ++ b) = Q_ok q' /\
    q <> q' /\ to_string (fun x => x) q = to_string (fun x => x) q'.
Proof.
  exists [], (L "SELECT a FROM b WHERE a NOT"), (L "IN (1)"), (L " "), (L tab).
  eexists. eexists. split; [repeat constructor|]. split; [repeat constructor|]. split; [discriminate|]. split; [discriminate|].
  split; [vm_compute; reflexivity|]. split; [vm_compute; reflexivity|]. split; [discriminate|vm_compute; reflexivity].
Qed.
Print Assumptions C37_not_in_refuted.
