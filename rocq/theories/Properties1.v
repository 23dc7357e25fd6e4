(** C01-C03: construction of a query. *)
From Verif Require Import Query PegSpec QueryProofs Spec.

(** ** C01: construction always terminates.
    [ev] (PegSpec.v) is the fuel-free relational semantics of the grammar: a terminating
    evaluation is a finite derivation.  Every text has exactly one, its outcome is never "the
    repetition consumed nothing", and the interpreter never runs out of fuel. *)
Theorem C01_construction_terminates :
  (forall m i, exists o, ev (g_body m) _ (g_query m) i o /\ o <> OOF /\
                         forall o', ev (g_body m) _ (g_query m) i o' -> o' = o) /\
  (forall tm input, query tm input <> Q_err E_fuel).
Proof. exact (conj g_query_ev query_not_fuel). Qed.
Print Assumptions C01_construction_terminates.
Example C01_case : exists q, query default_mapping (L "select a+b from t where not x = 2") = Q_ok q.
Proof. vm_compute. eauto. Qed.

(** ** C02: an accepted query has been read to its end. *)
Theorem C02_accepted_query_is_read_to_its_end :
  (forall tm i q, parse_it tm i = Q_ok q <->
     exists r, ev (g_body (lookup tm)) _ (g_query (lookup tm)) i (Ok q r) /\ white r) /\
  (forall tm i t, parse_it tm i = Q_err (E_trailing t) <->
     exists q sp c t', t = c :: t' /\ is_space c = false /\ white sp /\
       ev (g_body (lookup tm)) _ (g_query (lookup tm)) i (Ok q (sp ++ t))).
Proof. exact (conj parse_it_ok parse_it_trailing). Qed.
Print Assumptions C02_accepted_query_is_read_to_its_end.
Example C02_case_ok : exists q, parse_it default_mapping (L "select * from t  ") = Q_ok q.
Proof. vm_compute. eauto. Qed.
Example C02_case_err : parse_it default_mapping (L "select * from t b ;drop") = Q_err (E_trailing (L ";drop")).
Proof. vm_compute. reflexivity. Qed.

(** ** C03: every rejection points into the text.
    [error_ok tm t e]: what [e] quotes is in the text [t] handed to the grammar; a missing
    table is one that occurs in the text behind TAP_UPLOAD. and has no mapping. *)
Theorem C03_every_rejection_points_into_the_text :
  forall tm input e, query tm input = Q_err e ->
    (exists p, preprocess input = inl p /\ e = E_paren p) \/
    (exists t, preprocess input = inr t /\
       match e with
       | E_paren _ | E_fuel => False
       | E_table n => occurs (L "TAP_UPLOAD." ++ n) t /\ lookup tm n = None
       | E_expect r => is_suffix r t
       | E_select r => r = t
       | E_trailing r => is_suffix r t /\ r <> []
       end).
Proof. exact query_error. Qed.
Print Assumptions C03_every_rejection_points_into_the_text.
Example C03_case_expect : query default_mapping (L "select * from t where x in(3)") = Q_err (E_expect (L "(3)")).
Proof. vm_compute. reflexivity. Qed.
Example C03_case_table : query default_mapping (L "select * from TAP_UPLOAD.foo") = Q_err (E_table (L "foo")).
Proof. vm_compute. reflexivity. Qed.
