(** C56: how deeply the parts of a query are nested. *)
From Verif Require Import Query Print Spec SpecNodes SpecNested SpecLexical SpecContent SpecSpelling WorkProofs NestedProofs TreeSize Properties8 Properties28 Properties38.
From Coq Require Import Lia.
Local Open Scope nat_scope.

(** The nesting is at most linear in the length of the text that is parsed. *)
Theorem C56_parsed :
  forall tm input t q l,
    preprocess input = inr t -> query tm input = Q_ok q -> nested (N_qspec q) l -> length l < 17 * length t.
Proof.
  intros tm input t q l P Q N. apply nested_bound in N. cbn [parts] in N. pose proof (C55_parsed tm input t q P Q). lia.
Qed.
Print Assumptions C56_parsed.
(** In terms of the text that was given, without '$'. *)
Theorem C56_given_partial :
  forall tm input q l,
    ~ In "$"%char input -> query tm input = Q_ok q -> nested (N_qspec q) l -> length l < 17 * (length input + 4).
Proof.
  intros tm input q l D Q N. apply nested_bound in N. cbn [parts] in N. pose proof (C55_given_partial tm input q D Q). lia.
Qed.
Print Assumptions C56_given_partial.

(** Conditions that are merely joined by AND are nested: no number bounds the nesting of the queries without any bracket. *)
Theorem C56_flat :
  forall tm k, exists input q l, input = L "SELECT * FROM t WHERE " ++ concat (repeat (L "a = 1 AND ") k) ++ L "a = 1" /\
    query tm input = Q_ok q /\ nested (N_qspec q) l /\ length l = k + 1 /\ length input = 10 * k + 27.
Proof.
  intros tm k. exists (flat_text k), (star_query (flat_cond k)), (N_sc (flat_cond k) :: flat_chain k).
  split; [reflexivity|]. split; [apply flat_accepted|]. split; [apply flat_inside|]. split; [cbn [length]; rewrite flat_chain_length; lia|apply flat_length].
Qed.
Print Assumptions C56_flat.
Theorem C56_bounded_refuted :
  forall tm d, exists input q l, ~ In "("%char input /\ ~ In "["%char input /\
    query tm input = Q_ok q /\ nested (N_qspec q) l /\ d < length l.
Proof.
  intros tm d. destruct (C56_flat tm d) as (input & q & l & E & Q & N & Len & _). exists input, q, l. subst input.
  split; [|split; [|split; [exact Q|split; [exact N|lia]]]]; intros I; apply (flat_in d) in I; revert I; vm_compute; intuition discriminate.
Qed.
Print Assumptions C56_bounded_refuted.
Example C56_case :
  exists q l, query default_mapping (L "select a from t where a=1 or b=2") = Q_ok q /\ preprocess (L "select a from t where a=1 or b=2") = inr (L "select a from t where a=1 or b=2") /\
    nested (N_qspec q) l /\ length l = 3.
Proof.
  eexists. exists [N_sc (SC_t (BF [] (BP_pred (P_cmp (VENB (Factor [] (NP_vep (VEP (VP_col (CR1 (L "a"))) []))) []) (L "=") (VE_nb (VENB (Factor [] (NP_vep (VEP (VP_str (L "1")) []))) [])))))
    (L "or") (SC_f (BF [] (BP_pred (P_cmp (VENB (Factor [] (NP_vep (VEP (VP_col (CR1 (L "b"))) []))) []) (L "=") (VE_nb (VENB (Factor [] (NP_vep (VEP (VP_str (L "2")) []))) [])))))));
    N_sc (SC_f (BF [] (BP_pred (P_cmp (VENB (Factor [] (NP_vep (VEP (VP_col (CR1 (L "b"))) []))) []) (L "=") (VE_nb (VENB (Factor [] (NP_vep (VEP (VP_str (L "2")) []))) []))))));
    N_venb (VENB (Factor [] (NP_vep (VEP (VP_col (CR1 (L "b"))) []))) [])].
  split; [vm_compute; reflexivity|]. split; [vm_compute; reflexivity|]. split; [|reflexivity].
  cbn. tauto.
Qed.
