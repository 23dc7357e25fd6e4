(** C50: how long the formatted text is. *)
From Verif Require Import Query Print Spec SpecNodes SpecLexical SpecContent SpecSpelling FormatSize Properties8 Properties28.
From Coq Require Import Lia.
Local Open Scope nat_scope.

(** With mapped names and numbers of at most M characters, the text of an accepted query is at most M + 8 times as long as the text
    that is parsed. *)
Theorem C50_parsed :
  forall tm fmt M input t q,
    (forall n v, lookup tm n = Some v -> length v <= M) -> (forall d, real_number d -> length (fmt d) <= M) ->
    preprocess input = inr t -> query tm input = Q_ok q -> length (to_string fmt q) <= (M + 8) * length t.
Proof.
  intros tm fmt M input t q T F P Q. pose proof (C35_text tm input q Q) as (t' & P' & W). rewrite P in P'. injection P' as <-.
  exact (written_size _ _ M T F t q W).
Qed.
Print Assumptions C50_parsed.
(** In terms of the text that was given: linear if it has no '$'. *)
Theorem C50_given_partial :
  forall tm fmt M input q,
    (forall n v, lookup tm n = Some v -> length v <= M) -> (forall d, real_number d -> length (fmt d) <= M) ->
    ~ In "$"%char input -> query tm input = Q_ok q -> length (to_string fmt q) <= (M + 8) * (length input + 4).
Proof.
  intros tm fmt M input q T F D Q. pose proof (C35_text tm input q Q) as (t & P & _). pose proof (C50_parsed tm fmt M input t q T F P Q).
  pose proof (C48_no_dollar_partial input t D P). nia.
Qed.
Print Assumptions C50_given_partial.
Local Definition five (d : text) : text := firstn 5 d.
Local Definition grown : text := L "select a from t where contains(point('',1,2),box('',1,2,3,4))".
Example C50_case : exists q, (forall n v, lookup default_mapping n = Some v -> length v <= 5) /\ (forall d, real_number d -> length (five d) <= 5) /\
  query default_mapping grown = Q_ok q /\
  to_string five q = L "SELECT a FROM t WHERE CONTAINS(POINT('ICRS GEOCENTER',1,2),BOX('ICRS GEOCENTER',1,2,3,4))=1".
Proof.
  eexists. split; [|split; [|split; vm_compute; reflexivity]].
  - intros n v H. cbn [lookup default_mapping] in H. destruct (text_eqb [] n); [|discriminate]. injection H as <-. cbn. lia.
  - intros d _. unfold five. rewrite firstn_length. lia.
Qed.

(** With a '$' no factor suffices. *)
Theorem C50_linear_refuted :
  forall tm fmt c, exists input q, query tm input = Q_ok q /\ c * (length input + 1) < length (to_string fmt q).
Proof. intros tm fmt c. destruct (C48_linear_refuted tm fmt c) as (input & t & q & _ & Q & E & H). exists input, q. split; [exact Q|now rewrite E]. Qed.
Print Assumptions C50_linear_refuted.
