(** C41 for texts whose geometry is moved to the front. *)
From Coq Require Import Lia.
From Verif Require Import Query Spec SpecRewrite SpecBrackets ParenProofs RewriteSound RewriteMain AlphabetMoved BracketMoved Properties3 Properties20.

(** If a text with its last geometry behind AND is accepted, its round brackets match, up to the clauses [tl] behind the
    conditions, which do not reach the grammar.  Missing: texts with quotes, with a comment, or with nan(...). *)
Theorem C41_rewritten_partial :
  forall tm input q pre l g r tl, last_geometry input pre l g r tl -> ~ In "$"%char (l ++ g ++ r) -> shallow (peak 0 (l ++ g)) ->
    ~ In "'"%char input -> ~ In """"%char input -> ~ occurs_nc (L "--") input -> ~ occurs_nc (L "NAN(") input ->
    query tm input = Q_ok q -> exists kept, input = kept ++ tl /\ balanced kept.
Proof.
  intros tm input q pre l g r tl H D Sh Q1 Q2 N1 N2 Q. pose proof (rewrite_exact _ _ _ _ _ _ H) as K.
  apply C41_brackets_partial in Q as (t & P & W). destruct (check_and_adjust_parens l g) as [e|[l' g']] eqn:E; [congruence|].
  specialize (K D). rewrite K in P. injection P as <-. exact (moved_balanced _ _ _ _ _ _ _ _ (last_wpart _ _ _ _ _ _ H) E Sh Q1 Q2 N1 N2 W).
Qed.
Print Assumptions C41_rewritten_partial.
(** Every accepted text of less than 65536 bytes without '$' and quotes has matching round brackets, or it is of the form that is
    rewritten and they match up to the end of its conditions. *)
Theorem C41_given_partial :
  forall tm input q, shallow (length input) -> ~ In "$"%char input -> ~ In "'"%char input -> ~ In """"%char input ->
    ~ occurs_nc (L "--") input -> ~ occurs_nc (L "NAN(") input -> query tm input = Q_ok q ->
    balanced input \/ exists pre l g r tl kept, wpart input pre l g r tl /\ input = kept ++ tl /\ balanced kept.
Proof.
  intros tm input q Sh D Q1 Q2 N1 N2 Q. apply C41_brackets_partial in Q as (t & P & W).
  destruct (preprocess_exact input t D P) as [-> | (pre & l & g & r & tl & l' & g' & X & C & ->)].
  - left. apply bracketed_balanced; [now split|]. apply W; [|exact N2]. intros (a & b & O). apply N1. exists a, (L "--"), b. now split.
  - right. exists pre, l, g, r, tl. assert (Sp : shallow (peak 0 (l ++ g))).
    { unfold shallow in *. pose proof (peak_length (l ++ g) 0) as B. destruct X as [w m1 m2 -> _]. rewrite !app_length in *. lia. }
    destruct (moved_balanced _ _ _ _ _ _ _ _ X C Sp Q1 Q2 N1 N2 W) as (kept & E & B). exists kept. auto.
Qed.
Print Assumptions C41_given_partial.
Section Case.
Let input : text := L "select * from t where (a=(1) and contains(p,q)=1) and b=(2) order by c)".
Example C41_rewritten_form : last_geometry input (L "select * from t ") (L "(a=(1)") (L "contains(p,q)=1)") (L "b=(2)") (L " order by c)").
Proof.
  apply (last_geometry_intro _ _ _ _ _ _ (L "where ") (L " and ") (L " and ") [] (L "contains") (L "(p,q)=1)")); try reflexivity.
  all: try (apply find_nc_false; reflexivity).
  - exists "("%char. eexists. split; [reflexivity|discriminate].
  - exists (L "(a=(1"), ")"%char. split; [reflexivity|discriminate].
  - cbn. repeat constructor.
  - repeat constructor; discriminate.
  - exists (L " "), (L "and"), (L " "). repeat split; repeat constructor.
  - constructor.
  - now left.
  - exists (L "contains(p,q)=1"), ")"%char. split; [reflexivity|discriminate].
  - right. split; [exists (L " "), (L "and"), (L " "); repeat split; repeat constructor|]. split; [right; now eexists|].
    split; [exists "b"%char; eexists; split; [reflexivity|discriminate]|]. split; [exists (L "b=(2"), ")"%char; split; [reflexivity|discriminate]|].
    split; [cbn; repeat constructor|]. repeat split; apply find_nc_false; reflexivity.
  - right. exists [], (L "order"), (L " by c)"). split; [reflexivity|]. split; [constructor|]. right. now right.
Qed.
Example C41_rewritten_case : shallow (length input) /\ ~ In "$"%char input /\
  ~ In "$"%char (L "(a=(1)" ++ L "contains(p,q)=1)" ++ L "b=(2)") /\ shallow (peak 0 (L "(a=(1)" ++ L "contains(p,q)=1)")) /\
  ~ In "'"%char input /\ ~ In """"%char input /\ ~ occurs_nc (L "--") input /\ ~ occurs_nc (L "NAN(") input /\
  exists q, query default_mapping input = Q_ok q.
Proof.
  split; [reflexivity|]. split; [vm_compute; intuition discriminate|]. split; [vm_compute; intuition discriminate|]. split; [reflexivity|]. do 2 (split; [vm_compute; intuition discriminate|]). split; [apply find_nc_false; reflexivity|]. split; [apply find_nc_false; reflexivity|].
  destruct (query default_mapping input) as [q|e] eqn:Q; [now exists q|vm_compute in Q; discriminate].
Qed.
End Case.
