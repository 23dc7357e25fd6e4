(** C54: the bytes of accepted queries outside of quotes. *)
From Verif Require Import Query Spec SpecLexical SpecRewrite SpecSpelling SpecAlphabet SpecBehind RewriteNot RewriteSound AlphabetProofs AlphabetMoved ParenProofs RewriteMain LexProofs LexProofs2 TextLemmas Properties3 Properties8.

(** Outside of quotes an accepted query consists of letters, digits, underscores, white space and the marks of
    the language; in the text that reaches the grammar.  Missing: texts with a comment or with a number
    of the form nan(...), for which it is false (below). *)
Theorem C54_usable_partial :
  forall tm input q, query tm input = Q_ok q ->
    exists t, preprocess input = inr t /\ (~ occurs (L "--") t -> ~ occurs_nc (L "NAN(") t -> tidy t).
Proof.
  intros tm input q H. apply C35_text in H as (t & P & W). exists t. split; [exact P|]. intros N1 N2.
  now apply (written_tidy _ _ _ W).
Qed.
Print Assumptions C54_usable_partial.
(** Any other byte outside of quotes, for instance a semicolon, a NUL or a byte of an UTF-8 sequence, makes a
    text without WHERE, or in which no geometry stands behind AND, unacceptable, with every mapping. *)
Theorem C54_refused_partial :
  forall tm a c b, ~ occurs_nc (L "WHERE") (a ++ c :: b) \/ geometries_behind (fun x => ~ ends_with_and x) (a ++ c :: b) ->
    ~ occurs (L "--") (a ++ c :: b) -> ~ occurs_nc (L "NAN(") (a ++ c :: b) ->
    see None a = Some None -> usable c = false -> c <> "'"%char -> c <> """"%char -> exists e, query tm (a ++ c :: b) = Q_err e.
Proof.
  intros tm a c b R N1 N2 S U Q1 Q2. destruct (query tm (a ++ c :: b)) as [q|e] eqn:Q; [|now exists e]. exfalso.
  apply C54_usable_partial in Q as (t & P & W). assert (P' : preprocess (a ++ c :: b) = inr (a ++ c :: b)) by (destruct R as [R|R]; [now apply not_rewritten; left|now apply not_behind_and]). rewrite P' in P. injection P as <-. specialize (W N1 N2).
  unfold tidy in W. rewrite see_app, S in W. cbn [see see1] in W. apply Ascii.eqb_neq in Q1, Q2. rewrite Q1, Q2, U in W. discriminate.
Qed.
Print Assumptions C54_refused_partial.

Section Case.
Let t : text := L "select ';',a from t where b||""#""='$'".
Example C54_usable_case : exists q, query default_mapping t = Q_ok q /\ preprocess t = inr t /\ tidy t.
Proof.
  destruct (query default_mapping t) as [q|e] eqn:Q; [|vm_compute in Q; discriminate]. exists q. split; [reflexivity|]. split; [vm_compute; reflexivity|vm_compute; reflexivity].
Qed.
(** a semicolon behind the query *)
Example C54_refused_case : see None t = Some None /\ usable ";" = false /\ query default_mapping (t ++ [";"%char]) = Q_err (E_trailing (L ";")).
Proof. split; [vm_compute; reflexivity|]. split; [reflexivity|vm_compute; reflexivity]. Qed.
(** the same behind a geometry *)
Let u : text := L "SELECT * FROM t WHERE contains(p,q)".
Example C54_refused_geometry : forall tm, exists e, query tm (u ++ ";"%char :: L "DROP") = Q_err e.
Proof.
  intros tm. apply C54_refused_partial; try discriminate; try reflexivity.
  - right. intros a w b E W. apply where_not_and. revert a w b E W. apply behind_where_b_sound. vm_compute. reflexivity.
  - intros (x & y & E). apply (find_nc_false (L "--") (u ++ ";"%char :: L "DROP")); [vm_compute; reflexivity|]. exists x, (L "--"), y. now split.
  - apply find_nc_false. vm_compute. reflexivity.
Qed.
Example C54_refused_meets : forall tm, exists e, query tm (L "select a from t" ++ ";"%char :: L "drop table t") = Q_err e.
Proof.
  intros tm. apply C54_refused_partial; try discriminate; try reflexivity.
  - left. apply find_nc_false. vm_compute. reflexivity.
  - intros (x & y & E). apply (find_nc_false (L "--") (L "select a from t" ++ ";"%char :: L "drop table t")); [vm_compute; reflexivity|]. exists x, (L "--"), y. now split.
  - apply find_nc_false. vm_compute. reflexivity.
Qed.
End Case.

(** The same for texts whose geometry is moved to the front, for what reaches the query: all but the clauses behind the
    conditions ([tl]), and up to the pair of brackets around the conditions. *)
Theorem C54_rewritten_partial :
  forall tm input q pre l g r tl, last_geometry input pre l g r tl -> ~ In "$"%char (l ++ g ++ r) ->
    ~ occurs_nc (L "--") input -> ~ occurs_nc (L "NAN(") input -> closed pre -> closed l -> closed g ->
    query tm input = Q_ok q -> tidy pre /\ tidy l /\ tidy g /\ tidy r.
Proof.
  intros tm input q pre l g r tl H D N1 N2 Cp Cl Cg Q. pose proof (rewrite_exact _ _ _ _ _ _ H) as K.
  apply C54_usable_partial in Q as (t & P & W). destruct (check_and_adjust_parens l g) as [e|[l' g']] eqn:E; [congruence|].
  specialize (K D). rewrite K in P. injection P as <-. apply check_shape in E. exact (moved_tidy _ _ _ _ _ _ _ _ (last_wpart _ _ _ _ _ _ H) E Cp Cl Cg N1 N2 W).
Qed.
Print Assumptions C54_rewritten_partial.
(** Every accepted text without '$' and quotes is tidy, or it is of the form that is rewritten and its conditions, and what is in
    front of them, are. *)
Theorem C54_given_partial :
  forall tm input q, ~ In "$"%char input -> ~ In "'"%char input -> ~ In """"%char input ->
    ~ occurs_nc (L "--") input -> ~ occurs_nc (L "NAN(") input -> query tm input = Q_ok q ->
    tidy input \/ exists pre l g r tl, wpart input pre l g r tl /\ tidy pre /\ tidy l /\ tidy g /\ tidy r.
Proof.
  intros tm input q D Q1 Q2 N1 N2 Q. apply C54_usable_partial in Q as (t & P & W).
  destruct (preprocess_exact input t D P) as [-> | (pre & l & g & r & tl & l' & g' & X & C & ->)].
  - left. apply W; [|exact N2]. intros (a & b & O). apply N1. exists a, (L "--"), b. now split.
  - right. exists pre, l, g, r, tl. split; [exact X|]. apply check_shape in C.
    assert (Z : forall p, (forall c, In c p -> In c input) -> closed p) by (intros p S; apply quoteless_closed; auto).
    apply (moved_tidy input pre l g r tl l' g' X C); auto; apply Z; intros c I; destruct X as [w m1 m2 -> _]; rewrite !in_app_iff; tauto.
Qed.
Print Assumptions C54_given_partial.
Example C54_given_case :
  let input := L "select * from t where a=1 and contains(p,q)=1 and b=c order by c;d" in
  ~ In "$"%char input /\ ~ In "'"%char input /\ ~ In """"%char input /\ ~ occurs_nc (L "--") input /\ ~ occurs_nc (L "NAN(") input /\
  ~ tidy input /\ exists q, query default_mapping input = Q_ok q.
Proof.
  intros input. do 3 (split; [vm_compute; intuition discriminate|]). do 2 (split; [apply find_nc_false; reflexivity|]). split; [discriminate|].
  destruct (query default_mapping input) as [q|e] eqn:Q; [now exists q|vm_compute in Q; discriminate].
Qed.
Section Moved.
Let input : text := L "select * from t where (a=';' and contains(p,q)=1) and b=""x;"" order by c;d".
Example C54_rewritten_form : last_geometry input (L "select * from t ") (L "(a=';'") (L "contains(p,q)=1)") (L "b=""x;""") (L " order by c;d").
Proof.
  apply (last_geometry_intro _ _ _ _ _ _ (L "where ") (L " and ") (L " and ") [] (L "contains") (L "(p,q)=1)")); try reflexivity.
  all: try (apply find_nc_false; reflexivity).
  - exists "("%char. eexists. split; [reflexivity|discriminate].
  - exists (L "(a=';"), "'"%char. split; [reflexivity|discriminate].
  - cbn. repeat constructor.
  - repeat constructor; discriminate.
  - exists (L " "), (L "and"), (L " "). repeat split; repeat constructor.
  - constructor.
  - now left.
  - exists (L "contains(p,q)=1"), ")"%char. split; [reflexivity|discriminate].
  - right. split; [exists (L " "), (L "and"), (L " "); repeat split; repeat constructor|]. split; [right; now eexists|].
    split; [exists "b"%char; eexists; split; [reflexivity|discriminate]|]. split; [exists (L "b=""x;"), """"%char; split; [reflexivity|discriminate]|].
    split; [cbn; repeat constructor|]. repeat split; apply find_nc_false; reflexivity.
  - right. exists [], (L "order"), (L " by c;d"). split; [reflexivity|]. split; [constructor|]. right. now right.
Qed.
Example C54_rewritten_case :
  ~ In "$"%char (L "(a=';'" ++ L "contains(p,q)=1)" ++ L "b=""x;""") /\
  ~ occurs_nc (L "--") input /\ ~ occurs_nc (L "NAN(") input /\
  closed (L "select * from t ") /\ closed (L "(a=';'") /\ closed (L "contains(p,q)=1)") /\ exists q, query default_mapping input = Q_ok q.
Proof.
  split; [vm_compute; intuition discriminate|]. split; [apply find_nc_false; reflexivity|]. split; [apply find_nc_false; reflexivity|].
  do 3 (split; [reflexivity|]). destruct (query default_mapping input) as [q|e] eqn:Q; [now exists q|vm_compute in Q; discriminate].
Qed.
End Moved.

Section Refuted.
Let T : forall r, match r with Q_ok _ => true | Q_err _ => false end = true -> exists q, r = Q_ok q.
Proof. intros [q|e]; [eauto|discriminate]. Qed.
(** nan( is read up to the next closing bracket as one number. *)
Theorem C54_nan_refuted :
  exists input q, query default_mapping input = Q_ok q /\ preprocess input = inr input /\ ~ tidy input.
Proof.
  exists (L "select a from t where contains(point('',+nan(;),1),p)").
  edestruct (T (query default_mapping (L "select a from t where contains(point('',+nan(;),1),p)"))) as [q Q]; [vm_compute; reflexivity|].
  exists q. split; [exact Q|]. split; [reflexivity|discriminate].
Qed.
Print Assumptions C54_nan_refuted.
(** Comments are allowed between the pieces of a string literal. *)
Theorem C54_comment_refuted :
  exists input q, query default_mapping input = Q_ok q /\ preprocess input = inr input /\ ~ tidy input.
Proof.
  exists (L "select 'a'--;" ++ ["010"%char] ++ L "'b' from t").
  edestruct (T (query default_mapping (L "select 'a'--;" ++ ["010"%char] ++ L "'b' from t"))) as [q Q]; [vm_compute; reflexivity|].
  exists q. split; [exact Q|]. split; [reflexivity|discriminate].
Qed.
Print Assumptions C54_comment_refuted.
(** A second statement behind an ORDER BY that the rewriting drops is accepted. *)
Theorem C54_dropped_refuted :
  exists input q, query default_mapping input = Q_ok q /\ ~ tidy input /\ ~ occurs_nc (L "--") input.
Proof.
  exists (L "select * from t where a=1 and contains(p,q) order by a;drop").
  edestruct (T (query default_mapping (L "select * from t where a=1 and contains(p,q) order by a;drop"))) as [q Q]; [vm_compute; reflexivity|].
  exists q. split; [exact Q|]. split; [discriminate|].
  apply find_nc_false. reflexivity.
Qed.
Print Assumptions C54_dropped_refuted.
End Refuted.
