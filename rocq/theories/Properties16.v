(** C24: coordinate systems may be spelt as one likes, wherever shapes stand. *)
From Verif Require Import Query Spec SpecWhite SpecBehind SpecSpelling SpecSystem RewriteNot SysProofs.

(** Texts that differ only in how coordinate systems are spelt - letter case, blanks, parts left out,
    the whole argument left out for ICRS - get the same answer: the same structure, or a rejection of
    the same kind.  Any number of shapes, anywhere in the text ([respelt], SpecSystem.v). *)
Theorem C24_respelt_partial :
  forall tm i j, respelt false i j -> like_answer (parse_it tm i) (parse_it tm j).
Proof. exact parse_like. Qed.
Print Assumptions C24_respelt_partial.
(** In particular, an accepted query stays accepted and has the same structure. *)
Theorem C24_respelt_accepted_partial :
  forall tm i j q, respelt false i j -> parse_it tm i = Q_ok q -> parse_it tm j = Q_ok q.
Proof. intros tm i j q K H. pose proof (parse_like tm i j K) as X. rewrite H in X. destruct (parse_it tm j); cbn in X; [now subst|contradiction]. Qed.
Print Assumptions C24_respelt_accepted_partial.
(** The same for the constructor, where the texts are not rewritten first (C34). *)
Theorem C24_respelt_query_partial :
  forall tm i j, respelt false i j -> geometries_behind (fun a => ~ ends_with_and a) i -> geometries_behind (fun a => ~ ends_with_and a) j ->
    like_answer (query tm i) (query tm j).
Proof. exact query_like_where. Qed.
Print Assumptions C24_respelt_query_partial.
Definition s1 := L "SELECT coord1(point('icrs',a,b)) FROM t WHERE CONTAINS(POINT('J2000',a,b),circle(c,d,1))=1".
Definition s2 := L "SELECT coord1(point(a,b)) FROM t WHERE CONTAINS(POINT('j2000 GEOcenter' ,a,b),circle( '',c,d,1))=1".
Lemma system_given w fr w2 ps w' f : white w -> white w2 -> white w' -> upper fr = L (frame_name f) \/ fr = [] /\ f = ICRS -> upper ps = L "GEOCENTER" \/ ps = [] ->
  system_argument (w ++ (L "'" ++ fr ++ w2 ++ ps ++ L "'") ++ w' ++ L ",") f.
Proof.
  intros W W2 W' F P. right. exists w, (L "'" ++ fr ++ w2 ++ ps ++ L "'"), w'. split; [reflexivity|]. split; [exact W|]. split; [exact W'|].
  exists [], fr, w2, ps, []. split; [reflexivity|]. split; [constructor|]. split; [exact W2|]. split; [constructor|]. now split.
Qed.
Example C24_respelt_case : respelt false s1 s2 /\ exists q, parse_it [] s1 = Q_ok q.
Proof.
  split; [|eexists; vm_compute; reflexivity].
  change s1 with (L "SELECT coord1(" ++ L "point" ++ [] ++ L "(" ++ ([] ++ (L "'" ++ L "icrs" ++ [] ++ [] ++ L "'") ++ [] ++ L ",") ++
    (L "a,b)) FROM t WHERE CONTAINS(" ++ L "POINT" ++ [] ++ L "(" ++ ([] ++ (L "'" ++ L "J2000" ++ [] ++ [] ++ L "'") ++ [] ++ L ",") ++
    (L "a,b)," ++ L "circle" ++ [] ++ L "(" ++ [] ++ L "c,d,1))=1"))).
  change s2 with (L "SELECT coord1(" ++ L "point" ++ [] ++ L "(" ++ [] ++
    (L "a,b)) FROM t WHERE CONTAINS(" ++ L "POINT" ++ [] ++ L "(" ++ ([] ++ (L "'" ++ L "j2000" ++ L " " ++ L "GEOcenter" ++ L "'") ++ L " " ++ L ",") ++
    (L "a,b)," ++ L "circle" ++ [] ++ L "(" ++ (L " " ++ (L "'" ++ [] ++ [] ++ [] ++ L "'") ++ [] ++ L ",") ++ L "c,d,1))=1"))).
  apply rs_chars; [vm_compute; reflexivity|]. apply (rs_shape _ _ _ _ ICRS).
  - cbn. auto.
  - constructor.
  - apply system_given; [constructor|constructor|constructor|left; reflexivity|now right].
  - now left.
  - now apply not_quote.
  - now apply not_quote.
  - apply rs_chars; [vm_compute; reflexivity|]. apply (rs_shape _ _ _ _ J2000).
    + cbn. auto.
    + constructor.
    + apply system_given; [constructor|constructor|constructor|left; reflexivity|now right].
    + apply system_given; [constructor|repeat constructor|repeat constructor|left; reflexivity|left; reflexivity].
    + now apply not_quote.
    + now apply not_quote.
    + apply rs_chars; [vm_compute; reflexivity|]. apply (rs_shape _ _ _ _ ICRS).
      * cbn. auto.
      * constructor.
      * now left.
      * apply system_given; [repeat constructor|constructor|constructor|right; auto|right; auto].
      * now apply not_quote.
      * now apply not_quote.
      * constructor.
Qed.
Example C24_respelt_query_case : geometries_behind (fun a => ~ ends_with_and a) s1 /\ geometries_behind (fun a => ~ ends_with_and a) s2.
Proof. split; intros a w b E W; apply where_not_and; revert a w b E W; apply behind_where_b_sound; vm_compute; reflexivity. Qed.

(** ELLIPSE is not a reserved word, so that ellipse(...) may also be a call of a function; in the
    WHERE clause and in column lists such a call records the argument as it is written. *)
Theorem C24_ellipse_refuted :
  exists tm i j q q', i = L "SELECT ellipse('icrs',a) FROM t" /\ j = L "SELECT ellipse('ICRS',a) FROM t" /\
    parse_it tm i = Q_ok q /\ parse_it tm j = Q_ok q' /\ q <> q'.
Proof.
  exists [], (L "SELECT ellipse('icrs',a) FROM t"), (L "SELECT ellipse('ICRS',a) FROM t"). eexists; eexists.
  split; [reflexivity|]. split; [reflexivity|]. split; [vm_compute; reflexivity|]. split; [vm_compute; reflexivity|]. discriminate.
Qed.
Print Assumptions C24_ellipse_refuted.
