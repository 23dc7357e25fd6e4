(** C23, C24: the flag of a condition on geometries and its coordinate systems, in every query. *)
From Verif Require Import Query Print Spec SpecLexical SpecSpelling SpecSystem SpecFlags SpecCanon SpecNorm SpecNodes SpecUsual SpecBehind RewriteNot FlagProofs Properties12.

(** Every canonical query (SpecCanon.v) may be written with its conditions on geometries in other
    spellings - the flag behind, in front, or left out if it is 1, in parentheses if nothing else
    follows, coordinate systems in any spelling ([query_spelt], SpecFlags.v).  The text is accepted, the
    same conditions with the same flags are recorded, and the formatted text is the same. *)
Theorem C23_any_query :
  forall tm fmt q t q', canonical fmt q = true -> query_spelt fmt q t q' ->
    parse_it tm t = Q_ok q' /\ to_string fmt q' = to_string fmt q.
Proof. intros tm fmt q t q' C S. split; [now apply (parse_spelt tm fmt q)|now apply (query_print fmt q t)]. Qed.
Print Assumptions C23_any_query.
(** The constructor, if no geometry stands behind AND (C34). *)
Theorem C23_any_query_constructor :
  forall tm fmt q t q', canonical fmt q = true -> query_spelt fmt q t q' -> geometries_behind (fun a => ~ ends_with_and a) t ->
    query tm t = Q_ok q' /\ to_string fmt q' = to_string fmt q.
Proof. intros tm fmt q t q' C S G. unfold query. rewrite (not_behind_and t G). now apply C23_any_query. Qed.
Print Assumptions C23_any_query_constructor.
(** The queries that come from texts: the normal form (SpecNorm.v) of every accepted query with usual parts. *)
Theorem C23_accepted_query_partial :
  forall tm fmt input q t q', (forall d, fmt (fmt d) = fmt d) -> (forall n v, n <> [] -> lookup tm n = Some v -> upload_name v = true) ->
    query tm input = Q_ok q -> forallb (usual fmt) (nodes_qspec q) = true -> query_spelt fmt (normal fmt q) t q' ->
    parse_it tm t = Q_ok q' /\ to_string fmt q' = to_string fmt q.
Proof.
  intros tm fmt input q t q' I M H U S. destruct (C13_accepted_partial tm fmt input q I M H U) as (C & _ & E).
  rewrite <- E. now apply C23_any_query.
Qed.
Print Assumptions C23_accepted_query_partial.
Section Case.
Let fmt : text -> text := fun x => x.
Let col (c : string) : venb := VENB (Factor [] (NP_vep (VEP (VP_col (CR1 (L c))) []))) [].
Let ell : gpred := GP_contains (Soc_col (CR1 (L "p"))) (Soc_shape (Sh_ellipse J2000 (Coord (CS_col (CR1 (L "x"))) (CS_col (CR1 (L "y")))) (CS_col (CR1 (L "a"))) (CS_col (CR1 (L "b"))) (CS_col (CR1 (L "c"))))).
Let cut : gpred := GP_intersects (VE_nb (col "p")) (Soc_col (CR1 (L "q"))).
Let star : select := Select [] top_none (C_star (L "*")).
Let cond : sc := SC_f (BF [] (BP_pred (P_cmp (col "k") (L "=") (VE_nb (col "l"))))).
Let q (g1 g2 : geom) : qspec := QS None (SFW star [TR_tc (L "t") []] (Where (Some g1) (Some cond))) [Addon (L "UNION") (SFW star [TR_tc (L "u") []] (Where (Some g2) None))] [] None [].
Example C23_any_query_case :
  canonical fmt (q (G_right ell (L "0")) (G_right cut (L "1"))) = true /\
  query_spelt fmt (q (G_right ell (L "0")) (G_right cut (L "1")))
    (L "SELECT * FROM t WHERE 0 = CONTAINS(p,Ellipse('j2000' ,x,y,a,b,c)) AND k = l UNION SELECT * FROM u WHERE (INTERSECTS(p,q))")
    (q (G_left (L "0") ell) (G_right cut (L "1"))).
Proof.
  split; [vm_compute; reflexivity|].
  pose (u1 := L "CONTAINS(p,Ellipse('j2000' ,x,y,a,b,c))"). pose (u2 := L "INTERSECTS(p,q)").
  assert (P1 : predicate_spelt fmt ell u1).
  { exists (L "p"), (L "Ellipse('j2000' ,x,y,a,b,c)"). split; [reflexivity|]. split; [reflexivity|]. exists (L "Ellipse"), [], (L "'j2000' ,"). split; [reflexivity|]. split; [reflexivity|]. split; [constructor|].
    right. exists [], (L "'j2000'"), (L " "). split; [reflexivity|]. split; [constructor|]. split; [repeat constructor|].
    exists [], (L "j2000"), [], [], []. split; [reflexivity|]. split; [constructor|]. split; [constructor|]. split; [constructor|]. split; [left; reflexivity|now right]. }
  assert (P2 : predicate_spelt fmt cut u2) by (exists (L "q"); split; reflexivity).
  assert (W : white (L " ")) by repeat constructor.
  exact (qs_query fmt None _ _ _ _ _ _ [] None []
    (ss_sfw fmt star [TR_tc (L "t") []] _ _ _ (ws_both fmt ell (L "0") _ _ cond (gs_front fmt ell u1 (L "0") (L " ") (L " ") P1 W W)))
    (as_cons fmt (L "UNION") _ _ _ _ _ _ (ss_sfw fmt star [TR_tc (L "u") []] _ _ _ (ws_parentheses fmt cut _ _ _ (gs_alone fmt cut u2 P2))) (as_nil fmt))).
Qed.
End Case.

(** Behind "=" there must be a 0 or a 1: anything else is refused. *)
Theorem C23_other_flag_refused :
  forall tm fmt s ts p u w k, c_select fmt s = true -> forallb (c_tref fmt) ts = true -> ts <> [] -> c_gpred fmt p = true ->
    predicate_spelt fmt p u -> white w -> match skip k with c :: _ => c <> "0"%char /\ c <> "1"%char | [] => True end ->
    exists x, parse_it tm (pr_select fmt s ++ L " FROM " ++ join (L ", ") (map (pr_tref fmt) ts) ++ L " WHERE " ++ u ++ w ++ L "=" ++ k) = Q_err (E_expect x).
Proof. exact bad_flag. Qed.
Print Assumptions C23_other_flag_refused.
Example C23_other_flag_case : forall fmt, c_select fmt (Select [] top_none (C_star (L "*"))) = true /\ forallb (c_tref fmt) [TR_tc (L "t") []] = true /\
  c_gpred fmt (GP_contains (Soc_col (CR1 (L "p"))) (Soc_col (CR1 (L "q")))) = true /\
  predicate_spelt fmt (GP_contains (Soc_col (CR1 (L "p"))) (Soc_col (CR1 (L "q")))) (L "CONTAINS(p,q)").
Proof. intros fmt. split; [reflexivity|]. split; [reflexivity|]. split; [reflexivity|]. exists (L "p"), (L "q"). repeat split. Qed.
