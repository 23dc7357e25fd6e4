(** C10, C23, C24, C32, C35: accepted text is written according to the grammar of SpecSpelling.v. *)
From Verif Require Import Query Spec SpecLexical SpecContent SpecNodes SpecSpelling Print Throws QueryProofs NodeProps
  Nodes SpellMain SpellUse MappingProofs.

Lemma accepted_spelled tm input q n : query tm input = Q_ok q -> In n (nodes_qspec q) ->
  exists t a u b, preprocess input = inr t /\ t = a ++ u ++ b /\ spells (lookup tm) b u (X n).
Proof.
  intros H I. apply query_accepted in H as (t & P & H). destruct (accepted_part _ _ _ _ H I) as (a & u & b & E & S). eauto 8.
Qed.

(** ** C35: order and association
    [operands v] lists the signed operands of an expression with the operators between them, in
    order, [conditions s] the conditions of a chain with NOT and the connectives.  Every
    expression (search condition, comparison) of an accepted query stands in the text, written
    in this order. *)
Theorem C35_operands :
  forall tm input q v, query tm input = Q_ok q -> In (N_venb v) (nodes_qspec q) ->
  exists t a u b, preprocess input = inr t /\ t = a ++ u ++ b /\ writes (lookup tm) b u (operands v).
Proof.
  intros tm input q v H I. destruct (accepted_spelled _ _ _ _ H I) as (t & a & u & b & P & E & S). apply opens_venb in S. eauto 8.
Qed.
Print Assumptions C35_operands.
Theorem C35_conditions :
  forall tm input q s, query tm input = Q_ok q -> In (N_sc s) (nodes_qspec q) ->
  exists t a u b, preprocess input = inr t /\ t = a ++ u ++ b /\ writes (lookup tm) b u (conditions s).
Proof.
  intros tm input q v H I. destruct (accepted_spelled _ _ _ _ H I) as (t & a & u & b & P & E & S). apply opens_sc in S. eauto 8.
Qed.
Print Assumptions C35_conditions.
Theorem C35_comparison :
  forall tm input q l o r, query tm input = Q_ok q -> In (N_pred (P_cmp l o r)) (nodes_qspec q) ->
  exists t a u b, preprocess input = inr t /\ t = a ++ u ++ b /\
    writes (lookup tm) b u [Pt (X (N_venb l)); one_mark ["="; "!="; "<>"; "<="; ">="; "<"; ">"]%string o; Pt (X (N_ve r))].
Proof.
  intros tm input q l o r H I. destruct (accepted_spelled _ _ _ _ H I) as (t & a & u & b & P & E & S).
  inversion S as [k' t' p its Q W]; subst. inversion Q; subst. eauto 8.
Qed.
Print Assumptions C35_comparison.
(** The whole text. *)
Theorem C35_text :
  forall tm input q, query tm input = Q_ok q -> exists t, preprocess input = inr t /\ written (lookup tm) t q.
Proof. intros tm input q H. apply query_accepted in H as (t & P & H). exists t. split; auto. now apply spelled. Qed.
Print Assumptions C35_text.
Definition a_column (x : string) : nprim := NP_vep (VEP (VP_col (CR1 (L x))) []).
Definition an_operand (x : string) : factor := Factor [] (a_column x).
Definition x_below_1 : pred := P_cmp (VENB (an_operand "x") []) (L "<") (VE_nb (VENB (Factor [] (NP_vep (VEP (VP_str (L "1")) []))) [])).
Example C35_case : exists q,
  query default_mapping (L "select a-b*-c from t where x<1 or not y") = Q_ok q /\
  In (N_venb (VENB (an_operand "a") [VTerm (L "-") (an_operand "b"); VTerm (L "*") (Factor (L "-") (a_column "c"))])) (nodes_qspec q) /\
  In (N_sc (SC_t (BF [] (BP_pred x_below_1)) (L "or") (SC_f (BF (L "not") (BP_val (VENB (an_operand "y") [])))))) (nodes_qspec q) /\
  In (N_pred x_below_1) (nodes_qspec q).
Proof.
  eexists. split; [vm_compute; reflexivity|]. split; [|split]; repeat first [left; reflexivity | right].
Qed.

(** ** C32: joins
    [join_items] says how a join is written: what it starts with, then for each joined table
    NATURAL, the kind, JOIN, the table and ON or USING; a join in parentheses is a part of its
    own.  Missing for the full property: that formatted joins are read back (see C13). *)
Theorem C32_written_partial :
  forall tm input q j, query tm input = Q_ok q -> In (N_jt j) (nodes_qspec q) ->
  exists t a u b, preprocess input = inr t /\ t = a ++ u ++ b /\ writes (lookup tm) b u (join_items (lookup tm) j).
Proof.
  intros tm input q v H I. destruct (accepted_spelled _ _ _ _ H I) as (t & a & u & b & P & E & S). apply opens_jt in S. eauto 8.
Qed.
Print Assumptions C32_written_partial.
Example C32_case : exists q j,
  query default_mapping (L "select * from (a left join b using (x)) natural join c") = Q_ok q /\
  In (N_jt (JT_q (QJ (QH_jt (JT_p j)) [JS true (JTy_plain []) (TR_tc (L "c") []) None]))) (nodes_qspec q) /\
  In (N_jt j) (nodes_qspec q) /\
  j = JT_q (QJ (QH_tc (L "a") []) [JS false (JTy_outer (L "left") false) (TR_tc (L "b") []) (Some (JSp_using [L "x"]))]).
Proof.
  eexists; eexists. split; [vm_compute; reflexivity|]. split; [|split]; [| |reflexivity]; repeat first [left; reflexivity | right].
Qed.

(** ** C23: the flag of a geometry condition
    [flag_written]: the flag stands in front or behind, or there is none, and no "=" follows, and
    the recorded flag is 1. *)
Theorem C23_flag_partial :
  forall tm input q g, query tm input = Q_ok q -> In (N_geom g) (nodes_qspec q) ->
  exists t a u b, preprocess input = inr t /\ t = a ++ u ++ b /\ flag_written (lookup tm) b u g.
Proof.
  intros tm input q g H I. apply query_accepted in H as (t & P & H). apply (accepted_node _ _ _ _ H) in I.
  destruct I as (n & i & r & (a & ->) & R). apply flag_run in R as (u & -> & F). eauto 8.
Qed.
Print Assumptions C23_flag_partial.
(** The formatted condition ends with the flag. *)
Theorem C23_formatted_partial :
  forall tm input q g fmt, (forall n t, n <> [] -> lookup tm n = Some t -> t <> []) ->
  query tm input = Q_ok q -> In (N_geom g) (nodes_qspec q) ->
  pr_geom fmt g = match g with G_left f p | G_right p f => pr_gpred fmt p ++ L "=" ++ f end.
Proof.
  intros tm input q g fmt Hm H I. apply query_accepted in H as (t & P & H). apply (accepted_node _ _ _ _ H) in I.
  apply (geom_from _ _ Hm) in I. destruct g; cbn [geom_empty pr_geom] in *; now rewrite I.
Qed.
Print Assumptions C23_formatted_partial.
Example C23_case : exists q1 q2 q3 p,
  query default_mapping (L "select * from t where contains(a,b)") = Q_ok q1 /\ In (N_geom (G_right p (L "1"))) (nodes_qspec q1) /\
  query default_mapping (L "select * from t where contains(a,b) = 0") = Q_ok q2 /\ In (N_geom (G_right p (L "0"))) (nodes_qspec q2) /\
  query default_mapping (L "select * from t where 0 = contains(a,b)") = Q_ok q3 /\ In (N_geom (G_left (L "0") p)) (nodes_qspec q3).
Proof.
  eexists; eexists; eexists. exists (GP_contains (Soc_col (CR1 (L "a"))) (Soc_col (CR1 (L "b")))).
  split; [vm_compute; reflexivity|]. split; [repeat first [left; reflexivity | right]|].
  split; [vm_compute; reflexivity|]. split; [repeat first [left; reflexivity | right]|].
  split; [vm_compute; reflexivity|]. repeat first [left; reflexivity | right].
Qed.

(** ** C24: the coordinate system of a shape *)
Theorem C24_frame_partial :
  forall tm input q n s, query tm input = Q_ok q -> In n (nodes_qspec q) -> node_shape n = Some s ->
  exists t a w word w' rest, preprocess input = inr t /\ t = a ++ w ++ word ++ w' ++ L "(" ++ rest /\
    white w /\ white w' /\ upper word = L (shape_word s) /\ frame_written rest (shape_frame s).
Proof.
  intros tm input q n s H I E. destruct (accepted_spelled _ _ _ _ H I) as (t & a & u & b & P & -> & S).
  destruct (node_system _ _ _ _ _ S E) as (w & x & w' & rest & -> & W & W' & U & F).
  eexists. exists a, w, x, w', (rest ++ b). split; [exact P|]. split; [now rewrite <- !app_assoc|]. auto.
Qed.
Print Assumptions C24_frame_partial.
(** The formatted shape names the frame and the position. *)
Theorem C24_formatted :
  forall fmt s, exists rest,
  pr_shape fmt s = L (shape_word s) ++ L "('" ++ L (frame_name (shape_frame s)) ++ L " GEOCENTER'" ++ rest.
Proof. intros fmt [[]|[]|[]|[]|[]]; eexists; cbn; reflexivity. Qed.
Print Assumptions C24_formatted.
Example C24_case : exists q n s,
  query default_mapping (L "select coord1(point(' Galactic ',1,2)) from t") = Q_ok q /\
  In n (nodes_qspec q) /\ node_shape n = Some s /\ shape_frame s = GALACTIC.
Proof.
  eexists. exists (N_poc (Poc_point GALACTIC (Coord (CS_dbl (L "1")) (CS_dbl (L "2"))))). eexists.
  split; [vm_compute; reflexivity|]. split; [repeat first [left; reflexivity | right]|]. split; reflexivity.
Qed.

(** ** C10: uploaded tables
    Every name of a table in an accepted query is what the mapping gives for a TAP_UPLOAD.n in
    the text, or consists of identifiers none of which is TAP_UPLOAD, in any letter case; no
    other name in a column is TAP_UPLOAD. *)
Theorem C10_replaced :
  forall tm input q n, query tm input = Q_ok q -> In n (nodes_qspec q) ->
  exists t, preprocess input = inr t /\
    Forall (fun v => uploaded (lookup tm) t v \/ ordinary v) (node_tables n) /\
    Forall (fun s => exists v, s = v ++ L ".*" /\ (uploaded (lookup tm) t v \/ ordinary v)) (node_stars n) /\
    Forall ordinary (node_parts n).
Proof.
  intros tm input q n H I. destruct (accepted_spelled _ _ _ _ H I) as (t & a & u & b & P & -> & S).
  destruct (node_names _ _ _ _ a S) as (N1 & N2 & N3). eauto.
Qed.
Print Assumptions C10_replaced.
(** The mapping matters only for the names it lacks: with more names in the mapping the result is
    the same, or the error was that a table TAP_UPLOAD.n in the text is not in the mapping. *)
Theorem C10_missing :
  forall tm tm' input, (forall n v, lookup tm n = Some v -> lookup tm' n = Some v) ->
  query tm input = query tm' input \/
  exists t n, preprocess input = inr t /\ query tm input = Q_err (E_table n) /\ lookup tm n = None /\ occurs (L "TAP_UPLOAD." ++ n) t.
Proof.
  intros tm tm' input Hm. unfold query. destruct (preprocess input) as [e|t] eqn:P; [now left|].
  destruct (larger_mapping tm tm' t Hm) as [E|(n & E & N)]; [now left|right]. exists t, n. repeat split; auto.
  unfold parse_it in E. destruct (grun _ _ _ _) as [q r|r|[x|x]|] eqn:R; try discriminate; [destruct (skip r); discriminate|].
  injection E as <-. now apply query_table_error in R as [R _].
Qed.
Print Assumptions C10_missing.
Example C10_case : exists tm q,
  lookup tm (L "foo") = Some (L "up.bar") /\ (forall n v, lookup default_mapping n = Some v -> lookup tm n = Some v) /\
  query tm (L "select TAP_UPLOAD.foo.* from TAP_UPLOAD.foo") = Q_ok q /\
  In (N_tref (TR_tc (L "up.bar") [])) (nodes_qspec q) /\ In (N_colv (CV_star (L "up.bar.*"))) (nodes_qspec q) /\
  query default_mapping (L "select TAP_UPLOAD.foo.* from TAP_UPLOAD.foo") = Q_err (E_table (L "foo")) /\
  query tm (L "select * from tap_upload.foo") <> query tm (L "select * from TAP_UPLOAD.foo").
Proof.
  exists ((L "foo", L "up.bar") :: default_mapping). eexists. split; [reflexivity|].
  split; [intros [|c n] v; cbn; [auto|discriminate]|]. split; [vm_compute; reflexivity|].
  split; [repeat first [left; reflexivity | right]|]. split; [repeat first [left; reflexivity | right]|]. split; vm_compute; [reflexivity|discriminate].
Qed.
