(** C04, C06, C23, C24, C32, C33, C36: what is accepted, in every spelling. *)
From Verif Require Import Spec SpecLexical SpecContent SpecSpelling SpecNodes Query Print SpecCanon QueryProofs RewriteSound SpellMain PrintEq CanonHead Properties3 Properties8 Properties10 Around Written LexProofs.

(** ** C04: white space in front of the text is irrelevant, if there is no "$" in it. *)
Theorem C04_white_in_front_partial :
  forall tm w input q, white w -> ~ In "$"%char input -> query tm (w ++ input) = Q_ok q <-> query tm input = Q_ok q.
Proof. exact query_front. Qed.
Print Assumptions C04_white_in_front_partial.
Example C04_front_case : exists q, query default_mapping (L "select * from t where a=1 and contains(p,q)") = Q_ok q /\
  ~ In "$"%char (L "select * from t where a=1 and contains(p,q)") /\ white (L "  ").
Proof.
  eexists. split; [vm_compute; reflexivity|]. split; [|repeat constructor]. cbn. intuition discriminate.
Qed.
(** A "$" followed by "`" inside the WHERE clause is replaced by the text in front of WHERE when a
    geometry is moved, white space included. *)
Theorem C04_white_in_front_refuted :
  exists input q q', query default_mapping input = Q_ok q /\ query default_mapping (L " " ++ input) = Q_ok q' /\ q <> q'.
Proof.
  exists (L "select * from t where a='$`' and contains(p,q)"). eexists; eexists. split; [vm_compute; reflexivity|]. split; [vm_compute; reflexivity|]. vm_compute. discriminate.
Qed.
Print Assumptions C04_white_in_front_refuted.

(** ** C23: the flag in front, behind, or not at all, with any white space. *)
Theorem C23_accepted_partial :
  forall tm fmt ts p u g, forallb (c_tref fmt) ts = true -> ts <> [] -> c_gpred fmt p = true ->
  (exists f w1 w2 w3 w4, (f = L "0" \/ f = L "1") /\ white w1 /\ white w2 /\ white w3 /\ white w4 /\
     (u = w1 ++ f ++ w2 ++ L "=" ++ w3 ++ pr_gpred fmt p ++ w4 /\ g = G_left f p \/
      u = w1 ++ pr_gpred fmt p ++ w2 ++ L "=" ++ w3 ++ f ++ w4 /\ g = G_right p f \/
      u = w1 ++ pr_gpred fmt p ++ w2 /\ g = G_right p (L "1"))) ->
  parse_it tm (L "SELECT * FROM " ++ join (L ", ") (map (pr_tref fmt) ts) ++ L " WHERE " ++ u) =
  Q_ok (QS None (SFW (Select [] top_none (C_star (L "*"))) ts (Where (Some g) None)) [] [] None []).
Proof.
  intros tm fmt ts p u g C N P (f & w1 & w2 & w3 & w4 & F & W1 & W2 & W3 & W4 & H). apply (where_reads tm fmt); [exact C|exact N|].
  destruct H as [[-> ->]|[[-> ->]|[-> ->]]]; [eapply geom_left|eapply geom_right|eapply geom_alone]; eauto.
Qed.
Print Assumptions C23_accepted_partial.
Example C23_accepted_case : forall fmt,
  let p := GP_contains (Soc_col (CR1 (L "a"))) (Soc_shape (Sh_circle GALACTIC (Coord (CS_col (CR1 (L "x"))) (CS_col (CR2 (L "t") (L "y")))) (CS_col (CR1 (L "r"))))) in
  forallb (c_tref fmt) [TR_tc (L "t") []; TR_tc (L "u") (L "v")] = true /\ c_gpred fmt p = true /\ pr_gpred fmt p = L "CONTAINS(a,CIRCLE('GALACTIC GEOCENTER',x,t.y,r))".
Proof. intros fmt p. split; [|split]; reflexivity. Qed.
(** Any other right-hand side is refused: behind "=" there must be a 0 or a 1. *)
Example C23_other_case :
  (exists e, query default_mapping (L "select * from t where contains(a,b) = 2") = Q_err e) /\
  (exists e, query default_mapping (L "select * from t where contains(a,b) = x") = Q_err e).
Proof. split; eexists; vm_compute; reflexivity. Qed.

(** ** C24: the coordinate system in any spelling. *)
(** the arguments of a shape behind the coordinate system *)
Definition other_arguments (fmt : text -> text) (s : shape) : text :=
  match s with
  | Sh_point _ c => pr_coord fmt c
  | Sh_circle _ c r => pr_coord fmt c ++ L "," ++ pr_csae fmt r
  | Sh_box _ c w h => pr_coord fmt c ++ L "," ++ pr_csae fmt w ++ L "," ++ pr_csae fmt h
  | Sh_ellipse _ c a b r => pr_coord fmt c ++ L "," ++ pr_csae fmt a ++ L "," ++ pr_csae fmt b ++ L "," ++ pr_csae fmt r
  | Sh_polygon _ cs => join (L ",") (map (pr_coord fmt) cs)
  end.
Theorem C24_accepted_partial :
  forall tm fmt ts s b word w1 w2 system, forallb (c_tref fmt) ts = true -> ts <> [] -> c_shape fmt s = true -> c_soc fmt b = true ->
  upper word = L (shape_word s) -> white w1 -> white w2 ->
  (system = [] /\ shape_frame s = ICRS \/
   exists w3 st w4, system = w3 ++ st ++ w4 ++ L "," /\ white w3 /\ white w4 /\ system_text st (shape_frame s)) ->
  parse_it tm (L "SELECT * FROM " ++ join (L ", ") (map (pr_tref fmt) ts) ++ L " WHERE CONTAINS(" ++
               word ++ w1 ++ L "(" ++ system ++ other_arguments fmt s ++ L ")" ++ w2 ++ L "," ++ pr_soc fmt b ++ L ")") =
  Q_ok (QS None (SFW (Select [] top_none (C_star (L "*"))) ts (Where (Some (G_right (GP_contains (Soc_shape s) b) (L "1"))) None)) [] [] None []).
Proof.
  intros tm fmt ts s b word w1 w2 system C N Cs Cb U W1 W2 S.
  assert (E : other_arguments fmt s ++ L ")" = shape_rest fmt s) by (destruct s; cbn [other_arguments shape_rest]; now rewrite <- ?app_assoc).
  change (L " WHERE CONTAINS(" ++ ?x) with (L " WHERE " ++ L "CONTAINS(" ++ x). apply (where_reads tm fmt); [exact C|exact N|].
  intros i H. eapply (contains_shape tm fmt s b word w1 system [] w2 []); [exact Cs|exact Cb|exact U|exact W1|exact S|constructor|exact W2|constructor|].
  cbn [app]. rewrite H, <- E, app_nil_r, <- !app_assoc. reflexivity.
Qed.
Print Assumptions C24_accepted_partial.
Example C24_accepted_case : forall fmt,
  let s := Sh_box J2000 (Coord (CS_col (CR1 (L "x"))) (CS_col (CR1 (L "y")))) (CS_col (CR1 (L "w"))) (CS_col (CR1 (L "h"))) in
  c_shape fmt s = true /\ upper (L "bOx") = L (shape_word s) /\ system_text (L "'j2000Geocenter '") (shape_frame s) /\ system_text (L "'GeoCenter'") ICRS.
Proof.
  intros fmt s. split; [reflexivity|]. split; [reflexivity|]. split.
  - exists [], (L "j2000"), [], (L "Geocenter"), (L " "). split; [reflexivity|]. split; [constructor|]. split; [constructor|]. split; [repeat constructor|]. split; left; reflexivity.
  - exists [], [], [], (L "GeoCenter"), []. split; [reflexivity|]. split; [constructor|]. split; [constructor|]. split; [constructor|]. split; [right; split; reflexivity|left; reflexivity].
Qed.

(** ** C33: table-valued functions with arguments *)
Definition from_alone (t : tref) : qspec := QS None (SFW (Select [] top_none (C_star (L "*"))) [t] (Where None None)) [] [] None [].
Lemma from_text fmt t : to_string fmt (from_alone t) = L "SELECT * FROM " ++ pr_tref fmt t.
Proof. unfold to_string, from_alone. rewrite !pr_qspec_QS, pr_sfw_SFW, pr_select_Select. cbn [map join]. cbn. now rewrite !app_nil_r. Qed.
Lemma dotted_is t : dotted_name t -> is_dotted t = true.
Proof.
  intros (c & r & -> & Lc & F). cbn. apply andb_true_iff. split; [now apply is_letter_iff|]. apply forallb_forall. rewrite Forall_forall in F. intros x X.
  apply orb_true_iff. destruct (F x X) as [W| ->]; [left; now apply is_idchar_iff|now right].
Qed.
Lemma writes_T mapping k t P its : writes mapping k t (T P :: its) -> exists x t', P (t' ++ k) x /\ writes mapping k t' its.
Proof. intros W. inversion W; subst. eauto. Qed.
Theorem C33_arguments_partial :
  forall tm fmt input q f args, query tm input = Q_ok q -> In (N_tref (TR_tvf f args)) (nodes_qspec q) -> args <> [] ->
  parse_it tm (L "SELECT * FROM " ++ pr_tref fmt (TR_tvf f args)) = Q_ok (from_alone (TR_tvf f args)).
Proof.
  intros tm fmt input q f args H I N. destruct (accepted_spelled _ _ _ _ H I) as (t & a & u & b & P & E & S).
  assert (D : is_dotted f = true /\ forallb is_dotted args = true).
  { inversion S as [k' t' p its Q W]; subst. inversion Q; subst. apply writes_T in W as (x1 & t1 & (tb & _ & _ & Df) & W). split; [now apply dotted_is|].
    destruct args as [|x l]; [reflexivity|]. cbn [app] in W. apply writes_T in W as (x2 & t2 & (_ & Dx) & W). cbn [forallb]. rewrite (dotted_is _ Dx). cbn [andb]. clear - W.
    revert t2 W. induction l as [|y l IH]; intros t2 W; [reflexivity|]. cbn [flat_map app] in W. apply writes_T in W as (x3 & t3 & _ & W). apply writes_T in W as (x4 & t4 & (_ & Dy) & W).
    cbn [forallb]. rewrite (dotted_is _ Dy). cbn [andb]. eapply IH. exact W. }
  destruct D as [Df Da]. pose proof (C13_read_back tm fmt (from_alone (TR_tvf f args))) as R. rewrite from_text in R. apply R.
  cbn. rewrite Df, Da. destruct args; [congruence|reflexivity].
Qed.
Print Assumptions C33_arguments_partial.
Example C33_arguments_case : exists q, query default_mapping (L "select * from TABLE(a.f('b.c','d'))") = Q_ok q /\
  In (N_tref (TR_tvf (L "a.f") [L "b.c"; L "d"])) (nodes_qspec q) /\ pr_tref (fun x => x) (TR_tvf (L "a.f") [L "b.c"; L "d"]) = L "table(a.f('b.c','d'))".
Proof. eexists. split; [vm_compute; reflexivity|]. split; [|reflexivity]. repeat first [left; reflexivity | right]. Qed.

(** ** C32: joins with any nesting in parentheses are read back as they were *)
Theorem C32_read_back_partial :
  forall tm fmt j, c_jt fmt j = true -> parse_it tm (L "SELECT * FROM " ++ pr_jt fmt j) = Q_ok (from_alone (TR_jt j)).
Proof.
  intros tm fmt j C. pose proof (C13_read_back tm fmt (from_alone (TR_jt j))) as R. rewrite from_text, pr_tref_TR_jt in R. apply R.
  unfold canonical, from_alone. rewrite c_qspec_QS, c_sfw_SFW. cbn [forallb]. rewrite c_tref_TR_jt, C. reflexivity.
Qed.
Print Assumptions C32_read_back_partial.
Example C32_read_back_case :
  let col c := VENB (Factor [] (NP_vep (VEP (VP_col (CR1 (L c))) []))) [] in
  let j := JT_q (QJ (QH_jt (JT_p (JT_q (QJ (QH_tc (L "a") []) [JS false (JTy_outer (L "LEFT") true) (TR_tc (L "b") (L "y")) (Some (JSp_using [L "k"]))]))))
                    [JS false (JTy_plain []) (TR_jt (JT_p (JT_q (QJ (QH_tc (L "c") []) [JS true (JTy_plain (L "INNER")) (TR_tc (L "d") []) None])))) (Some (JSp_on (SC_f (BF [] (BP_pred (P_cmp (col "p"%string) (L "=") (VE_nb (col "q"%string))))))))]) in
  c_jt (fun x => x) j = true /\ pr_jt (fun x => x) j = L "(a LEFT OUTER JOIN b y USING (k) )  JOIN (c NATURAL INNER JOIN d ) ON p = q ".
Proof. split; vm_compute; reflexivity. Qed.

(** ** C06: names with up to four parts *)
Definition read_column (c : colref) : qspec :=
  QS None (SFW (Select [] top_none (C_list [CV_ve (VE_nb (VENB (Factor [] (NP_vep (VEP (VP_col c) []))) []))])) [TR_tc (L "t") []] (Where None None)) [] [] None [].
Theorem C06_qualified_partial :
  forall tm a b c d, is_value_name a = true -> is_name b = true -> is_name c = true -> is_name d = true ->
  parse_it tm (L "SELECT " ++ a ++ L " FROM t") = Q_ok (read_column (CR1 a)) /\
  parse_it tm (L "SELECT " ++ a ++ L "." ++ b ++ L " FROM t") = Q_ok (read_column (CR2 a b)) /\
  parse_it tm (L "SELECT " ++ a ++ L "." ++ b ++ L "." ++ c ++ L " FROM t") = Q_ok (read_column (CR3 a b c)) /\
  parse_it tm (L "SELECT " ++ a ++ L "." ++ b ++ L "." ++ c ++ L "." ++ d ++ L " FROM t") = Q_ok (read_column (CR4 a b c d)).
Proof.
  intros tm a b c d A B C D.
  assert (R : forall r, c_colref is_value_name r = true -> parse_it tm (L "SELECT " ++ pr_colref r ++ L " FROM t") = Q_ok (read_column r)).
  { intros r Cr. pose proof (C13_read_back tm (fun x => x) (read_column r)) as R. rewrite <- R.
    - f_equal. unfold to_string, read_column. cbn. rewrite <- ?app_assoc. cbn. rewrite ?app_nil_r, <- ?app_assoc. reflexivity.
    - unfold canonical, read_column. cbn. now rewrite Cr. }
  split; [apply (R (CR1 a)); cbn; now rewrite A|]. split; [|split].
  - rewrite <- (R (CR2 a b)); [|cbn; now rewrite A, B]. cbn [pr_colref]. now rewrite <- !app_assoc.
  - rewrite <- (R (CR3 a b c)); [|cbn; now rewrite A, B, C]. cbn [pr_colref]. now rewrite <- !app_assoc.
  - rewrite <- (R (CR4 a b c d)); [|cbn; now rewrite A, B, C, D]. cbn [pr_colref]. now rewrite <- !app_assoc.
Qed.
Print Assumptions C06_qualified_partial.
Example C06_qualified_case : is_value_name (L "tru_1") = true /\ is_name (L "falsehood") = true /\ is_name [dq; "t"; "."; dq; dq; dq]%char = true /\ is_name (L "cot") = true.
Proof. repeat split; vm_compute; reflexivity. Qed.

(** ** C36: a name that starts with a keyword (other than NOT and EXISTS) in a condition *)
Definition column (w : text) : venb := VENB (Factor [] (NP_vep (VEP (VP_col (CR1 w)) []))) [].
Definition where_alone (s : sc) : qspec := QS None (SFW (Select [] top_none (C_star (L "*"))) [TR_tc (L "t") []] (Where None (Some s))) [] [] None [].
(** the conditions that can be made of the columns [w] and [v] *)
Inductive about (w v : text) : text -> bprim -> Prop :=
| about_value : about w v w (BP_val (column w))
| about_cmp op : In op (map L ["="; "!="; "<>"; "<="; ">="; "<"; ">"]%string) -> about w v (w ++ L " " ++ op ++ L " " ++ v) (BP_pred (P_cmp (column w) op (VE_nb (column v))))
| about_between : about w v (w ++ L " BETWEEN " ++ v ++ L " AND " ++ v) (BP_pred (P_between (column w) [] (VE_nb (column v)) (VE_nb (column v))))
| about_not_between : about w v (w ++ L " NOT BETWEEN " ++ v ++ L " AND " ++ v) (BP_pred (P_between (column w) (L "NOT") (VE_nb (column v)) (VE_nb (column v))))
| about_in : about w v (w ++ L " IN (0, " ++ v ++ L ")") (BP_pred (P_in (column w) [] (In_list [VE_nb (VENB (Factor [] (NP_vep (VEP (VP_str (L "0")) []))) []); VE_nb (column v)])))
| about_null : about w v (w ++ L " IS NULL") (BP_pred (P_null (column w) []))
| about_not_null : about w v (w ++ L " IS NOT NULL") (BP_pred (P_null (column w) (L "NOT")))
| about_like : about w v (w ++ L " LIKE " ++ v) (BP_pred (P_like (column w) [] (VE_nb (column v)))).
Lemma begins_app (u : string) w k : begins_with_nc u w = false -> match k with [] => True | c :: _ => c = " "%char end -> forallb (fun a => negb (eq_nc a " ")) (L u) = true -> begins_with_nc u (w ++ k) = false.
Proof.
  unfold begins_with_nc. generalize (L u) as l. clear u. intros l. revert w. induction l as [|a l IH]; intros w S K F; [now destruct w|].
  cbn [forallb] in F. apply andb_true_iff in F as [Fa F]. destruct w as [|b w].
  - cbn [app strip] in *. destruct k as [|c k]; [reflexivity|]. subst c. cbn [eq_ch]. apply negb_true_iff in Fa. now rewrite Fa.
  - cbn [app strip] in *. destruct (eq_ch true a b); [|reflexivity]. specialize (IH w). destruct (strip true l w) as [[]|]; [discriminate|].
    specialize (IH eq_refl K F). destruct (strip true l (w ++ k)) as [[]|]; [discriminate|reflexivity].
Qed.
Lemma name_no_paren w k : is_value_name w = true -> head_is "(" (w ++ k) = false.
Proof.
  unfold is_value_name, is_name. intros [[H|H]%orb_true_iff _]%andb_true_iff.
  - unfold free_word in H. apply andb_true_iff in H as [H _]. destruct w as [|c w]; [discriminate|]. cbn in *. apply andb_true_iff in H as [H _]. revert H. destruct c as [[] [] [] [] [] [] [] []]; vm_compute; congruence.
  - destruct w as [|c w]; [discriminate|]. unfold is_delimited, between in H. destruct (rev w); [discriminate|]. destruct (Ascii.eqb_spec c dq) as [->|]; [reflexivity|discriminate].
Qed.
Theorem C36_names_partial :
  forall tm w v t p, is_value_name w = true -> is_value_name v = true -> begins_with_nc "NOT" w = false -> begins_with_nc "EXISTS" w = false ->
  about w v t p ->
  parse_it tm (L "SELECT * FROM t WHERE " ++ t) = Q_ok (where_alone (SC_f (BF [] p))) /\
  parse_it tm (L "SELECT * FROM t WHERE NOT " ++ t) = Q_ok (where_alone (SC_f (BF (L "NOT") p))) /\
  parse_it tm (L "SELECT * FROM t WHERE " ++ t ++ L " OR " ++ t) = Q_ok (where_alone (SC_t (BF [] p) (L "OR") (SC_f (BF [] p)))).
Proof.
  intros tm w v t p W V N E A. set (id := fun x : text => x).
  assert (R : forall s u, c_sc id s = true -> pr_sc id s = u -> parse_it tm (L "SELECT * FROM t WHERE " ++ u) = Q_ok (where_alone s)).
  { intros s u C <-. pose proof (sc_nonempty id s C) as Em. pose proof (C13_read_back tm id (where_alone s)) as R. rewrite <- R.
    - f_equal. unfold to_string, where_alone. rewrite pr_qspec_QS, pr_sfw_SFW, pr_select_Select, pr_where_Where. cbn [where_empty opt_empty andb]. rewrite Em. cbn. now rewrite ?app_nil_r.
    - unfold canonical, where_alone. rewrite c_qspec_QS, c_sfw_SFW, c_where_Where, C. reflexivity. }
  assert (P : c_bprim id p = true /\ pr_bprim id p = t /\ begins_with_nc "NOT" t = false /\ open_f (BF [] p) = false).
  { assert (Cw : c_venb id (column w) = true) by (cbn; now rewrite W). assert (Cv : c_venb id (column v) = true) by (cbn; now rewrite V).
    assert (Pw : forall x, pr_venb id (column x) = x) by (intros x; cbn; now rewrite ?app_nil_r).
    assert (Nw : forall k, match k with [] => True | c :: _ => c = " "%char end -> begins_with_nc "NOT" (w ++ k) = false) by (intros k K; now apply begins_app).
    pose proof (name_no_paren w [] W) as Np. rewrite app_nil_r in Np.
    destruct A; (split; [|split; [|split; [|reflexivity]]]); autorewrite with c_eq pr_eq; cbn [map forallb open_ve is_nil]; autorewrite with c_eq pr_eq; rewrite ?Pw, ?Cw, ?Cv, ?Np, ?N, ?E; try reflexivity; try (now apply Nw).
    rewrite andb_true_r. now apply CanonLex.one_of_iff. }
  destruct P as (C & Pt & Nt & O).
  assert (C0 : c_bfac id (BF [] p) = true) by (rewrite c_bfac_BF, Pt, Nt, C; reflexivity). assert (C1 : c_bfac id (BF (L "NOT") p) = true) by (rewrite c_bfac_BF, C; reflexivity).
  assert (S0 : c_sc id (SC_f (BF [] p)) = true) by (now rewrite c_sc_SC_f). assert (S1 : c_sc id (SC_f (BF (L "NOT") p)) = true) by (now rewrite c_sc_SC_f).
  assert (S2 : c_sc id (SC_t (BF [] p) (L "OR") (SC_f (BF [] p))) = true) by (rewrite c_sc_SC_t, C0, S0, O; reflexivity).
  split; [|split].
  - apply R; [exact S0|]. rewrite pr_sc_f by exact S0. rewrite pr_bfac_BF. exact Pt.
  - apply (R _ (L "NOT " ++ t)); [exact S1|]. rewrite pr_sc_f by exact S1. rewrite pr_bfac_BF. now rewrite Pt.
  - apply (R _ (t ++ L " OR " ++ t)); [exact S2|]. rewrite pr_sc_t by exact S2. rewrite pr_sc_f by exact S0. rewrite pr_bfac_BF, Pt. reflexivity.
Qed.
Print Assumptions C36_names_partial.
Example C36_names_case :
  is_value_name (L "in_x") = true /\ begins_with_nc "NOT" (L "in_x") = false /\ begins_with_nc "EXISTS" (L "in_x") = false /\
  is_value_name (L "NOTE") = true /\ is_value_name (L "between2") = true /\
  about (L "in_x") (L "NOTE") (L "in_x BETWEEN NOTE AND NOTE") (BP_pred (P_between (column (L "in_x")) [] (VE_nb (column (L "NOTE"))) (VE_nb (column (L "NOTE"))))).
Proof. repeat split; try (vm_compute; reflexivity). apply (about_between (L "in_x") (L "NOTE")). Qed.
