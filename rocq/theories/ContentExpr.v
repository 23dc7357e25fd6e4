(** C14: the content of expressions. *)
From Verif Require Import Query PegProps Gen Spec TextLemmas SpecLexical LexProofs LexProofs2 LexDec First Operand TopProofs NonEmpty SpecContent
  ContentCalc ContentLeaves ContentTokens ContentOut ContentNames ContentShapes.

Create HintDb cont discriminated.
#[export] Hint Constants Opaque : cont.

Section Strongest.
Variable stray : Prop.
Variable Nr : forall r, attr r -> list text -> Prop.
Lemma c_map1 {A B : Set} (f : A -> B) (a : PE A) P : cont stray Nr a P -> cont stray Nr (PMap f a) (fun w l => exists v, w = f v /\ P v l).
Proof. intros H. eapply c_map; eauto. Qed.
Lemma c0_map1 {A B : Set} (f : A -> B) (a : PE A) P : cont0 stray Nr a P -> cont0 stray Nr (PMap f a) (fun w l => exists v, w = f v /\ P v l).
Proof. intros H. eapply c0_map; eauto. Qed.
Lemma c_alt1 {A : Set} (a b : PE A) P Q : cont stray Nr a P -> cont stray Nr b Q -> cont stray Nr (PAlt a b) (fun v l => P v l \/ Q v l).
Proof. intros Ha Hb. apply c_alt; eapply c_weak; eauto; cbn; auto. Qed.
Lemma c0_alt1 {A : Set} (a b : PE A) P Q : cont0 stray Nr a P -> cont0 stray Nr b Q -> cont0 stray Nr (PAlt a b) (fun v l => P v l \/ Q v l).
Proof. intros Ha Hb. apply c0_alt; eapply c0_weak; eauto; cbn; auto. Qed.
End Strongest.

Ltac leaf := solve [eauto 2 with cont nocore].
Ltac cg0 :=
  lazymatch goal with
  | |- cont0 _ _ (PSeq _ _) _ => first [eapply c0_seq; [cg0|cg0] | eapply c0_seqn; [reflexivity|cgc|cg0]]
  | |- cont0 _ _ (PExp _ _) _ => eapply cont0_exp; cg0
  | |- cont0 _ _ (PAlt _ _) _ => eapply c0_alt1; [cg0|cg0]
  | |- cont0 _ _ (PMap _ _) _ => eapply c0_map1; cg0
  | |- cont0 _ _ (POpt _) _ => eapply c0_opt; cg0
  | |- cont0 _ _ (PRet _) _ => eapply c0_ret
  | |- cont0 _ _ PSpace _ => eapply c0_space
  | |- cont0 _ _ (lit _) _ => eapply c0_lit; solve [cbn; tauto]
  | |- cont0 _ _ (kw _) _ => eapply c0_kw; reflexivity
  | |- cont0 _ _ ident _ => eapply c0_ident
  | |- cont0 _ _ PDbl _ => eapply c0_dbl
  | |- cont0 _ _ PTop _ => eapply c0_top
  | |- cont0 _ _ (PLex (kw_soft _)) _ => eapply c0_kw_soft; reflexivity
  | |- cont0 _ _ (PLex (kw_hard _)) _ => eapply c0_kw_hard; reflexivity
  | |- cont0 _ _ (PLex (kws_soft _)) _ => first [leaf | eapply c0_kws_soft; reflexivity]
  | |- cont0 _ _ (PLex (strs_cs _)) _ => eapply c0_marks; reflexivity
  | |- cont0 _ _ (PRule _) _ => fail
  | |- _ => leaf
  end
with cgc :=
  lazymatch goal with
  | |- cont _ _ (PSeq _ _) _ => first [eapply c_seq; [cg0|cgc] | eapply c_seqn; [reflexivity|cgc|cgc]]
  | |- cont _ _ (PExp _ _) _ => eapply cont_exp; cgc
  | |- cont _ _ (PAlt _ _) _ => eapply c_alt1; [cgc|cgc]
  | |- cont _ _ (PMap _ _) _ => eapply c_map1; cgc
  | |- cont _ _ (POpt _) _ => eapply c_opt; cgc
  | |- cont _ _ (PStar _) _ => eapply c_star; [reflexivity|cgc]
  | |- cont _ _ (PPlus _) _ => eapply c_plus; [reflexivity|cgc]
  | |- cont _ _ (PList _ (lit ",")) _ => eapply c_list; cgc
  | |- cont _ _ (PRule _) _ => eapply c_rule
  | |- cont _ _ p_ve _ => eapply (c_rule _ _ R_ve)
  | |- cont _ _ p_venb _ => eapply (c_rule _ _ R_venb)
  | |- cont _ _ p_sc _ => eapply (c_rule _ _ R_sc)
  | |- cont _ _ p_subq _ => eapply (c_rule _ _ R_subq)
  | |- cont _ _ p_jt _ => eapply (c_rule _ _ R_jt)
  | |- cont _ _ p_tref _ => eapply (c_rule _ _ R_tref)
  | |- _ => first [leaf | eapply cont_of; cg0]
  end.
(** Opening what was found. *)
Ltac opn1 := match goal with
  | H : both _ _ ?v _ |- _ => let l1 := fresh "l" in let l2 := fresh "l" in let A := fresh "A" in let B := fresh "B" in
      destruct H as (l1 & l2 & -> & A & B); (is_var v; destruct v || idtac); cbn [fst snd] in A, B
  | H : kwo _ _ _ |- _ => let x := fresh "x" in let U := fresh "U" in destruct H as (x & -> & U)
  | H : exists _, _ |- _ => destruct H
  | H : _ /\ _ |- _ => destruct H
  | H : _ = _ |- _ => progress (cbn [fst snd] in H); idtac
  | H : ?x = _ |- _ => is_var x; subst x
  | x : (_ * _)%type |- _ => destruct x; cbn [fst snd] in *
  | x : unit |- _ => destruct x
  | H : optly _ ?o _ |- _ => is_var o; destruct o; cbn [optly] in H
  | H : optly _ _ _ |- _ => progress cbn [optly] in H
  end.

Section Expr.
Variable m : text -> option text.
Variable fmt : text -> text.
Variable stray : Prop.
Hypothesis Hm : forall n t, n <> [] -> m n = Some t -> t <> [].
Notation norm := (normal m fmt stray).
Notation prn := (prn m fmt stray).
Notation outs := (outs m fmt).
Notation shut := (shut m fmt).

(** [v] is written as the tokens [l], up to the permitted changes, and is not "empty". *)
Definition okp {A : Type} (emp : A -> bool) (pr : A -> text) (v : A) (l : list text) : Prop := emp v = false /\ prn (pr v) l.
Definition never {A : Type} (_ : A) : bool := false.
Definition Nrule (r : rule) : attr r -> list text -> Prop :=
  match r return attr r -> list text -> Prop with
  | R_ve => okp ve_empty (pr_ve fmt)
  | R_venb => okp venb_empty (pr_venb fmt)
  | R_sc => okp sc_empty (pr_sc fmt)
  | R_subq => okp subq_empty (pr_subq fmt)
  | R_jt => okp jt_empty (pr_jt fmt)
  | R_tref => okp never (pr_tref fmt)
  end.
Notation cont := (cont stray Nrule).
Notation cont0 := (cont0 stray Nrule).


(** Tokens that are written as they are. *)
Lemma prn_one v l : l = [v] -> token v -> v <> [] -> is_nil v = false /\ prn v l.
Proof. intros -> T N. split; [now destruct v|now apply prn_token]. Qed.
Lemma namep_prn v l : namep v l -> is_nil v = false /\ prn v l.
Proof.
  intros [-> [W|D]]; (apply prn_one; [reflexivity|unfold token; auto|]); [destruct W as (c & w & -> & _)|destruct D as (b & -> & _)]; discriminate.
Qed.
Lemma tablep_prn v l : tablep m fmt stray v l -> is_nil v = false /\ prn v l.
Proof. intros [N H]. split; auto. now destruct v. Qed.
Lemma fixedp_prn v l : fixedp m fmt stray v l -> is_nil v = false /\ prn v l.
Proof. intros [N H]. split; auto. now destruct v. Qed.
Lemma kwp_prn ws v l : kwp ws v l -> is_nil v = false /\ prn v l.
Proof. intros H. destruct (kwp_token _ _ _ H) as [T N]. apply prn_one; auto. apply H. Qed.
Lemma word_nonnil w : word w -> w <> []. Proof. intros (c & x & -> & _). discriminate. Qed.
Lemma wordp_prn v l : wordp v l -> is_nil v = false /\ prn v l.
Proof. intros [-> W]. apply prn_one; auto; [now left|now apply word_nonnil]. Qed.
Lemma parts_nonnil s : literal_parts s -> s <> [].
Proof. intros [t (b & -> & _)|t p u H _ (b & -> & _)]; [discriminate|]. destruct t, p; discriminate. Qed.
Lemma number_nonnil n : number n -> n <> [].
Proof. intros H. apply number_starts in H as (c & t & -> & _). discriminate. Qed.
Lemma litp_prn v l : litp v l -> is_nil v = false /\ prn v l.
Proof.
  intros [-> [N|[P|W]]]; apply prn_one; auto; unfold token; auto 6 using number_nonnil, parts_nonnil, word_nonnil.
Qed.
Lemma digitsp_prn v l : digitsp v l -> is_nil v = false /\ prn v l.
Proof.
  intros [-> D]. apply prn_one; auto; [|apply D]. do 3 right. left. left. now left.
Qed.
Lemma markp_shut ms v l : forallb (fun s => mem (L s) marks) ms = true -> markp ms v l -> is_nil v = false /\ shut v l /\ safe v /\ norm l l.
Proof.
  intros F [-> H]. apply (marks_incl ms) in H; auto.
  assert (X : is_nil v = false /\ safe v).
  { clear F. unfold marks in H. cbn [map] in H. repeat (destruct H as [<-|H]; [split; [reflexivity|now apply safe_cons]|]). destruct H. }
  destruct X. repeat split; auto; [now apply shut_mark|constructor].
Qed.
Lemma realp_prn v l : realp v l -> prn (fmt v) l.
Proof. intros [-> R]. exists [fmt v]. split; [now apply outs_fmt|now constructor]. Qed.

Lemma commas_join (f : ve -> text) vs l : commas (okp ve_empty f) vs l -> vs <> [] /\ is_nil vs = false /\ prn (join (L ",") (map f vs)) l.
Proof.
  intros H. destruct (commas_ne _ _ _ H) as [N E]. split; auto. split; auto.
  apply (join_out m fmt stray _ f (L ",")) in H; auto. intros ? ? _ [_ X]; exact X.
Qed.
Ltac opn2 := repeat first
  [ opn1
  | match goal with
    | H : namep _ _ |- _ => apply namep_prn in H
    | H : tablep _ _ _ _ _ |- _ => apply tablep_prn in H
    | H : fixedp _ _ _ _ _ |- _ => apply fixedp_prn in H
    | H : kwp _ _ _ |- _ => apply kwp_prn in H
    | H : wordp _ _ |- _ => apply wordp_prn in H
    | H : litp _ _ |- _ => apply litp_prn in H
    | H : digitsp _ _ |- _ => apply digitsp_prn in H
    | H : commas (Nrule R_ve) _ _ |- _ => apply (commas_join (pr_ve fmt)) in H
    | H : realp _ _ |- _ => apply realp_prn in H
    | H : markp _ _ _ |- _ => apply markp_shut in H; [|reflexivity]
    | H : okp _ _ _ _ |- _ => destruct H
    | H : Nrule _ _ _ |- _ => destruct H
    | H : ContentOut.prn _ _ _ _ _ |- _ => let l := fresh "l'" in let O := fresh "O" in let N := fresh "N" in destruct H as (l & O & N)
    end ].
Ltac red_pr := unfold okp, never; cbn [pr_colref pr_csae pr_coord pr_shape pr_soc pr_poc pr_sort pr_jtype
  pr_ve pr_venb pr_vterm pr_factor pr_nprim pr_nvf pr_vep pr_vepv pr_swhen pr_qwhen pr_result pr_sc pr_bfac pr_bprim pr_pred pr_intarget pr_subq
  pr_jt pr_qjoin pr_qjhead pr_jsuf pr_jspec pr_tref pr_qspec pr_with pr_addon pr_sfw pr_where pr_geom pr_gpred pr_select pr_columns pr_colv pr_gterm
  colref_empty csae_empty coordinate_empty shape_empty soc_empty nvf_empty sfw_empty qspec_empty jt_empty qjoin_empty qjhead_empty subq_empty
  ve_empty venb_empty factor_empty nprim_empty vep_empty vepv_empty sc_empty bfac_empty bprim_empty pred_empty result_empty gpred_empty geom_empty
  opt_empty where_empty with_empty jspec_empty is_nil odef dflt fst snd orb].
Ltac nils := repeat match goal with H : is_nil ?t = false |- context [is_nil ?t] => rewrite H end.
Ltac fin := red_pr; nils; rewrite <- ?app_assoc; cbn [app map join]; split; [try assumption; try reflexivity|eexists; split; [outs_tac|norm_tac]].
Lemma c0_colref : cont0 (g_column_reference m) (okp colref_empty pr_colref).
Proof.
  pose proof (c0_upload m fmt stray Nrule Hm).
  eapply c0_weak.
  { unfold g_column_reference, g_catalog_schema_qualifier_column, g_schema_qualifier_column, g_qualifier_column. cg0. }
  cbn beta. intros v l [H0|[H0|[H0|H0]]]; opn2; try (fin; fail).
  match goal with H : _ \/ _ |- _ => destruct H end; opn2; fin.
Qed.
#[local] Hint Resolve c0_colref : cont.

(** ** Coordinates and shapes *)
Lemma c0_csae : cont0 (g_csae m) (okp csae_empty (pr_csae fmt)).
Proof.
  pose proof (c0_arith stray Nrule).
  eapply c0_weak.
  { unfold g_csae, g_binary_arithmetic_expression. cg0. }
  cbn beta. intros v l [H0|[H0|H0]]; opn2; fin.
Qed.
#[local] Hint Resolve c0_csae : cont.
Lemma c0_coord : cont0 (g_coord m) (okp coordinate_empty (pr_coord fmt)).
Proof.
  eapply c0_weak; [unfold g_coord; cg0|]. cbn beta. intros v l H. opn2. fin.
Qed.
#[local] Hint Resolve c0_coord : cont.
Definition pointp (v : frame * coordinate) (l : list text) : Prop := prn (pr_point fmt (fst v) (snd v)) l.
Lemma head_text w f r : L w ++ L "('" ++ pr_coordsys f ++ L "'," ++ r = (L w ++ L "(" ++ coord_literal (pr_frame f) ++ L ",") ++ r.
Proof. unfold coord_literal, pr_coordsys. rewrite <- !app_assoc. destruct f; reflexivity. Qed.
Lemma heads : cont0 (g_shape_head "POINT") (headp m fmt stray "POINT") /\ cont0 (g_shape_head "CIRCLE") (headp m fmt stray "CIRCLE") /\
  cont0 (g_shape_head "BOX") (headp m fmt stray "BOX") /\ cont0 (g_shape_head "ELLIPSE") (headp m fmt stray "ELLIPSE") /\
  cont0 (g_shape_head "POLYGON") (headp m fmt stray "POLYGON").
Proof. repeat split; apply c0_head; reflexivity. Qed.

Lemma headp_shut w f l : schk [] (L w) = true -> slex [] (L w) = [L w] -> headp m fmt stray w f l ->
  exists l', shut (L w ++ L "(" ++ coord_literal (pr_frame f) ++ L ",") l' /\ norm l l'.
Proof. intros A B H. eexists. split; [now apply head_out|exact H]. Qed.
Ltac opn_head := match goal with H : headp _ _ _ _ _ _ |- _ => apply headp_shut in H; [|reflexivity|reflexivity]; destruct H as (? & ? & ?) end.
Lemma c0_point : cont0 (g_point m) pointp.
Proof.
  pose proof heads as (A & _). eapply c0_weak; [unfold g_point; cg0|]. cbn beta. intros v l H. opn2. unfold pointp, pr_point. cbn [fst snd].
  opn_head. change (L "POINT('") with (L "POINT" ++ L "('"). rewrite <- app_assoc, head_text. eexists. split; [outs_tac|norm_tac].
Qed.
#[local] Hint Resolve c0_point : cont.
Lemma c0_poc : cont0 (g_point_or_column m) (okp never (pr_poc fmt)).
Proof.
  eapply c0_weak; [unfold g_point_or_column; cg0|]. cbn beta. intros v l [H|H]; opn2; [|fin].
  red_pr. split; auto.
Qed.
#[local] Hint Resolve c0_poc : cont.
Lemma c0_circle : cont0 (g_circle m) (okp shape_empty (pr_shape fmt)).
Proof.
  pose proof heads as (_ & A & _). eapply c0_weak; [unfold g_circle; cg0|]. cbn beta. intros v l H. opn2. opn_head. red_pr. split; auto.
  change (L "CIRCLE('") with (L "CIRCLE" ++ L "('"). rewrite <- app_assoc, head_text. eexists. split; [outs_tac|norm_tac].
Qed.
Lemma c0_box : cont0 (g_box m) (okp shape_empty (pr_shape fmt)).
Proof.
  pose proof heads as (_ & _ & A & _). eapply c0_weak; [unfold g_box; cg0|]. cbn beta. intros v l H. opn2. opn_head. red_pr. split; auto.
  change (L "BOX('") with (L "BOX" ++ L "('"). rewrite <- app_assoc, head_text. eexists. split; [outs_tac|norm_tac].
Qed.
Lemma c0_ellipse : cont0 (g_ellipse m) (okp shape_empty (pr_shape fmt)).
Proof.
  pose proof heads as (_ & _ & _ & A & _). eapply c0_weak; [unfold g_ellipse; cg0|]. cbn beta. intros v l H. opn2. opn_head. red_pr. split; auto.
  change (L "ELLIPSE('") with (L "ELLIPSE" ++ L "('"). rewrite <- app_assoc, head_text. eexists. split; [outs_tac|norm_tac].
Qed.
Lemma commas_concat {A : Type} (f : A -> text) cs : cs <> [] -> concat (map (fun c => L "," ++ f c) cs) = L "," ++ join (L ",") (map f cs).
Proof. induction cs as [|c [|d cs] IH]; intros N; [congruence|cbn; now rewrite !app_nil_r|]. cbn [map concat]. cbn [map concat] in IH. rewrite IH by discriminate. cbn [join]. now rewrite <- app_assoc. Qed.
Lemma c0_polygon : cont0 (g_polygon m) (okp shape_empty (pr_shape fmt)).
Proof.
  pose proof heads as (_ & _ & _ & _ & A). eapply c0_weak; [unfold g_polygon; cg0|]. cbn beta. intros v l H. opn2. opn_head.
  match goal with H : commas _ _ _ |- _ => destruct (commas_ne _ _ _ H) as [Ne Nn]; apply (join_out m fmt stray _ (pr_coord fmt) (L ",")) in H; [|now left|intros ? ? _ [_ X]; exact X] end.
  opn2. red_pr. split; [reflexivity || assumption|].
  change (L "POLYGON('") with (L "POLYGON" ++ L "('"). rewrite commas_concat by assumption. rewrite <- app_assoc, <- app_assoc, (app_assoc (L "'") (L ",")).
  change (L "'" ++ L ",") with (L "',"). rewrite head_text. eexists. split; [outs_tac|norm_tac].
Qed.
#[local] Hint Resolve c0_circle c0_box c0_ellipse c0_polygon : cont.
Lemma c0_soc : cont0 (g_shape_or_column m) (okp soc_empty (pr_soc fmt)).
Proof.
  eapply c0_weak; [unfold g_shape_or_column, g_shape; cg0|]. cbn beta. intros v l [H|H]; opn2; [|fin].
  red_pr. destruct H0 as [H|[H|[H|[H|H]]]]; opn2; red_pr; try (split; auto; fail); (split; [first [assumption | now destruct c]|]); first [eexists; split; [eassumption|assumption] | assumption].
Qed.
#[local] Hint Resolve c0_soc : cont.

(** ** Functions *)
Lemma c0_words : cont0 (PLex s_trig1) (kwp ["ACOS"; "ASIN"; "ATAN"; "COS"; "COT"; "SIN"; "TAN"]%string) /\
  cont0 (PLex s_trig2) (kwp ["ATAN2"]%string) /\ cont0 (PLex s_geo1) (kwp ["COORD1"; "COORD2"]%string) /\ cont0 (PLex s_geo2) (kwp ["DISTANCE"]%string).
Proof. repeat split; apply c0_held; reflexivity. Qed.
Lemma c0_math : cont0 (PLex s_math0) (kwp ["PI"; "RAND"]%string) /\ cont0 (PLex s_math1) (kwp ["ABS"; "CEILING"; "DEGREES"; "EXP"; "FLOOR"; "LOG10"; "LOG"; "RADIANS"; "SQRT"; "RAND";
           "ROUND"; "TRUNCATE"]%string) /\ cont0 (PLex s_math2) (kwp ["MOD"; "POWER"; "ROUND"; "TRUNCATE"]%string) /\
  cont0 (PLex s_no_arg_function) (kwp ["CURRENT_TIMESTAMP"]%string) /\
  cont0 (PLex s_cast_as) (kwp ["NUMERIC"; "FLOAT4"; "INTEGER"; "BIGINT"; "FLOAT8"; "VARCHAR2"; "VARCHAR"; "CHAR"; "TEXT"]%string).
Proof. repeat split; apply c0_strs; reflexivity. Qed.
Lemma c0_nvf : cont0 (g_numeric_value_function m) (okp nvf_empty (pr_nvf fmt)).
Proof.
  pose proof c0_words as (H1 & H2 & H3 & H4). pose proof c0_math as (H5 & H6 & H7 & H8 & H9).
  pose proof (c0_udf stray Nrule) as Hu. pose proof (c0_digits stray Nrule) as Hd.
  eapply c0_weak.
  { unfold g_numeric_value_function, g_trig_function, g_trig_one_arg, g_trig_two_arg, g_math_function, g_math_zero_arg, g_math_one_arg, g_math_two_arg,
      g_cast_function, g_geo_function, g_geo_one_arg, g_geo_two_arg, g_user_defined_function. cg0. }
  cbn beta. intros v l [[H|H]|[[H|[H|H]]|[H|[[H|H]|[H|H]]]]]; opn2; fin.
Qed.
#[local] Hint Resolve c0_nvf : cont.

(** ** Primary expressions *)
(** An optional word. *)
Definition optw (v : text) (l : list text) : Prop := (is_nil v = false /\ prn v l) \/ (v = [] /\ l = []).
Lemma c0_setq : cont0 (POptLex s_set_quantifier) optw.
Proof.
  eapply c0_weak; [apply c0_optlex; [apply tok_hold, tok_seq_and, tok_strs; reflexivity|reflexivity]|].
  intros v l [H|[-> ->]]; [left; now apply kwp_prn in H|now right].
Qed.
Lemma c0_ordering : cont0 (POptLex s_ordering) optw.
Proof.
  eapply c0_weak; [apply c0_optlex; [apply tok_strs; reflexivity|reflexivity]|].
  intros v l [H|[-> ->]]; [left; now apply kwp_prn in H|now right].
Qed.
Lemma c0_setfun : cont0 (PLex s_set_function_type) (kwp ["AVG"; "MAX"; "MIN"; "SUM"; "COUNT"]%string). Proof. apply c0_strs; reflexivity. Qed.
Lemma c0_null : cont0 (PLex s_null_literal) (kwp ["NULL"]%string). Proof. apply c0_strs; reflexivity. Qed.
#[local] Hint Resolve c0_setq c0_ordering c0_setfun c0_null c0_count_star c0_null_cast c_literal : cont.
Lemma shut_blank p l : outs p l -> shut (p ++ L " ") l.
Proof. intros H. rewrite <- (app_nil_r l). apply shut_safe; [exact H|now apply safe_cons|discriminate|]. now apply shut_litl. Qed.
Lemma shut_nl_sp v l : optw v l -> exists l', shut (nl_sp v) l' /\ norm l l'.
Proof.
  unfold nl_sp. intros [[E (l' & O & N)]|[-> ->]]; [rewrite E; exists l'; split; auto; now apply shut_blank|].
  exists []. split; [apply shut_nil|constructor].
Qed.
Lemma c0_set_function : cont0 g_set_function_specification (okp vepv_empty (pr_vepv fmt)).
Proof.
  eapply c0_weak; [unfold g_set_function_specification, g_general_set_function, g_general_set_args; cg0|].
  cbn beta. intros v l [H|H]; opn2; [fin|]. 
  match goal with H : optw _ _ |- _ => apply shut_nl_sp in H as (? & ? & ?) end. fin.
Qed.
Lemma c_result : cont g_result (okp result_empty (pr_result fmt)).
Proof. eapply c_weak; [unfold g_result; cgc|]. cbn beta. intros v l [H|H]; opn2; fin. Qed.
#[local] Hint Resolve c0_set_function c_result : cont.
Lemma c_swhen : cont g_simple_when (okp never (pr_swhen fmt)).
Proof. eapply c_weak; [unfold g_simple_when; cgc|]. cbn beta. intros v l H; opn2; fin. Qed.
Lemma c_qwhen : cont g_searched_when (okp never (pr_qwhen fmt)).
Proof. eapply c_weak; [unfold g_searched_when; cgc|]. cbn beta. intros v l H; opn2; fin. Qed.
Lemma c_else : cont g_else_clause (fun r l => result_empty r = false /\ exists l', shut (L "ELSE " ++ pr_result fmt r ++ L " ") l' /\ norm l l').
Proof.
  eapply c_weak; [unfold g_else_clause; cgc|]. cbn beta. intros v l H; opn2. split; auto. eexists. split.
  - apply shut_app; [eapply shut_litl; [reflexivity|vm_compute; reflexivity]|apply shut_blank; eassumption].
  - norm_tac.
Qed.
#[local] Hint Resolve c_swhen c_qwhen c_else : cont.
Lemma whens_out {A : Type} (f : A -> text) vs l : some_many (okp never f) vs l ->
  is_nil vs = false /\ exists l', shut (concat (map (fun w => f w ++ L " ") vs)) l' /\ norm l l'.
Proof.
  intros [N (ls & F & ->)]. split; [now destruct vs|]. eapply shut_concat; [exact F|]. intros v l _ [_ (l' & O & Nl)]. exists l'. split; auto. now apply shut_blank.
Qed.
Lemma c0_case : cont0 g_case_expression (okp vepv_empty (pr_vepv fmt)).
Proof.
  eapply c0_weak; [unfold g_case_expression, g_nullif, g_coalesce, g_case_specification, g_simple_case, g_searched_case; cg0|].
  cbn beta. intros v l [[H|H]|H]; opn2; [fin|fin|].
  match goal with H : _ \/ _ |- _ => destruct H end; opn2;
    match goal with H : some_many _ _ _ |- _ => apply whens_out in H end; opn2; red_pr; nils;
    repeat match goal with H : result_empty ?t = false |- context [result_empty ?t] => rewrite H end; (split; [first [assumption|reflexivity]|]);
    (eexists; split; [outs_tac|norm_tac]).
Qed.
#[local] Hint Resolve c0_case : cont.
Lemma c0_any : cont0 g_any_expression (okp vepv_empty (pr_vepv fmt)).
Proof. eapply c0_weak; [unfold g_any_expression; cg0|]. cbn beta. intros v l H; opn2; fin. Qed.
Lemma c0_sub : cont0 g_value_subexpression (okp vepv_empty (pr_vepv fmt)).
Proof. eapply c0_weak; [unfold g_value_subexpression; cg0|]. cbn beta. intros v l H; opn2; fin. Qed.
Lemma c0_array : cont0 g_array_constructor (okp vepv_empty (pr_vepv fmt)).
Proof.
  assert (K : cont0 (kw "ARRAY") (kwo "ARRAY")) by (apply c0_kw; reflexivity).
  eapply c0_weak; [unfold g_array_constructor; cg0|]. cbn beta. intros v l H; opn2; fin.
Qed.
Lemma c0_index : cont0 g_array_index (okp never (fun i => L "[" ++ pr_ve fmt i ++ L "]")).
Proof. eapply c0_weak; [unfold g_array_index; cg0|]. cbn beta. intros v l H; opn2; fin. Qed.
#[local] Hint Resolve c0_any c0_sub c0_array c0_index : cont.
Lemma many_out {A : Type} (f : A -> text) vs l : (forall v, safe (f v)) -> many (okp never f) vs l ->
  exists l', outs (concat (map f vs)) l' /\ safe (concat (map f vs)) /\ norm l l'.
Proof.
  intros S (ls & F & ->). destruct (concat_out m fmt stray _ f vs ls F) as [(l' & O & N) Sf]; eauto. intros v l _ [_ X]. auto.
Qed.
Lemma c_vep : cont (g_value_expression_primary m) (okp vep_empty (pr_vep fmt)).
Proof.
  eapply c_weak; [unfold g_value_expression_primary; cgc|]. cbn beta. intros v l H. opn2.
  match goal with H : many _ _ _ |- _ => apply many_out in H; [|intros; now apply safe_cons] end. opn2. red_pr.
  match goal with |- vepv_empty ?v = false /\ ContentOut.prn _ _ _ _ (?l0 ++ _) => assert (X : okp vepv_empty (pr_vepv fmt) v l0) end.
  { repeat match goal with H : _ \/ _ |- _ => destruct H end; opn2; try (split; auto; fail); fin. }
  destruct X as [E (l3 & O3 & N3)]. split; auto. eexists; split; [outs_tac|norm_tac].
Qed.
#[local] Hint Resolve c_vep c0_sign : cont.
Lemma c_factor : cont (g_factor m) (okp factor_empty (pr_factor fmt)).
Proof.
  eapply c_weak; [unfold g_factor, g_numeric_primary; cgc|]. cbn beta. intros v l H. opn2.
  match goal with |- okp _ _ (Factor _ ?n) (_ ++ ?l2) => assert (X : okp nprim_empty (pr_nprim fmt) n l2) end.
  { match goal with H : (exists _, _) \/ _ |- _ => destruct H end; opn2; fin. }
  destruct X as [E (l3 & O3 & N3)]. match goal with H : markp _ _ _ \/ _ |- _ => destruct H as [H|[-> ->]] end; opn2; fin.
Qed.
#[local] Hint Resolve c_factor : cont.
Lemma c0_binary : cont0 (PLex s_binary_operators) (markp ["*"; "/"; "+"; "-"; "||"]%string). Proof. apply c0_marks; reflexivity. Qed.
#[local] Hint Resolve c0_binary : cont.
Lemma c_term : cont (g_term m) (fun v l => okp never (pr_vterm fmt) v l /\ safe (pr_vterm fmt v)).
Proof.
  eapply c_weak; [unfold g_term; cgc|]. cbn beta. intros v l H. opn2. split; [fin|]. red_pr. now apply safe_front.
Qed.
#[local] Hint Resolve c_term : cont.
Lemma c_venb : cont (g_value_expression_non_bool m) (okp venb_empty (pr_venb fmt)).
Proof.
  eapply c_weak; [unfold g_value_expression_non_bool; cgc|]. cbn beta. intros v l H. opn2.
  match goal with H : many _ _ _ |- _ => destruct H as (ls & F & ->); destruct (concat_out m fmt stray _ (pr_vterm fmt) _ ls F) as [(l4 & O4 & N4) S4] end.
  { intros v l3 _ [[_ X] Y]. auto. }
  red_pr. split; auto. eexists; split; [outs_tac|norm_tac].
Qed.
Lemma c_ve : cont g_value_expression (okp ve_empty (pr_ve fmt)).
Proof. eapply c_weak; [unfold g_value_expression; cgc|]. cbn beta. intros v l [H|H]; opn2; fin. Qed.
End Expr.
