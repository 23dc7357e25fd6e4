(** C14: the content of predicates, joins and tables. *)
From Verif Require Import Query PegProps Gen Spec TextLemmas SpecLexical LexProofs LexProofs2 LexDec First Operand TopProofs NonEmpty SpecContent
  ContentCalc ContentLeaves ContentTokens ContentOut ContentNames ContentShapes ContentExpr.

Section Pred.
Variable m : text -> option text.
Variable fmt : text -> text.
Variable stray : Prop.
Hypothesis Hm : forall n t, n <> [] -> m n = Some t -> t <> [].
Notation norm := (normal m fmt stray).
Notation prn := (prn m fmt stray).
Notation outs := (outs m fmt).
Notation shut := (shut m fmt).
Notation Nrule := (Nrule m fmt stray).
Notation cont := (cont stray Nrule).
Notation cont0 := (cont0 stray Nrule).
Notation okp := (okp m fmt stray).
Ltac opn2 := repeat first
  [ opn1
  | match goal with
    | H : namep _ _ |- _ => apply (namep_prn m fmt stray) in H
    | H : tablep _ _ _ _ _ |- _ => apply (tablep_prn m fmt stray) in H
    | H : fixedp _ _ _ _ _ |- _ => apply (fixedp_prn m fmt stray) in H
    | H : kwp _ _ _ |- _ => apply (kwp_prn m fmt stray) in H
    | H : wordp _ _ |- _ => apply (wordp_prn m fmt stray) in H
    | H : litp _ _ |- _ => apply (litp_prn m fmt stray) in H
    | H : digitsp _ _ |- _ => apply (digitsp_prn m fmt stray) in H
    | H : commas (Nrule R_ve) _ _ |- _ => apply (commas_join m fmt stray (pr_ve fmt)) in H
    | H : realp _ _ |- _ => apply (realp_prn m fmt stray) in H
    | H : markp _ _ _ |- _ => apply (markp_shut m fmt stray) in H; [|reflexivity]
    | H : ContentExpr.okp _ _ _ _ _ _ _ |- _ => destruct H
    | H : Nrule _ _ _ |- _ => destruct H
    | H : ContentOut.prn _ _ _ _ _ |- _ => let l := fresh "l'" in let O := fresh "O" in let N := fresh "N" in destruct H as (l & O & N)
    end ].
Ltac red_pr := unfold ContentExpr.okp, never; cbn [pr_colref pr_csae pr_coord pr_shape pr_soc pr_poc pr_sort pr_jtype
  pr_ve pr_venb pr_vterm pr_factor pr_nprim pr_nvf pr_vep pr_vepv pr_swhen pr_qwhen pr_result pr_sc pr_bfac pr_bprim pr_pred pr_intarget pr_subq
  pr_jt pr_qjoin pr_qjhead pr_jsuf pr_jspec pr_tref pr_qspec pr_with pr_addon pr_sfw pr_where pr_geom pr_gpred pr_select pr_columns pr_colv pr_gterm
  colref_empty csae_empty coordinate_empty shape_empty soc_empty nvf_empty sfw_empty qspec_empty jt_empty qjoin_empty qjhead_empty subq_empty
  ve_empty venb_empty factor_empty nprim_empty vep_empty vepv_empty sc_empty bfac_empty bprim_empty pred_empty result_empty gpred_empty geom_empty
  opt_empty where_empty with_empty jspec_empty is_nil odef dflt fst snd orb].
Ltac nils := repeat match goal with H : ?e = false |- context [if ?e then _ else _] => rewrite H end.
Ltac fin := red_pr; nils; rewrite <- ?app_assoc; cbn [app map join]; split; [try assumption; try reflexivity|eexists; split; [outs_tac|norm_tac]].

(** ** NOT *)
Lemma notp_nl_sp v l : notp stray v l -> exists l', shut (nl_sp v) l' /\ norm l l'.
Proof.
  assert (T : forall n, upper n = L "NOT" -> outs n [n]).
  { intros n U. apply outs_token. left. now apply (kw_word "NOT"). }
  unfold nl_sp. intros [(n & -> & U & V & [-> |(c & C & ->)])|[-> [-> |[S U]]]].
  - destruct n as [|c n]; [congruence|]. cbn [is_nil]. exists [c :: n]. split; [apply shut_blank; auto|constructor].
  - destruct (n ++ [c]) eqn:E; [congruence|]. cbn [is_nil]. rewrite <- E, <- app_assoc. exists [n]. split; [|constructor].
    rewrite <- (app_nil_r [n]). apply shut_safe; auto; [apply safe_cons; revert C; clear; revert c; by_byte|discriminate|].
    intros k. constructor. constructor; [exact C|]. now apply (spaces_white [" "%char]).
  - exists []. split; [apply shut_nil|constructor].
  - destruct v as [|c v]; [discriminate|]. cbn [is_nil]. exists [c :: v]. split; [apply shut_blank; auto|now apply normal_stray].
Qed.
Lemma notp_upper v l : notp stray v l -> exists l', shut (if is_nil v then [] else L "NOT ") l' /\ norm l l' /\
  shut (if is_nil v then L " " else L " NOT ") l' /\ safe (if is_nil v then L " " else L " NOT ") /\ is_nil (if is_nil v then L " " else L " NOT ") = false.
Proof.
  assert (S0 : safe (if is_nil v then L " " else L " NOT ") /\ is_nil (if is_nil v then L " " else L " NOT ") = false).
  { destruct v; (split; [now apply safe_cons|reflexivity]). }
  intros [(n & -> & U & V & _)|[-> [-> |[S U]]]].
  - destruct v; [congruence|]. exists [L "NOT"]. split; [|split; [|split]]; auto; [now apply shut_litl|eapply (norm_kw _ _ _ _ "NOT"); [exact U|reflexivity]|now apply shut_litl].
  - exists []. split; [|split; [|split]]; auto; [apply shut_nil|constructor|now apply shut_litl].
  - destruct v; [discriminate|]. exists [L "NOT"]. split; [|split; [|split]]; auto; [now apply shut_litl|now apply normal_stray|now apply shut_litl].
Qed.
Lemma c0_nh : cont0 (POptLex (kws_hard "NOT")) (notp stray). Proof. apply c0_not_hard. Qed.
Lemma c0_ns : cont0 (POptLex (kws_soft ["NOT"]%string)) (notp stray). Proof. apply c0_not_soft. Qed.
Lemma c0_nb : cont0 (POptLex (SExp (SStr true (L "NOT")) (SChr is_space))) (notp stray). Proof. apply c0_not_space. Qed.
Lemma c0_cmp : cont0 (PLex s_comparison) (markp ["="; "!="; "<>"; "<="; ">="; "<"; ">"]%string). Proof. apply c0_marks; reflexivity. Qed.
#[local] Hint Resolve c0_nh c0_ns c0_nb c0_cmp : cont.

(** ** Predicates *)
Ltac notl T := match goal with H : notp _ _ _ |- _ => apply T in H end; opn2.
Lemma c_cmp : cont g_comparison_predicate (okp pred_empty (pr_pred fmt)).
Proof. eapply c_weak; [unfold g_comparison_predicate; cgc|]. cbn beta. intros v l H; opn2; fin. Qed.
Lemma c_between : cont g_between_predicate (okp pred_empty (pr_pred fmt)).
Proof. eapply c_weak; [unfold g_between_predicate; cgc|]. cbn beta. intros v l H; opn2. notl notp_nl_sp. fin. Qed.
Lemma c_null : cont g_null_predicate (okp pred_empty (pr_pred fmt)).
Proof. eapply c_weak; [unfold g_null_predicate; cgc|]. cbn beta. intros v l H; opn2. notl notp_upper. fin. Qed.
Lemma c_like : cont g_like_predicate (okp pred_empty (pr_pred fmt)).
Proof. eapply c_weak; [unfold g_like_predicate; cgc|]. cbn beta. intros v l H; opn2. notl notp_upper. fin. Qed.

Lemma c_exists : cont g_exists_predicate (okp pred_empty (pr_pred fmt)).
Proof. eapply c_weak; [unfold g_exists_predicate; cgc|]. cbn beta. intros v l H; opn2. fin. Qed.
Lemma commas_vector {A : Type} (P : A -> list text -> Prop) (f : A -> text) vs l :
  commas P vs l -> (forall v l, P v l -> prn (f v) l) -> is_nil vs = false /\ exists l', shut (pr_vector (map f vs)) ([L "("] ++ l' ++ [L ")"]) /\ norm l l'.
Proof.
  intros H F. destruct (commas_ne _ _ _ H) as [_ E]. split; auto. apply (join_out m fmt stray _ f (L ", ")) in H; auto.
  destruct H as (l' & O & N). exists l'. split; auto. unfold pr_vector. apply shut_app; [now apply shut_litl|].
  apply shut_safe; auto; [now apply safe_cons|discriminate|now apply shut_litl].
Qed.
Lemma c_in : cont g_in_predicate (okp pred_empty (pr_pred fmt)).
Proof.
  eapply c_weak; [unfold g_in_predicate, g_in_target; cgc|]. cbn beta. intros v l H. opn1. opn1. 
  repeat match goal with H : both _ _ _ _ |- _ => opn1 end. opn2. notl notp_upper.
  match goal with H : _ \/ _ |- _ => destruct H end.
  - opn2. fin.
  - opn1. match goal with H : _ /\ _ |- _ => destruct H as [-> ?] end.
    repeat match goal with H : both _ _ _ _ |- _ => opn1 end.
    match goal with H : commas _ _ _ |- _ => apply (commas_vector _ (pr_ve fmt)) in H; [|intros ? ? [_ X]; exact X] end. opn2. fin.
Qed.
#[local] Hint Resolve c_cmp c_between c_null c_like c_exists c_in : cont.
Lemma c_pred : cont g_predicate (okp pred_empty (pr_pred fmt)).
Proof.
  eapply c_weak; [unfold g_predicate; cgc|]. cbn beta. intros v l [H|[H|[H|[H|[H|H]]]]]; exact H.
Qed.
#[local] Hint Resolve c_pred : cont.
Lemma c_bfac : cont g_boolean_factor (okp bfac_empty (pr_bfac fmt)).
Proof.
  eapply c_weak; [unfold g_boolean_factor, g_boolean_primary; cgc|]. cbn beta. intros v l H. opn2. notl notp_nl_sp.
  match goal with |- ContentExpr.okp _ _ _ _ _ (BF _ ?n) (_ ++ ?l2) => assert (X : okp bprim_empty (pr_bprim fmt) n l2) end.
  { repeat match goal with H : _ \/ _ |- _ => destruct H end; opn2; fin. }
  opn2. fin.
Qed.
#[local] Hint Resolve c_bfac : cont.
Lemma c0_and_or : cont0 (PLex (kws_soft ["AND"; "OR"]%string)) (fun v l => is_nil v = false /\ prn (upper v) l).
Proof.
  eapply c0_weak; [apply c0_kws_soft; reflexivity|]. intros v l (-> & W & s & Hs & U). split; [destruct W as (c & x & -> & _); reflexivity|].
  rewrite U. destruct Hs as [<-|[<-|[]]].
  - exists [L "AND"]. split; [now apply (outs_litl m fmt "AND")|eapply norm_kw; [exact U|reflexivity]].
  - exists [L "OR"]. split; [now apply (outs_litl m fmt "OR")|eapply norm_kw; [exact U|reflexivity]].
Qed.

Lemma c_sc : cont g_search_condition (okp sc_empty (pr_sc fmt)).
Proof.
  pose proof c0_and_or. eapply c_weak.
  { unfold g_search_condition, g_boolean_term. apply c_alt1; [|cgc]. apply c_map1. eapply c_seq; [|cgc]. eapply c0_seqn; [reflexivity|cgc|eassumption]. }
  cbn beta. clear H. intros v l [H|H]; opn2; fin.
Qed.

(** ** Tables *)
Definition aliasp (a : text) (l : list text) : Prop := is_nil a = false /\ prn a l.
Lemma c0_alias : cont0 g_correlation_specification aliasp.
Proof.
  eapply c0_weak; [unfold g_correlation_specification; cg0|]. cbn beta. intros v l H. opn1. opn1. opn1. destruct B as [-> B]. subst v. cbn [snd].
  assert (T : token t) by (destruct B; unfold token; auto). destruct (namep_prn m fmt stray t [t]) as [E _]; [split; auto|]. split; auto.
  exists [t]. split; [now apply outs_token|]. destruct o; cbn [optly] in A; opn2; cbn [app]; [now constructor|constructor].
Qed.
#[local] Hint Resolve c0_alias c0_table : cont.
Definition tcp (v : text * text) (l : list text) : Prop := is_nil (fst v) = false /\ prn (pr_tc (fst v) (snd v)) l.
Lemma c0_tc : cont0 (g_table_correlation m) tcp.
Proof.
  pose proof (c0_table m fmt stray Nrule Hm).
  eapply c0_weak; [unfold g_table_correlation; cg0|]. cbn beta. intros v l H0. opn2; unfold tcp, pr_tc; cbn [fst snd].
  - match goal with H : aliasp _ _ |- _ => destruct H end. opn2. fin.
  - fin.
Qed.
#[local] Hint Resolve c0_tc : cont.
Lemma c0_jtype : cont0 g_join_type (fun v l => prn (pr_jtype v) l).
Proof.
  assert (Ho : cont0 (PLex (kws_soft ["OUTER"]%string)) (kwo "OUTER")).
  { eapply c0_weak; [apply c0_kws_soft; reflexivity|]. intros v l (-> & _ & w & [<-|[]] & U). exists v. auto. }
  eapply c0_weak; [unfold g_join_type, g_outer_join; cg0|]. clear Ho. cbn beta. intros v l [H|H]; opn2; cbn [pr_jtype].
  - eexists; split; [outs_tac|norm_tac].
  - eexists; split; [outs_tac|norm_tac].
  - eexists; split; [outs_tac|norm_tac].
Qed.
Lemma c_jspec : cont g_join_specification (okp jspec_empty (pr_jspec fmt)).
Proof.
  eapply c_weak; [unfold g_join_specification, g_join_condition, g_named_columns_join; cgc|]. cbn beta. intros v l [H|H].
  - opn2. fin.
  - opn1. destruct H as [-> H]. repeat match goal with H : both _ _ _ _ |- _ => opn1 end.
    match goal with H : commas _ _ _ |- _ => apply (commas_vector _ (fun x => x)) in H; [|intros ? ? X; now apply (namep_prn m fmt stray) in X] end.
    rewrite map_id in *. opn2. fin.
Qed.
#[local] Hint Resolve c0_jtype c_jspec : cont.
Lemma c_jsuf : cont g_join_suffix (okp never (pr_jsuf fmt)).
Proof.
  eapply c_weak; [unfold g_join_suffix; cgc|]. cbn beta. intros v l H; opn2; fin.
Qed.
#[local] Hint Resolve c_jsuf : cont.
Lemma c_jt : cont (g_joined_table m) (okp jt_empty (pr_jt fmt)).
Proof.
  eapply c_weak; [unfold g_joined_table, g_qualified_join; cgc|]. cbn beta. intros v l [H|H]; [|opn2; fin].
  opn2. match goal with H : some_many _ _ _ |- _ => apply (whens_out m fmt stray) in H end. opn2.
  match goal with |- ContentExpr.okp _ _ _ _ _ (JT_q (QJ ?n _)) (?l2 ++ _) => assert (X : okp qjhead_empty (pr_qjhead fmt) n l2) end.
  { match goal with H : _ \/ _ |- _ => destruct H end; opn2; [fin|]. match goal with H : tcp _ _ |- _ => destruct H end. red_pr. cbn [fst snd] in *. auto. }
  opn2. fin.
Qed.
Lemma c0_dc : cont0 g_derived_correlation (okp never (pr_tref fmt)).
Proof.
  eapply c0_weak; [unfold g_derived_correlation; cg0|]. cbn beta. intros v l H; opn2. match goal with H : aliasp _ _ |- _ => destruct H end. opn2. fin.
Qed.
Lemma c0_tvfun : cont0 g_table_valued_function (okp never (pr_tref fmt)).
Proof. eapply c0_weak; [apply c0_tvf|]. intros v l (f & args & -> & H). split; [reflexivity|exact H]. Qed.
#[local] Hint Resolve c0_dc c0_tvfun : cont.
Lemma c_tref : cont (g_table_reference m) (okp never (pr_tref fmt)).
Proof.
  eapply c_weak; [unfold g_table_reference; cgc|]. cbn beta. intros v l [H|[H|[H|H]]]; auto; opn2; [fin|].
  match goal with H : tcp _ _ |- _ => destruct H end. red_pr. split; auto.
Qed.
End Pred.
