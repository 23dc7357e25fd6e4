(** C14: the content of queries. *)
From Verif Require Import Query PegProps Gen Spec TextLemmas SpecLexical LexProofs LexProofs2 LexDec First Operand TopProofs NonEmpty SpecContent
  ContentCalc ContentLeaves ContentTokens ContentOut ContentNames ContentShapes ContentExpr ContentPred.

Section Queries.
Variable m : text -> option text.
Variable fmt : text -> text.
Variable stray : Prop.
Hypothesis Hm : forall n t, n <> [] -> m n = Some t -> t <> [].
Notation norm := (normal m fmt stray).
Notation prn := (prn m fmt stray).
Notation outs := (outs m fmt).
Notation shut := (shut m fmt).
Notation Nrule := (Nrule m fmt stray).
Notation cont := (cont stray Nrule).
Notation cont0 := (cont0 stray Nrule).
Notation okp := (okp m fmt stray).
Ltac opn2 := repeat first
  [ opn1
  | match goal with
    | H : namep _ _ |- _ => apply (namep_prn m fmt stray) in H
    | H : tablep _ _ _ _ _ |- _ => apply (tablep_prn m fmt stray) in H
    | H : fixedp _ _ _ _ _ |- _ => apply (fixedp_prn m fmt stray) in H
    | H : kwp _ _ _ |- _ => apply (kwp_prn m fmt stray) in H
    | H : wordp _ _ |- _ => apply (wordp_prn m fmt stray) in H
    | H : litp _ _ |- _ => apply (litp_prn m fmt stray) in H
    | H : digitsp _ _ |- _ => apply (digitsp_prn m fmt stray) in H
    | H : commas (Nrule R_ve) _ _ |- _ => apply (commas_join m fmt stray (pr_ve fmt)) in H
    | H : realp _ _ |- _ => apply (realp_prn m fmt stray) in H
    | H : markp _ _ _ |- _ => apply (markp_shut m fmt stray) in H; [|reflexivity]
    | H : ContentExpr.okp _ _ _ _ _ _ _ |- _ => destruct H
    | H : Nrule _ _ _ |- _ => destruct H
    | H : ContentOut.prn _ _ _ _ _ |- _ => let l := fresh "l'" in let O := fresh "O" in let N := fresh "N" in destruct H as (l & O & N)
    end ].
Ltac red_pr := unfold ContentExpr.okp, never; cbn [pr_colref pr_csae pr_coord pr_shape pr_soc pr_poc pr_sort pr_jtype
  pr_ve pr_venb pr_vterm pr_factor pr_nprim pr_nvf pr_vep pr_vepv pr_swhen pr_qwhen pr_result pr_sc pr_bfac pr_bprim pr_pred pr_intarget pr_subq
  pr_jt pr_qjoin pr_qjhead pr_jsuf pr_jspec pr_tref pr_qspec pr_with pr_addon pr_sfw pr_where pr_geom pr_gpred pr_select pr_columns pr_colv pr_gterm
  colref_empty csae_empty coordinate_empty shape_empty soc_empty nvf_empty sfw_empty qspec_empty jt_empty qjoin_empty qjhead_empty subq_empty
  ve_empty venb_empty factor_empty nprim_empty vep_empty vepv_empty sc_empty bfac_empty bprim_empty pred_empty result_empty gpred_empty geom_empty
  opt_empty where_empty with_empty jspec_empty is_nil odef dflt fst snd orb].
Ltac nils := repeat match goal with H : ?e = false |- context [if ?e then _ else _] => rewrite H end.
Ltac fin := red_pr; nils; rewrite <- ?app_assoc; cbn [app map join]; split; [try assumption; try reflexivity|eexists; split; [outs_tac|norm_tac]].


Lemma c0_colref' : cont0 (g_column_reference m) (okp colref_empty pr_colref). Proof. now apply c0_colref. Qed.
Lemma c0_soc' : cont0 (g_shape_or_column m) (okp soc_empty (pr_soc fmt)). Proof. now apply c0_soc. Qed.
#[local] Hint Resolve c0_colref' c0_soc' : cont.

(** ** Geometry conditions *)
Definition gpredp (p : gpred) (l : list text) : Prop := okp gpred_empty (pr_gpred fmt) p l /\ geometry_call l.
Lemma call_of x l w : upper x = upper (L w) -> upper (L w) = L "CONTAINS" \/ upper (L w) = L "INTERSECTS" -> geometry_call (x :: L "(" :: l ++ [L ")"]).
Proof. intros U H. exists x, l. split; auto. rewrite U. exact H. Qed.
Lemma c0_contains : cont0 (g_contains m) gpredp.
Proof.
  eapply c0_weak; [unfold g_contains; cg0|]. cbn beta. intros v l H; opn2. split.
  - red_pr. repeat match goal with H : soc_empty _ = false |- _ => rewrite H; clear H end. split; auto. eexists; split; [outs_tac|norm_tac].
  - rewrite <- !app_assoc. cbn [app]. match goal with |- geometry_call (?x :: ?p :: ?a ++ ?c :: ?b ++ ?e) => change (geometry_call (x :: p :: a ++ ([c] ++ b) ++ e)); rewrite (app_assoc a) end.
    eapply call_of; [eassumption|now left].
Qed.
Lemma c0_intersects : cont0 (g_intersects m) gpredp.
Proof.
  eapply c0_weak; [unfold g_intersects; cg0|]. cbn beta. intros v l H; opn2. split.
  - fin.
  - rewrite <- !app_assoc. cbn [app]. match goal with |- geometry_call (?x :: ?p :: ?a ++ ?c :: ?b ++ ?e) => change (geometry_call (x :: p :: a ++ ([c] ++ b) ++ e)); rewrite (app_assoc a) end.
    eapply call_of; [eassumption|now right].
Qed.
Lemma c0_fl : cont0 (PLex s_char_flag) flagp. Proof. apply c0_flag. Qed.
#[local] Hint Resolve c0_contains c0_intersects c0_fl : cont.
Definition geomp (g : geom) (l : list text) : Prop := okp geom_empty (pr_geom fmt) g l /\ geometry_condition l.
Lemma flag_outs f : flag f -> outs f [f].
Proof. intros H. apply outs_token. do 3 right. left. now apply flag_number. Qed.
Lemma c0_geometry : cont0 (g_geometry m) geomp.
Proof.
  eapply c0_weak; [unfold g_geometry, g_geometry_left, g_geometry_right; cg0|]. cbn beta. intros v l [H|H].
  - opn2. match goal with H : flagp _ _ |- _ => destruct H as [-> F] end.
    match goal with |- geomp (G_left ?f ?p) (_ ++ ?l) => assert (X : gpredp p l) by tauto end. destruct X as [[E (l' & O & N)] C].
    pose proof (flag_outs _ F) as Of. split.
    + red_pr. rewrite E. split; auto. exists (l' ++ [L "="] ++ [t]). split; [outs_tac|]. cbn [app]. now constructor.
    + eexists _, t. split; [exact C|]. split; auto.
  - opn2. match goal with |- geomp (G_right ?p ?f) (?l ++ _) => assert (X : gpredp p l) by tauto end. destruct X as [[E (l' & O & N)] C].
    match goal with H : (exists _, _) \/ _ |- _ => destruct H as [H|H] end.
    + opn2. match goal with H : flagp _ _ |- _ => destruct H as [-> F] end. pose proof (flag_outs _ F) as Of. split.
      * red_pr. rewrite E. split; auto. exists (l' ++ [L "="] ++ [t0]). split; [outs_tac|]. constructor; auto. apply norm_refl.
      * eexists _, t0. split; [exact C|]. split; auto.
    + opn2. rewrite app_nil_r. split.
      * split; [exact E|]. change (prn (if gpred_empty g then [] else pr_gpred fmt g ++ L "=" ++ L "1") l0). rewrite E. exists (l' ++ [L "="] ++ [L "1"]). split; [|now constructor]. apply outs_safe; [exact O|now apply safe_cons|]. apply outs_shut; [now apply shut_litl|apply flag_outs; now right].
      * eexists _, (L "1"). split; [exact C|]. split; auto. now right.
Qed.
#[local] Hint Resolve c0_geometry : cont.
Lemma geomp_open g l : geomp g l -> geom_empty g = false /\ prn (pr_geom fmt g) l /\ geometry_condition l.
Proof. intros [[A B] C]. auto. Qed.
Definition wherep (v : wherec) (l : list text) : Prop := where_empty v = false /\ prn (L " WHERE " ++ pr_where fmt v) l.
Lemma c_where : cont (g_where m) wherep.
Proof.
  eapply c_weak; [unfold g_where; cgc|]. cbn beta. intros v l H. opn1. opn1. opn1. subst v. cbn [snd]. opn1.
  match goal with |- wherep ?w (_ ++ ?l) => assert (X : okp where_empty (pr_where fmt) w l) end.
  { destruct B as [H|[H|H]]; opn2; try match goal with H : geomp _ _ |- _ => apply geomp_open in H end; opn2.
    - red_pr. nils. split; auto. eexists; split; [outs_tac|norm_tac].
    - red_pr. nils. split; auto. rewrite !app_nil_r. eexists; split; [outs_tac|norm_tac].
    - red_pr. nils. split; auto. rewrite app_nil_r. eexists; split; [outs_tac|]. rewrite <- app_assoc. cbn [app]. now constructor.
    - red_pr. nils. split; auto. eexists; split; [outs_tac|norm_tac]. }
  split; [apply X|]. destruct X as [_ (l' & O & N)]. exists ([L "WHERE"] ++ l'). split; [outs_tac|norm_tac].
Qed.
Lemma c_where_ng : cont g_where_no_geometry wherep.
Proof.
  eapply c_weak; [unfold g_where_no_geometry; cgc|]. cbn beta. intros v l H. opn2. unfold wherep. red_pr. nils. split; auto.
  eexists; split; [outs_tac|norm_tac].
Qed.

(** ** Clauses *)
Lemma commas_any {A : Type} (P : A -> list text -> Prop) (f : A -> text) sep vs l : commas P vs l -> sep = L "," \/ sep = L ", " -> (forall v l, P v l -> prn (f v) l) ->
  is_nil vs = false /\ prn (join sep (map f vs)) l.
Proof. intros H S F. split; [now apply commas_ne in H|]. eapply join_out; eauto. Qed.
Definition groupp (g : list gterm) (l : list text) : Prop := is_nil g = false /\ prn (L " GROUP BY " ++ join (L ",") (map (pr_gterm fmt) g)) l.
Lemma c_gterm : cont (g_group_by_term m) (okp never (pr_gterm fmt)).
Proof. eapply c_weak; [unfold g_group_by_term; cgc|]. cbn beta. intros v l [H|H]; opn2; fin. Qed.
#[local] Hint Resolve c_gterm : cont.
Lemma c_group : cont (g_group_by m) groupp.
Proof.
  eapply c_weak; [unfold g_group_by; cgc|]. cbn beta. intros v l H. opn1. opn1. repeat match goal with H : both _ _ _ _ |- _ => opn1 end. subst v. cbn [snd].
  match goal with H : commas _ _ _ |- _ => apply (commas_any _ (pr_gterm fmt) (L ",")) in H; [|now left|intros ? ? [_ X]; exact X] end. opn2.
  unfold groupp. split; auto. eexists; split; [outs_tac|norm_tac].
Qed.
Definition havingp (s : sc) (l : list text) : Prop := sc_empty s = false /\ prn (L " HAVING " ++ pr_sc fmt s) l.
Lemma c_having : cont g_having havingp.
Proof. eapply c_weak; [unfold g_having; cgc|]. cbn beta. intros v l H. opn2. unfold havingp. cbn [snd]. split; auto. eexists; split; [outs_tac|norm_tac]. Qed.
Lemma c0_ord : cont0 (POptLex s_ordering) (optw m fmt stray). Proof. apply c0_ordering. Qed.
Lemma c0_sq : cont0 (POptLex s_set_quantifier) (optw m fmt stray). Proof. apply c0_setq. Qed.
Lemma c0_int : cont0 (PLex s_unsigned_integer) digitsp. Proof. apply c0_digits. Qed.
#[local] Hint Resolve c0_ord c0_sq c0_int : cont.
Lemma c0_sort : cont0 (g_sort_specification m) (okp never pr_sort).
Proof.
  eapply c0_weak; [unfold g_sort_specification, g_sort_key; cg0|]. cbn beta. intros v l H. opn2.
  match goal with |- ContentExpr.okp _ _ _ _ _ (Sort ?k _) (?l ++ _) => assert (X : prn (match k with SK_col c => pr_colref c | SK_int s => s end) l) end.
  { match goal with H : (exists _, _) \/ _ |- _ => destruct H as [H|H] end; opn2; eexists; split; eassumption. }
  match goal with H : optw _ _ _ _ _ |- _ => destruct H as [H|[-> ->]] end; opn2; fin.
Qed.
#[local] Hint Resolve c0_sort : cont.
Definition orderp (o : list sort_spec) (l : list text) : Prop := is_nil o = false /\ prn (L " ORDER BY " ++ join (L ",") (map pr_sort o)) l.
Lemma c_order : cont (g_order_by m) orderp.
Proof.
  eapply c_weak; [unfold g_order_by; cgc|]. cbn beta. intros v l H. opn1. opn1. repeat match goal with H : both _ _ _ _ |- _ => opn1 end. subst v. cbn [snd].
  match goal with H : commas _ _ _ |- _ => apply (commas_any _ pr_sort (L ",")) in H; [|now left|intros ? ? [_ X]; exact X] end. opn2.
  unfold orderp. split; auto. eexists; split; [outs_tac|norm_tac].
Qed.

(** ** SELECT *)
Lemma pr_N_head fuel : forall n acc, (n < 2 ^ N.of_nat fuel)%N -> (0 < fuel)%nat -> n <> 0%N -> exists c r, pr_N_aux fuel n acc = c :: r /\ c <> "0"%char.
Proof.
  induction fuel as [|fuel IH]; [intros n acc _ H; inversion H|]. intros n acc Hn _ N0. cbn [pr_N_aux].
  assert (T : (10 <> 0)%N) by discriminate. pose proof (N.mod_lt n 10 T) as Hl. pose proof (N.div_mod n 10 T) as Hd.
  pose proof (N.div_small n 10) as Hz. pose proof (N.div_lt_upper_bound n 10 (2 ^ N.of_nat fuel) T) as Hu.
  revert Hl Hd Hz Hu. generalize (n / 10)%N (n mod 10)%N. intros a b Hl Hd Hz Hu.
  destruct (N.eqb_spec a 0) as [Z|NZ].
  - eexists _, acc. split; [reflexivity|]. intros X. pose proof (digit_code b Hl) as Dc. rewrite X in Dc. change (N_of_ascii "0"%char) with 48%N in Dc. lia.
  - destruct fuel as [|fuel].
    + exfalso. apply NZ, Hz. change (2 ^ N.of_nat 1)%N with 2%N in Hn. lia.
    + apply IH; [|apply Nat.lt_0_succ|exact NZ]. apply Hu. rewrite (Nat2N.inj_succ (S fuel)), N.pow_succ_r' in Hn. revert Hn. generalize (2 ^ N.of_nat (S fuel))%N. lia.
Qed.
Lemma pr_N_canonical n : canonical (pr_N n).
Proof.
  split; [apply pr_N_decimal|]. destruct (N.eq_dec n 0) as [-> |E]; [now left|]. right.
  destruct (pr_N_head (S (N.to_nat (N.log2 n))) n [] (pr_N_fuel n) ltac:(lia) E) as (c & r & X & Y). unfold pr_N. rewrite X. exact Y.
Qed.
Definition topq (n : N) (l : list text) : Prop := exists l', shut (if (n =? top_none)%N then [] else L "TOP " ++ pr_N n ++ L " ") l' /\ norm l l'.
Lemma c0_topq : cont0 g_top topq.
Proof.
  eapply c0_weak; [unfold g_top; cg0|]. cbn beta. intros v l H. opn1. opn1. opn1. subst v. cbn [snd]. destruct B as (d & -> & D & <-). opn2. cbn [app].
  unfold topq. destruct (N.eqb_spec (decimal d) top_none) as [E|E].
  - exists []. split; [apply shut_nil|]. now constructor.
  - exists [L "TOP"; pr_N (decimal d)]. split.
    + change [L "TOP"; pr_N (decimal d)] with ([L "TOP"] ++ [pr_N (decimal d)]). apply shut_app; [now apply shut_litl|]. apply shut_blank, outs_token.
      do 3 right. left. left. left. apply pr_N_decimal.
    + constructor; auto; [apply pr_N_decimal|apply pr_N_canonical].
Qed.
#[local] Hint Resolve c0_topq : cont.
Lemma c0_qs : cont0 (PLex (s_qualifier_star m)) (tablep m fmt stray). Proof. now apply c0_qstar. Qed.
#[local] Hint Resolve c0_qs : cont.
Lemma c_item : cont (g_select_item m) (okp never (pr_colv fmt)).
Proof. eapply c_weak; [unfold g_select_item, g_as, g_non_as; cgc|]. cbn beta. intros v l [H|[H|H]]; opn2; fin. Qed.
#[local] Hint Resolve c_item : cont.
Lemma c_columns : cont (g_columns m) (okp never (pr_columns fmt)).
Proof.
  eapply c_weak; [unfold g_columns; cgc|]. cbn beta. intros v l [H|H].
  - opn2. fin.
  - opn1. destruct H as [-> H]. apply (commas_any _ (pr_colv fmt) (L ", ")) in H; [|now right|intros ? ? [_ X]; exact X]. opn2. fin.
Qed.
#[local] Hint Resolve c_columns : cont.
Lemma c_select : cont (g_select m) (okp never (pr_select fmt)).
Proof.
  eapply c_weak; [unfold g_select; cgc|]. cbn beta. intros v l H. opn1. opn1. subst v. repeat match goal with H : both _ _ _ _ |- _ => opn1 end.
  match goal with H : optw _ _ _ _ _ |- _ => apply shut_nl_sp in H as (? & ? & ?) end.
  match goal with H : optly topq ?o ?l |- _ => assert (X : topq (odef top_none o) l); [|clear H; revert X; generalize (odef top_none o); intros n X] end.
  { destruct o; cbn [optly odef] in *; auto. subst. exists []. split; [apply shut_nil|constructor]. }
  destruct X as (? & ? & ?). opn2. red_pr. split; auto. eexists; split; [outs_tac|norm_tac].
Qed.
#[local] Hint Resolve c_select : cont.
Definition fromp (ts : list tref) (l : list text) : Prop := is_nil ts = false /\ prn (L " FROM " ++ join (L ", ") (map (pr_tref fmt) ts)) l.
Lemma c_from : cont g_from_clause fromp.
Proof.
  eapply c_weak; [unfold g_from_clause; cgc|]. cbn beta. intros v l H. opn1. opn1. opn1. subst v. cbn [snd].
  apply (commas_any _ (pr_tref fmt) (L ", ")) in B; [|now right|intros ? ? [_ X]; exact X]. opn2. unfold fromp. split; auto. eexists; split; [outs_tac|norm_tac].
Qed.
#[local] Hint Resolve c_from : cont.

Lemma c_sfw w : nd w = true -> cont w wherep -> cont (g_sfw_gen m w) (okp sfw_empty (pr_sfw fmt)).
Proof.
  intros Nw Hw. eapply c_weak; [unfold g_sfw_gen; apply c_map1; apply cont_exp; eapply c_seqn; [reflexivity|cgc|]; eapply c_seqn; [exact Nw|cgc|]; apply c_opt, Hw|].
  cbn beta. intros v l H. opn1. opn1. subst v. repeat match goal with H : both _ _ _ _ |- _ => opn1 end.
  match goal with H : fromp _ _ |- _ => destruct H end. destruct o; cbn [optly odef] in *; [match goal with H : wherep _ _ |- _ => destruct H end|]; opn2.
  - red_pr. nils. split; auto. rewrite (app_assoc (L " FROM ")). eexists; split; [outs_tac|norm_tac].
  - red_pr. split; auto. rewrite app_nil_r. eexists; split; [outs_tac|norm_tac].
Qed.
Lemma c0_un : cont0 (PLex s_union) (unionp m fmt stray). Proof. apply c0_union. Qed.
Lemma c_addon w : nd w = true -> cont w wherep -> cont (g_addon_gen m w) (okp never (pr_addon fmt)).
Proof.
  intros Nw Hw. eapply c_weak; [unfold g_addon_gen; apply c_map1; eapply c_seq; [apply c0_un|apply (c_sfw w Nw Hw)]|].
  cbn beta. intros v l H. opn1. opn1. opn1. subst v. match goal with H : unionp _ _ _ _ _ |- _ => destruct H end. opn2. fin.
Qed.
Definition withp (v : withc) (l : list text) : Prop := with_empty v = false /\ prn (pr_with fmt v) l.
Lemma c_with : cont g_with withp.
Proof.
  eapply c_weak; [unfold g_with; cgc|]. cbn beta. intros v l H. opn1. opn1. subst v. repeat match goal with H : both _ _ _ _ |- _ => opn1 end.
  match goal with H : namep ?t ?l |- _ => assert (X : is_nil t = false /\ outs t [t] /\ l = [t]) end.
  { match goal with H : namep ?t ?l |- _ => destruct (namep_prn m fmt stray _ _ H) as [E _]; destruct H as [-> H] end. split; auto. split; auto.
    apply outs_token. unfold token. tauto. }
  destruct X as (E & On & ->). match goal with H : namep _ _ |- _ => clear H end.
  match goal with H : optly (fun w y => exists v, w = _ /\ both _ _ _ _) ?o ?l |- _ => assert (X : exists l', outs (if is_nil (odef [] o) then [] else L " (" ++ join (L ",") (odef [] o) ++ L ")") l' /\
     norm l l' /\ safe (if is_nil (odef [] o) then [] else L " (" ++ join (L ",") (odef [] o) ++ L ")")); [|clear H] end.
  { destruct o; cbn [optly odef] in *.
    - destruct A as (w & -> & A). repeat match goal with H : both _ _ _ _ |- _ => opn1 end.
      match goal with H : commas _ _ _ |- _ => apply (commas_any _ (fun x => x) (L ",")) in H; [|now left|intros ? ? Y; now apply (namep_prn m fmt stray) in Y] end.
      rewrite map_id in *. clear B1. opn2. nils. eexists. split; [outs_tac|split; [norm_tac|now apply safe_cons]].
    - subst. exists []. split; [apply outs_nil|split; [constructor|exact I]]. }
  destruct X as (l' & Oc & Nc & Sc). revert Oc Sc. generalize (odef [] o). intros cols Oc Sc.
  assert (Z : exists lq, prn (pr_subq fmt s) l1 /\ outs (pr_with fmt (With t0 cols s)) ([L "WITH"] ++ [t0] ++ l' ++ [L "AS"] ++ lq) /\ norm l1 lq).
  { clear Nc; opn2; match goal with H : norm _ ?l |- _ => exists l end; (split; [eexists; eauto|split; [|assumption]]); cbn [pr_with]; 
      (eapply outs_shut; [now apply shut_litl|]); (apply outs_safe; [exact On|apply safe_app2; [exact Sc|now apply safe_cons]|]);
      (apply outs_safe; [exact Oc|now apply safe_cons|]); (eapply outs_shut; [now apply shut_litl|assumption]). }
  destruct Z as (lq & _ & Oq & Nq). split; [cbn [with_empty]; now rewrite E|]. exists ([L "WITH"] ++ [t0] ++ l' ++ [L "AS"] ++ lq). split; [exact Oq|].
  opn2; [norm_tac|]. rewrite app_nil_r. cbn [app]. now apply (normal_with m fmt stray x t0 l0 l' l1 lq).
Qed.
#[local] Hint Resolve c_with : cont.
Lemma c_query w : nd w = true -> cont w wherep -> cont (g_query_gen m w) (okp qspec_empty (pr_qspec fmt)).
Proof.
  intros Nw Hw. pose proof c_group as Hg. pose proof c_having as Hh. pose proof c_order as Ho.
  pose proof (c_addon w Nw Hw) as Ha. pose proof (c_sfw w Nw Hw) as Hs.
  eapply c_weak; [unfold g_query_gen; apply c_map1; repeat (eapply c_seqn; [reflexivity| |]); [cgc| | | | |]|].
  1: exact Hs. 1: apply c_star; [reflexivity|exact Ha]. 1: exact (c_opt _ _ _ _ Hg). 1: exact (c_opt _ _ _ _ Hh). 1: exact (c_opt _ _ _ _ Ho).
  clear. cbn beta. intros v l H. opn1. opn1. subst v. repeat match goal with H : both _ _ _ _ |- _ => opn1 end.
  assert (Xo : exists l', outs (if is_nil (odef [] o) then [] else L " ORDER BY " ++ join (L ",") (map pr_sort (odef [] o))) l' /\
      safe (if is_nil (odef [] o) then [] else L " ORDER BY " ++ join (L ",") (map pr_sort (odef [] o))) /\ norm l1 l').
  { destruct o; cbn [optly odef] in *; [destruct B as [E (l' & O & N)]; rewrite E; exists l'; repeat split; auto; now apply safe_cons|subst; exists []; repeat split; [apply outs_nil|constructor]]. }
  assert (Xh : exists l', outs (match o0 with Some s => if sc_empty s then [] else L " HAVING " ++ pr_sc fmt s | None => [] end) l' /\
      safe (match o0 with Some s => if sc_empty s then [] else L " HAVING " ++ pr_sc fmt s | None => [] end) /\ norm l2 l').
  { destruct o0; cbn [optly odef] in *; [destruct B0 as [E (l' & O & N)]; rewrite E; exists l'; repeat split; auto; now apply safe_cons|subst; exists []; repeat split; [apply outs_nil|constructor]]. }
  assert (Xg : exists l', outs (if is_nil (odef [] o1) then [] else L " GROUP BY " ++ join (L ",") (map (pr_gterm fmt) (odef [] o1))) l' /\
      safe (if is_nil (odef [] o1) then [] else L " GROUP BY " ++ join (L ",") (map (pr_gterm fmt) (odef [] o1))) /\ norm l3 l').
  { destruct o1; cbn [optly odef] in *; [destruct B1 as [E (l' & O & N)]; rewrite E; exists l'; repeat split; auto; now apply safe_cons|subst; exists []; repeat split; [apply outs_nil|constructor]]. }
  assert (Xw : exists l', shut (match o2 with None => [] | Some w => if with_empty w then [] else pr_with fmt w ++ L " " end) l' /\ norm l l').
  { destruct o2; cbn [optly] in *; [destruct A0 as [E (l' & O & N)]; rewrite E; exists l'; split; auto; now apply shut_blank|subst; exists []; split; [apply shut_nil|constructor]]. }
  apply (many_out m fmt stray (pr_addon fmt)) in B3; [|intros []; now apply safe_cons].
  destruct Xo as (? & ? & ? & ?), Xh as (? & ? & ? & ?), Xg as (? & ? & ? & ?), Xw as (? & ? & ?), B3 as (? & ? & ? & ?), A as [E (? & ? & ?)].
  clear B B0 B1 A0. split; [exact E|]. cbn [pr_qspec]. eexists; split; [outs_tac|norm_tac].
Qed.
Lemma c_subq : cont (g_subquery m) (okp subq_empty (pr_subq fmt)).
Proof.
  assert (Hq : cont (g_query_no_geometry m) (okp qspec_empty (pr_qspec fmt))) by (apply c_query; [reflexivity|apply c_where_ng]).
  eapply c_weak; [unfold g_subquery; cgc|]. clear Hq. cbn beta. intros v l H. opn2.
  match goal with |- ContentExpr.okp _ _ _ _ _ ?s _ => destruct s end; match goal with H : _ \/ _ |- _ => destruct H end; opn2;
    try discriminate; match goal with H : _ = _ |- _ => (injection H; clear H; intros; subst) | _ => idtac end; fin.
Qed.

(** ** The rules *)
Notation G := (gen (Pr stray Nrule)).
Lemma content_body r t k v : G (g_body m r) t k v -> Pr stray Nrule r t k v.
Proof.
  intros H D E. destruct r; cbn [g_body] in H.
  - eapply (c_ve m fmt stray); eauto.
  - eapply (c_venb m fmt stray); eauto.
  - eapply (c_sc m fmt stray); eauto.
  - eapply c_subq; eauto.
  - eapply (c_jt m fmt stray); eauto.
  - eapply (c_tref m fmt stray); eauto.
Qed.
Lemma content_run n i q r : grun m n (g_query m) i = Ok q r -> white r -> (tight_not i -> stray) ->
  exists l l', lexes input_token input_glues [] i l /\ lexes (output_token m fmt) (fun _ => False) [] (pr_qspec fmt q) l' /\ norm l l'.
Proof.
  intros H W S. destruct (gen_sound _ _ content_body n _ (g_query m) i q r H) as (t & -> & Hg).
  destruct (c_query (g_where m) eq_refl c_where t r q Hg) as (l & Hl & _ & l' & O & N); auto.
  - apply spaces_white in W. now apply dotless_spaces.
  - exists l, l'. split; [|split; auto; exact (O [] I)]. rewrite <- (app_nil_r l). apply lexes_app; [now rewrite app_nil_r|now constructor].
Qed.
End Queries.

Lemma content_kept tm fmt t q :
  (forall n u, n <> [] -> lookup tm n = Some u -> u <> []) -> parse_it tm t = Q_ok q ->
  exists l l', lexes input_token input_glues [] t l /\ lexes (output_token (lookup tm) fmt) (fun _ => False) [] (to_string fmt q) l' /\
    normal (lookup tm) fmt (tight_not t) l l'.
Proof.
  intros Hm H. unfold parse_it in H. destruct (grun (lookup tm) (fuel_for t) (g_query (lookup tm)) t) as [q' r| |[]|] eqn:E; try discriminate.
  destruct (skip r) eqn:S; [|discriminate]. injection H as ->. eapply content_run; eauto.
  destruct (skip_split r) as (sp & R & Sp). rewrite S, app_nil_r in R. subst. now apply spaces_white.
Qed.
(** A check for [tight_not]. *)
Fixpoint tight_b (t : text) : bool :=
  match t with
  | [] => false
  | _ :: r => (match strip true (L "NOT") t with Some (_, []) => true | Some (_, d :: _) => negb (is_space d) | None => false end) || tight_b r
  end.
Lemma tight_b_iff t : tight_b t = true <-> tight_not t.
Proof.
  split.
  - induction t as [|c t IH]; cbn [tight_b]; [discriminate|]. intros H. apply orb_true_iff in H as [H|H].
    + destruct (strip true (L "NOT") (c :: t)) as [[n b]|] eqn:S; [|discriminate]. apply strip_nc_iff in S as [-> U].
      exists [], n, b. repeat split; auto. destruct b as [|d b]; [exact I|]. cbn. apply negb_true_iff in H. congruence.
    + apply (tight_suffix [c]). auto.
  - intros (a & n & b & -> & U & S). induction a as [|c a IH]; cbn [app].
    + destruct n as [|c n]; [discriminate|]. cbn [app tight_b]. change (c :: n ++ b) with ((c :: n) ++ b).
      rewrite (proj2 (strip_nc_iff (L "NOT") ((c :: n) ++ b) (c :: n) b)); [|now split]. destruct b as [|d b]; [reflexivity|]. cbn in S.
      destruct (is_space d); [congruence|reflexivity].
    + cbn [tight_b]. rewrite IH. apply orb_true_r.
Qed.
