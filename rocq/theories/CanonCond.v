(** Printed conditions are read back. *)
From Verif Require Import Grammar Print PegProps PegSpec PegEquiv TextLemmas SpecLexical LexProofs LexProofs2 First Calc Look Tight Operand TopProofs SpecCanon PrintEq CanonBase CanonLex CanonGeo CanonHead CanonLead CanonFun CanonPrim CanonVal.

Section Cond.
Variable m : text -> option text.
Variable fmt : text -> text.
Notation reads := (reads m).
Notation fails := (fails m).
Notation EV := (ev (g_body m) _).
Notation arg := (arg m fmt).
Notation cond := (cond m fmt).
Notation Rvenb := (Rvenb m fmt).
Definition Rve (v : ve) : Prop := forall i k, vstop k = true -> (open_ve v = true -> bstop k = true) -> (bare_ve v = true -> pstop k = true) -> skip i = skip (pr_ve fmt v ++ k) -> reads p_ve i v (skip k).
Definition Rintarget (t : intarget) : Prop := forall i k, skip i = skip (pr_intarget fmt t ++ k) -> reads g_in_target i t (skip k).
Definition Rsubq (q : subq) : Prop := forall i k, skip i = skip (pr_subq fmt q ++ k) -> reads p_subq i q (skip k).
Definition Rpred (p : pred) : Prop := forall i k, vstop k = true -> (open_f (BF [] (BP_pred p)) = true -> bstop k = true) -> (bare_pred p = true -> pstop k = true) ->
  skip i = skip (pr_pred fmt p ++ k) -> reads g_predicate i p (skip k).
Definition is_exists (p : pred) : bool := match p with P_exists _ => true | _ => false end.
(** a predicate that starts with a value: the value ends in front of the operator *)
Definition Hpred (p : pred) : Prop := is_exists p = false -> forall k, exists v j, (forall i, skip i = skip (pr_pred fmt p ++ k) -> reads p_venb i v j) /\ strip false (L ")") j = None.

Lemma ve_arg v : Rve v -> arg v.
Proof. intros R i k K H. apply R; [now apply astop_v|intros _; now apply astop_b|intros _; now apply astop_p|exact H]. Qed.
Lemma rd_ve_nb v : Rvenb v -> Rve (VE_nb v).
Proof. intros R i k K _ _ H. rewrite pr_ve_VE_nb in H. apply (reads_rule m R_ve). apply reads_alt1. eapply reads_map with (v := v); [|reflexivity]. now apply R. Qed.

Ltac lookp p H := eapply look_fail; [eapply (starts_text p); [|exact H]|]; reflexivity.
Ltac comparison_fails V H p := apply fails_map, fails_seq1; (eapply fails_seq2; [eapply V; [|exact H]; reflexivity|]); let r := fresh in let Hr := fresh in intros r Hr; lookp p Hr.
Ltac nextalt H := let r := fresh "q" in let E := fresh in intros r E; rewrite <- E in H; clear E.
Lemma rd_cmp l op r : Rvenb l -> one_of op ["="; "!="; "<>"; "<="; ">="; "<"; ">"]%string = true -> Rve r -> Rpred (P_cmp l op r).
Proof.
  intros V O R i k K B P H. rewrite pr_pred_P_cmp, <- !app_assoc in H. apply one_of_iff in O. apply reads_alt1.
  eapply reads_map with (v := (l, op, r)); [|reflexivity]. eapply reads_seq; [eapply reads_seq|].
  - eapply V; [|exact H]. cbn [map In] in O. repeat (destruct O as [<-|O]; [reflexivity|]). destruct O.
  - intros r1 H1. change (skip (L " " ++ op ++ L " " ++ pr_ve fmt r ++ k)) with (skip (op ++ L " " ++ pr_ve fmt r ++ k)) in H1.
    eapply (reads_lex m _ _ op (L " " ++ pr_ve fmt r ++ k)); [reflexivity|]. rewrite H1. cbn [map In] in O. repeat (destruct O as [<-|O]; [reflexivity|]). destruct O.
  - intros r2 H2. apply R; auto.
Qed.
Lemma hd_cmp l op r : Rvenb l -> one_of op ["="; "!="; "<>"; "<="; ">="; "<"; ">"]%string = true -> Hpred (P_cmp l op r).
Proof.
  intros V O _ k. apply one_of_iff in O. eexists _, _. split.
  - intros i H; rewrite pr_pred_P_cmp, <- !app_assoc in H; eapply V; [|exact H]. cbn [map In] in O. repeat (destruct O as [<-|O]; [reflexivity|]). destruct O.
  - cbn [map In] in O. repeat (destruct O as [<-|O]; [reflexivity|]). destruct O.
Qed.
Lemma upper_not n : one_of_nc n ["NOT"]%string = true -> upper n = upper (L "NOT") /\ exists c t, n = c :: t /\ (c = "N"%char \/ c = "n"%char).
Proof.
  intros H. apply one_of_nc_iff in H as [H|[]]. split; [now rewrite <- H|]. destruct n as [|c t]; [discriminate H|]. exists c, t. split; auto. injection H as H _. revert H. clear.
  destruct c as [[] [] [] [] [] [] [] []]; vm_compute; auto; discriminate.
Qed.
(** the text behind the value, in which NOT has any letter case *)
Lemma not_follow n t : is_nil n || one_of_nc n ["NOT"%string] = true -> vstop (L " " ++ nl_sp n ++ L "BETWEEN " ++ t) = true /\ sfail s_comparison (L " " ++ nl_sp n ++ L "BETWEEN " ++ t) = true /\
  strip false (L ")") (skip (L " " ++ nl_sp n ++ L "BETWEEN " ++ t)) = None.
Proof.
  intros H. destruct n as [|c0 n0]; [repeat split; reflexivity|]. cbn [is_nil orb] in H. apply upper_not in H as [_ (c & t' & -> & [-> | ->])]; repeat split; reflexivity.
Qed.
Lemma sfail_lex e i k : swf e = true -> sfail e k = true -> skip i = skip k -> fails (PLex e) i.
Proof. intros W S H. unfold sfail in S. destruct (srun e [] (skip k)) eqn:E; try discriminate. eapply fails_lex; [exact W|]. rewrite H. exact E. Qed.
Lemma sfail_ex e k : sfail e k = true -> exists v, srun e [] (skip k) = SFail v.
Proof. unfold sfail. destruct (srun e [] (skip k)); try discriminate. eauto. Qed.
Lemma olex_none e i v k : swf e = true -> srun e [] (skip k) = SFail v -> skip i = skip k -> reads (POptLex e) i v (skip k).
Proof. intros W S H. rewrite <- H. eapply reads_olex_none; [exact W|]. now rewrite H. Qed.
Lemma rd_between v n lo hi : Rvenb v -> is_nil n || one_of_nc n ["NOT"%string] = true -> Rve lo -> open_ve lo = false -> Rve hi -> Rpred (P_between v n lo hi).
Proof.
  intros V N LO OL HI i k K B P H. rewrite pr_pred_P_between, <- !app_assoc in H. destruct (not_follow n (pr_ve fmt lo ++ L " AND " ++ pr_ve fmt hi ++ k) N) as (F1 & F2 & _).
  apply reads_alt2. { apply fails_map, fails_seq1. eapply fails_seq2; [eapply V; [|exact H]; exact F1|]. intros r Hr. eapply sfail_lex; [|exact F2|exact Hr]. reflexivity. }
  nextalt H. apply reads_alt1. eapply reads_map with (v := (v, n, [], lo, [], hi)); [|reflexivity].
  eapply reads_seq; [eapply reads_seq; [eapply reads_seq; [eapply reads_seq; [eapply reads_seq|]|]|]|].
  - eapply V; [exact F1|exact H].
  - intros r Hr. instantiate (1 := skip (L "BETWEEN " ++ pr_ve fmt lo ++ L " AND " ++ pr_ve fmt hi ++ k)). destruct n as [|c n].
    + apply no_ohard; [reflexivity|]. exact Hr.
    + cbn [is_nil orb] in N. apply upper_not in N as [N _]. cbn [nl_sp is_nil] in Hr. rewrite <- app_assoc in Hr.
      eapply (rd_ohard m "NOT" (c :: n) " "%char); [reflexivity|exact N|reflexivity|]. rewrite Hr. reflexivity.
  - intros r Hr. eapply (rd_hard m "BETWEEN" (L "BETWEEN") " "%char); [reflexivity..|exact Hr].
  - intros r Hr. apply (LO r (L " AND " ++ pr_ve fmt hi ++ k)); [reflexivity|congruence| |exact Hr]. destruct lo; [discriminate|discriminate OL].
  - intros r Hr. eapply (rd_hard m "AND" (L "AND") " "%char); [reflexivity..|exact Hr].
  - intros r Hr. apply HI; auto.
Qed.
Lemma hd_between v n lo hi : Rvenb v -> is_nil n || one_of_nc n ["NOT"%string] = true -> Hpred (P_between v n lo hi).
Proof.
  intros V N _ k. destruct (not_follow n (pr_ve fmt lo ++ L " AND " ++ pr_ve fmt hi ++ k) N) as (F1 & F2 & F3).
  eexists _, _. split; [intros i H; rewrite pr_pred_P_between, <- !app_assoc in H; eapply V; [|exact H]; exact F1|exact F3].
Qed.

Lemma rd_in v n t : Rvenb v -> one_of n [""; "NOT "]%string = true -> Rintarget t -> Rpred (P_in v n t).
Proof.
  intros V N T i k _ _ _ H. rewrite pr_pred_P_in, <- !app_assoc in H. apply one_of_iff in N.
  assert (F : vstop (L " " ++ (if is_nil n then [] else L "NOT ") ++ L "IN " ++ pr_intarget fmt t ++ k) = true) by (destruct N as [<-|[<-|[]]]; reflexivity).
  apply reads_alt2. { apply fails_map, fails_seq1. eapply fails_seq2; [eapply V; [exact F|exact H]|]. intros r Hr. destruct N as [<-|[<-|[]]]; eapply sfail_lex; try exact Hr; reflexivity. }
  nextalt H. apply reads_alt2.
  { apply fails_map, fails_seq1, fails_seq1, fails_seq1. destruct N as [<-|[<-|[]]].
    - eapply fails_seq2; [eapply reads_seq; [eapply V; [exact F|exact H]|]|].
      + intros r Hr. eapply no_ohard; [|exact Hr]. reflexivity.
      + intros r Hr. eapply no_hard; [|exact Hr]. reflexivity.
    - eapply fails_seq2; [eapply reads_seq; [eapply V; [exact F|exact H]|]|].
      + intros r Hr. eapply (rd_ohard m "NOT" (L "NOT") " "%char); [reflexivity..|exact Hr].
      + intros r Hr. eapply no_hard; [|exact Hr]. reflexivity. }
  nextalt H. apply reads_alt1. eapply reads_map with (v := (v, n, [], t)); [|reflexivity].
  eapply reads_seq; [eapply reads_seq; [eapply reads_seq|]|].
  - eapply V; [exact F|exact H].
  - intros r Hr. instantiate (1 := skip (L "IN " ++ pr_intarget fmt t ++ k)). destruct N as [<-|[<-|[]]].
    + change (skip r = skip (L "IN " ++ pr_intarget fmt t ++ k)) in Hr. eapply olex_none; [| |exact Hr]; reflexivity.
    + eapply reads_olex; [reflexivity|]. rewrite Hr. reflexivity.
  - intros r Hr. eapply (rd_hard m "IN" (L "IN") " "%char); [reflexivity..|exact Hr].
  - intros r Hr. now apply T.
Qed.
Lemma hd_in v n t : Rvenb v -> one_of n [""; "NOT "]%string = true -> Hpred (P_in v n t).
Proof.
  intros V N _ k. apply one_of_iff in N. eexists _, _. split.
  - intros i H; rewrite pr_pred_P_in, <- !app_assoc in H; eapply V; [|exact H]. destruct N as [<-|[<-|[]]]; reflexivity.
  - destruct N as [<-|[<-|[]]]; reflexivity.
Qed.
Lemma rd_isnull v n : Rvenb v -> one_of n [""; "NOT"]%string = true -> Rpred (P_null v n).
Proof.
  intros V N i k _ _ _ H. rewrite pr_pred_P_null, <- !app_assoc in H. apply one_of_iff in N.
  apply reads_alt2. { apply fails_map, fails_seq1. eapply fails_seq2; [eapply V; [|exact H]; reflexivity|]. intros r Hr. eapply sfail_lex; try exact Hr; reflexivity. }
  nextalt H. apply reads_alt2.
  { apply fails_map, fails_seq1, fails_seq1, fails_seq1. eapply fails_seq2; [eapply reads_seq; [eapply V; [|exact H]; reflexivity|]|].
    - intros r Hr. eapply no_ohard; [|exact Hr]. reflexivity.
    - intros r Hr. eapply no_hard; [|exact Hr]. reflexivity. }
  nextalt H. apply reads_alt2.
  { apply fails_map, fails_seq1. eapply fails_seq2; [eapply reads_seq; [eapply V; [|exact H]; reflexivity|]|].
    - intros r Hr. eapply olex_none; [| |exact Hr]; reflexivity.
    - intros r Hr. eapply no_hard; [|exact Hr]. reflexivity. }
  nextalt H. apply reads_alt1. eapply reads_map with (v := (v, [], n, tt)); [|reflexivity].
  eapply reads_seq; [eapply reads_seq; [eapply reads_seq|]|].
  - eapply V; [|exact H]. reflexivity.
  - intros r Hr. eapply (rd_hard m "IS" (L "IS") " "%char); [reflexivity..|exact Hr].
  - intros r Hr. instantiate (1 := skip (L "NULL" ++ k)). destruct N as [<-|[<-|[]]].
    + eapply no_ohard; [|exact Hr]. reflexivity.
    + eapply (rd_ohard m "NOT" (L "NOT") " "%char); [reflexivity..|exact Hr].
  - intros r Hr. eapply rd_kw with (t := L "NULL"); [reflexivity..|exact Hr].
Qed.
Lemma hd_isnull v n : Rvenb v -> Hpred (P_null v n).
Proof. intros V _ k. eexists _, _. split; [intros i H; rewrite pr_pred_P_null, <- !app_assoc in H; eapply V; [|exact H]|]; reflexivity. Qed.
Lemma rd_like v n p : Rvenb v -> one_of n [""; "NOT"]%string = true -> Rvenb p -> Rpred (P_like v n (VE_nb p)).
Proof.
  intros V N P i k K _ _ H. rewrite pr_pred_P_like, pr_ve_VE_nb, <- !app_assoc in H. apply one_of_iff in N.
  assert (F : vstop ((if is_nil n then L " " else L " NOT ") ++ L "LIKE " ++ pr_venb fmt p ++ k) = true) by (destruct N as [<-|[<-|[]]]; reflexivity).
  apply reads_alt2. { apply fails_map, fails_seq1. eapply fails_seq2; [eapply V; [exact F|exact H]|]. intros r Hr. destruct N as [<-|[<-|[]]]; eapply sfail_lex; try exact Hr; reflexivity. }
  nextalt H. apply reads_alt2.
  { apply fails_map, fails_seq1, fails_seq1, fails_seq1. destruct N as [<-|[<-|[]]].
    - eapply fails_seq2; [eapply reads_seq; [eapply V; [exact F|exact H]|]|].
      + intros r Hr. eapply no_ohard; [|exact Hr]. reflexivity.
      + intros r Hr. eapply no_hard; [|exact Hr]. reflexivity.
    - eapply fails_seq2; [eapply reads_seq; [eapply V; [exact F|exact H]|]|].
      + intros r Hr. eapply (rd_ohard m "NOT" (L "NOT") " "%char); [reflexivity..|exact Hr].
      + intros r Hr. eapply no_hard; [|exact Hr]. reflexivity. }
  nextalt H. apply reads_alt2.
  { apply fails_map, fails_seq1. destruct N as [<-|[<-|[]]].
    - eapply fails_seq2; [eapply reads_seq; [eapply V; [exact F|exact H]|]|].
      + intros r Hr. eapply olex_none; [| |exact Hr]; reflexivity.
      + intros r Hr. eapply no_hard; [|exact Hr]. reflexivity.
    - eapply fails_seq2; [eapply reads_seq; [eapply V; [exact F|exact H]|]|].
      + intros r Hr. eapply (reads_olex m _ _ _ (L "LIKE " ++ pr_venb fmt p ++ k)); [reflexivity|]. rewrite Hr. reflexivity.
      + intros r Hr. eapply no_hard; [|exact Hr]. reflexivity. }
  nextalt H. apply reads_alt2.
  { apply fails_map, fails_seq1, fails_seq1. eapply fails_seq2; [eapply V; [exact F|exact H]|]. intros r Hr. destruct N as [<-|[<-|[]]]; eapply sfail_lex; try exact Hr; reflexivity. }
  nextalt H. apply reads_alt1. eapply reads_map with (v := (v, n, [], VE_nb p)); [|reflexivity].
  eapply reads_seq; [eapply reads_seq; [eapply reads_seq|]|].
  - eapply V; [exact F|exact H].
  - intros r Hr. instantiate (1 := skip (L "LIKE " ++ pr_venb fmt p ++ k)). destruct N as [<-|[<-|[]]].
    + eapply no_osofts; [|exact Hr]. reflexivity.
    + eapply (rd_osofts m _ (L "NOT") " "%char); [reflexivity..|exact Hr].
  - intros r Hr. eapply (rd_soft m "LIKE" (L "LIKE") " "%char); [reflexivity..|exact Hr].
  - intros r Hr. eapply reads_map with (v := p); [|reflexivity]. now apply P.
Qed.
Lemma hd_like v n p : Rvenb v -> one_of n [""; "NOT"]%string = true -> Hpred (P_like v n p).
Proof.
  intros V N _ k. apply one_of_iff in N. eexists _, _. split.
  - intros i H; rewrite pr_pred_P_like, <- !app_assoc in H; eapply V; [|exact H]. destruct N as [<-|[<-|[]]]; reflexivity.
  - destruct N as [<-|[<-|[]]]; reflexivity.
Qed.
Lemma no_value_preds i : fails p_venb i -> fails g_comparison_predicate i /\ fails g_between_predicate i /\ fails g_in_predicate i /\ fails g_null_predicate i /\ fails g_like_predicate i.
Proof. intros F. repeat split; apply fails_map; repeat apply fails_seq1; exact F. Qed.
Lemma rd_exists q : Rsubq q -> Rpred (P_exists q).
Proof.
  intros Q i k _ _ _ H. rewrite pr_pred_P_exists, <- !app_assoc in H.
  assert (F : forall r, skip r = skip i -> fails p_venb r) by (intros r Hr; rewrite <- Hr in H; lookp (L "EXISTS ") H).
  do 5 (apply reads_alt2; [apply (no_value_preds i), F; reflexivity|]; let r0 := fresh in let H0 := fresh in intros r0 H0; rewrite <- H0 in H, F; clear H0 i; rename r0 into i).
  eapply reads_map with (v := ([], q)); [|reflexivity]. eapply reads_seq.
  - eapply (rd_hard m "EXISTS" (L "EXISTS") " "%char); [reflexivity..|exact H].
  - intros r Hr. now apply Q.
Qed.
(** a value that no operator follows is not a predicate *)
Lemma no_exists i : strip true (L "EXISTS") (skip i) = None -> fails g_exists_predicate i.
Proof. intros X. apply fails_map, fails_seq1. now apply (no_hard m "EXISTS" i i). Qed.
Lemma no_pred_val v i k : (forall r, skip r = skip i -> reads p_venb r v (skip k)) -> pstop k = true -> strip true (L "EXISTS") (skip i) = None -> fails g_predicate i.
Proof.
  intros V P X. unfold pstop in P. ands.
  destruct (sfail_ex (kws_hard "NOT") k) as [n1 N1]; [assumption|]. destruct (sfail_ex (SExp (SStr true (L "NOT")) (SChr is_space)) k) as [n2 N2]; [assumption|].
  destruct (sfail_ex (kws_soft ["NOT"%string]) k) as [n3 N3]; [assumption|].
  apply fails_alt. { apply fails_map, fails_seq1. eapply fails_seq2; [now apply V|]. intros r Hr. eapply sfail_lex; [|eassumption|exact Hr]. reflexivity. }
  intros r1 E1. apply fails_alt.
  { apply fails_map, fails_seq1, fails_seq1, fails_seq1.
    eapply fails_seq2; [eapply reads_seq; [now apply V|]|].
    - intros r Hr. eapply (olex_none (kws_hard "NOT")); [|eassumption|exact Hr]. reflexivity.
    - intros r Hr. eapply sfail_lex; [|eassumption|exact Hr]. reflexivity. }
  intros r2 E2. apply fails_alt.
  { apply fails_map, fails_seq1. eapply fails_seq2; [eapply reads_seq; [apply V; congruence|]|].
    - intros r Hr. eapply (olex_none (SExp (SStr true (L "NOT")) (SChr is_space))); [|eassumption|exact Hr]. reflexivity.
    - intros r Hr. eapply sfail_lex; [|eassumption|exact Hr]. reflexivity. }
  intros r3 E3. apply fails_alt.
  { apply fails_map, fails_seq1, fails_seq1. eapply fails_seq2; [apply V; congruence|]. intros r Hr. eapply sfail_lex; [|eassumption|exact Hr]. reflexivity. }
  intros r4 E4. apply fails_alt.
  { apply fails_map, fails_seq1. eapply fails_seq2; [eapply reads_seq; [apply V; congruence|]|].
    - intros r Hr. eapply (olex_none (kws_soft ["NOT"%string])); [|eassumption|exact Hr]. reflexivity.
    - intros r Hr. eapply sfail_lex; [|eassumption|exact Hr]. reflexivity. }
  intros r5 E5. apply no_exists. congruence.
Qed.
Lemma no_pred i : (forall r, skip r = skip i -> fails p_venb r) -> strip true (L "EXISTS") (skip i) = None -> fails g_predicate i.
Proof.
  intros F X. assert (X' : forall r, skip r = skip i -> fails g_exists_predicate r) by (intros r Hr; apply no_exists; now rewrite Hr).
  apply fails_alt; [now apply no_value_preds, F|]. intros r1 E1. apply fails_alt; [now apply no_value_preds, F|]. intros r2 E2. rewrite E1 in E2.
  apply fails_alt; [now apply no_value_preds, F|]. intros r3 E3. rewrite E2 in E3. apply fails_alt; [now apply no_value_preds, F|]. intros r4 E4. rewrite E3 in E4.
  apply fails_alt; [now apply no_value_preds, F|]. intros r5 E5. rewrite E4 in E5. now apply X'.
Qed.

(** ** Parentheses *)
Definition paren_val (a : ve) : venb := VENB (Factor [] (NP_vep (VEP (VP_sub a) []))) [].
Ltac pass p H := apply reads_alt2; [lookp p H|nextalt H].
Lemma rd_paren a t i k : vstop k = true -> (forall r, skip r = skip (t ++ L ")" ++ k) -> reads p_ve r a (skip (L ")" ++ k))) -> skip i = skip (L "(" ++ t ++ L ")" ++ k) -> reads p_venb i (paren_val a) (skip k).
Proof.
  intros K A H. apply (reads_rule m R_venb). eapply reads_map with (v := (Factor [] (NP_vep (VEP (VP_sub a) [])), [])); [|reflexivity]. eapply reads_seq.
  - eapply reads_map with (v := ([], NP_vep (VEP (VP_sub a) []))); [|reflexivity]. eapply reads_seq.
    + eapply reads_olex_none; [reflexivity|]. rewrite H. reflexivity.
    + intros r Hr. rewrite <- Hr in H. apply reads_alt2; [apply fails_map; lookp (L "(") H|]. nextalt H.
      eapply reads_map with (v := VEP (VP_sub a) []); [|reflexivity]. eapply reads_map with (v := (VP_sub a, [])); [|reflexivity]. eapply reads_seq.
      * do 8 pass (L "(") H. eapply reads_map with (v := (tt, a, tt)); [|reflexivity]. eapply reads_seq; [eapply reads_seq|].
        -- eapply rd_lit; [|exact H]. reflexivity. -- intros r2 H2. now apply A. -- intros r2 H2. eapply rd_lit; [|exact H2]. reflexivity.
      * intros r2 H2. instantiate (1 := skip k). rewrite <- H2. apply reads_star_nil. eapply no_more_index; [|exact H2]. now apply vstop2.
  - intros r Hr. apply (rd_terms m fmt [] (Factor [] (NP_vep (VEP (VP_sub a) [])))); auto.
Qed.
Lemma no_paren t i : (forall r, skip r = skip t -> fails p_ve r) \/ (exists a j, strip false (L ")") j = None /\ forall r, skip r = skip t -> reads p_ve r a j) -> skip i = skip (L "(" ++ t) -> fails p_venb i.
Proof.
  intros A H. apply (fails_rule m R_venb). apply fails_map, fails_seq1, fails_map. eapply fails_seq2; [eapply reads_olex_none; [reflexivity|]; rewrite H; reflexivity|].
  intros r Hr. rewrite <- Hr in H. apply fails_alt; [apply fails_map; lookp (L "(") H|]. nextalt H. apply fails_map, fails_map, fails_seq1.
  do 8 (apply fails_alt; [lookp (L "(") H|nextalt H]). apply fails_map. destruct A as [F|(a & j & N & R)].
  - apply fails_seq1. eapply fails_seq2; [eapply rd_lit; [|exact H]; reflexivity|]. exact F.
  - eapply fails_seq2; [eapply reads_seq; [eapply rd_lit; [|exact H]; reflexivity|exact R]|]. intros r2 H2. apply fails_lit. now rewrite H2.
Qed.

(** ** Conditions *)
Definition exact_p (p : bprim) : bool := match p with BP_pred _ => false | _ => true end.
Definition no_value_p (p : bprim) : bool := match p with BP_pred (P_exists _) => true | BP_sc s' => negb (is_value s') | _ => false end.
Definition Rbprim (p : bprim) : Prop := forall i k, vstop k = true -> (open_f (BF [] p) = true -> bstop k = true) -> (bare_p p = true -> pstop k = true) ->
  skip i = skip (pr_bprim fmt p ++ k) -> reads g_boolean_primary i p (skip k).
Definition Rbfac (f : bfac) : Prop := forall i k, vstop k = true -> (open_f f = true -> bstop k = true) -> (bare_f f = true -> pstop k = true) ->
  skip i = skip (pr_bfac fmt f ++ k) -> reads g_boolean_factor i f (skip k).
Definition Rsc (s : sc) : Prop := forall i k, vstop k = true -> bstop k = true -> (bare s = true -> pstop k = true) ->
  skip i = skip (pr_sc fmt s ++ k) -> reads p_sc i s (skip k).
(** what [p_venb] makes of a condition: nothing, or a value that ends where the condition ends, or one that ends elsewhere and not at a closing parenthesis *)
Definition Vbprim (p : bprim) : Prop := forall k,
  if no_value_p p then forall i, skip i = skip (pr_bprim fmt p ++ k) -> fails p_venb i
  else vstop k = true -> exists v j, (forall i, skip i = skip (pr_bprim fmt p ++ k) -> reads p_venb i v j) /\ if exact_p p then j = skip k else strip false (L ")") j = None.
Definition Vsc (s : sc) : Prop := forall k,
  (no_value s = true -> forall i, skip i = skip (pr_sc fmt s ++ k) -> fails p_venb i) /\
  if is_value s then vstop k = true -> exists v, forall i, skip i = skip (L "(" ++ pr_sc fmt s ++ L ")" ++ k) -> reads p_venb i v (skip k)
  else forall i, skip i = skip (L "(" ++ pr_sc fmt s ++ L ")" ++ k) -> fails p_venb i.
Lemma rd_ve_sc s : Rsc s -> Vsc s -> no_value s = true -> Rve (VE_sc s).
Proof.
  intros R V N i k K B P H. rewrite pr_ve_VE_sc in H. apply (reads_rule m R_ve). apply reads_alt2; [apply fails_map; now apply (V k)|]. nextalt H.
  eapply reads_map with (v := s); [|reflexivity]. apply R; auto.
Qed.
Lemma strip_before s t k : forallb is_letter s = true -> strip true s t = None -> bnd k = true -> strip true s (t ++ k) = None.
Proof.
  revert t. induction s as [|a s IH]; intros t A N K; [discriminate N|]. cbn [forallb] in A. apply andb_true_iff in A as [A1 A2]. destruct t as [|c t].
  - destruct k as [|c k]; [reflexivity|]. cbn in K |- *. destruct (brk_no _ K) as [X _]. unfold eq_nc. destruct (Ascii.eqb (upc a) (upc c)) eqn:E; [|reflexivity].
    apply Ascii.eqb_eq in E. exfalso. assert (is_idchar (upc c) = true) as Y by (rewrite <- E; revert A1; clear; destruct a as [[] [] [] [] [] [] [] []]; vm_compute; congruence).
    revert X Y. clear. destruct c as [[] [] [] [] [] [] [] []]; vm_compute; congruence.
  - cbn in N |- *. unfold eq_nc in *. destruct (Ascii.eqb (upc a) (upc c)) eqn:E; [|reflexivity]. destruct (strip true s t) as [[]|] eqn:S; [discriminate|]. now rewrite IH.
Qed.
Lemma begins_no w t k : forallb is_letter (L w) = true -> begins_with_nc w t = false -> bnd k = true -> strip true (L w) (t ++ k) = None.
Proof. unfold begins_with_nc. intros A B K. apply strip_before; auto. destruct (strip true (L w) t); [discriminate|reflexivity]. Qed.
Lemma vstop_bnd k : vstop k = true -> bnd k = true.
Proof. unfold vstop. intros H. now ands. Qed.

Lemma V_pred p : Hpred p -> Vbprim (BP_pred p).
Proof.
  intros Hp k. destruct (is_exists p) eqn:X.
  - destruct p; try discriminate X. cbn [no_value_p]. intros i H. rewrite pr_bprim_BP_pred, pr_pred_P_exists, <- !app_assoc in H. lookp (L "EXISTS ") H.
  - assert (no_value_p (BP_pred p) = false) as -> by (now destruct p). intros _. exact (Hp X k).
Qed.
Lemma V_sc s : Vsc s -> Vbprim (BP_sc s).
Proof.
  intros V k. cbn [no_value_p exact_p]. destruct (V k) as [_ V2]. destruct (is_value s); cbn [negb].
  - intros K. destruct (V2 K) as [v Hv]. exists v, (skip k). split; [|reflexivity]. intros i H. rewrite pr_bprim_BP_sc, <- !app_assoc in H. auto.
  - intros i H. rewrite pr_bprim_BP_sc, <- !app_assoc in H. auto.
Qed.
Lemma V_val v : Rvenb v -> Vbprim (BP_val v).
Proof. intros V k K. exists v, (skip k). split; [|reflexivity]. intros i H. rewrite pr_bprim_BP_val in H. now apply V. Qed.
Lemma rd_bpred p : Rpred p -> Rbprim (BP_pred p).
Proof. intros R i k K B P H. rewrite pr_bprim_BP_pred in H. apply reads_alt1. eapply reads_map with (v := p); [|reflexivity]. now apply R. Qed.
Lemma rd_bsc s : Rsc s -> Vsc s -> Rbprim (BP_sc s).
Proof.
  intros R V i k K _ P H. rewrite pr_bprim_BP_sc, <- !app_assoc in H. apply reads_alt2.
  { apply fails_map. destruct (V k) as [_ V2]. cbn [bare_p] in P. destruct (is_value s).
    - destruct (V2 K) as [v Hv]. eapply no_pred_val; [|now apply P|]; [|rewrite H; reflexivity]. intros r Hr. apply Hv. congruence.
    - apply no_pred; [|rewrite H; reflexivity]. intros r Hr. apply V2. congruence. }
  nextalt H. apply reads_alt1. eapply reads_map with (v := (tt, s, tt)); [|reflexivity]. eapply reads_seq; [eapply reads_seq|].
  - eapply rd_lit; [|exact H]. reflexivity.
  - intros r Hr. eapply R; [| | |exact Hr]; reflexivity.
  - intros r Hr. eapply rd_lit; [|exact Hr]. reflexivity.
Qed.
Lemma rd_bval v : Rvenb v -> dark (pr_venb fmt v) -> head_is "(" (pr_venb fmt v) = false -> begins_with_nc "EXISTS" (pr_venb fmt v) = false -> Rbprim (BP_val v).
Proof.
  intros V D N X i k K _ P H. rewrite pr_bprim_BP_val in H. apply reads_alt2.
  { apply fails_map. eapply no_pred_val; [|now apply P|]. - intros r Hr. apply V; [exact K|congruence]. - rewrite H, dark_skip by exact D. apply begins_no; auto. now apply vstop_bnd. }
  nextalt H. apply reads_alt2.
  { apply fails_map, fails_seq1, fails_seq1. apply fails_lit. rewrite H, dark_skip by exact D. destruct (pr_venb fmt v) as [|c t]; [easy|]. cbn [head_is app L list_ascii_of_string strip] in N |- *.
    rewrite Ascii.eqb_sym. now rewrite N. }
  nextalt H. eapply reads_map with (v := v); [|reflexivity]. now apply V.
Qed.
Lemma rd_bfac n p : (if is_nil n then dark (pr_bprim fmt p) /\ begins_with_nc "NOT" (pr_bprim fmt p) = false else one_of_nc n ["NOT"%string] = true) -> Rbprim p -> Rbfac (BF n p).
Proof.
  intros N R i k K B P H. rewrite pr_bfac_BF, <- app_assoc in H. eapply reads_map with (v := (n, p)); [|reflexivity]. eapply (reads_seq m _ _ _ _ (skip (pr_bprim fmt p ++ k))).
  - destruct n as [|c n].
    + cbn [is_nil] in N. destruct N as [D N]. eapply no_osofts; [|exact H]. cbn [forallb]. rewrite dark_skip by exact D. rewrite begins_no; auto. now apply vstop_bnd.
    + cbn [is_nil] in N. apply upper_not in N as [N (c' & t & E & C)]. cbn [nl_sp is_nil] in H. rewrite <- app_assoc in H.
      eapply (rd_osofts m _ (c :: n) " "%char); [rewrite N; reflexivity| |reflexivity..|exact H]. injection E as -> _. destruct C as [-> | ->]; reflexivity.
  - intros r Hr. apply R; auto.
Qed.
(** NOT in front is not the start of a value *)
Lemma not_no_value n p k i : one_of_nc n ["NOT"%string] = true -> skip i = skip (pr_bfac fmt (BF n p) ++ k) -> fails p_venb i.
Proof.
  intros N H. rewrite pr_bfac_BF, <- app_assoc in H. apply upper_not in N as [N (c & t & E & _)]. rewrite E in H. cbn [nl_sp is_nil] in H. rewrite <- E, <- app_assoc in H.
  eapply look_fail with (b := false) (p := L "NOT "); [|reflexivity]. exists (n ++ L " "), (pr_bprim fmt p ++ k). rewrite <- app_assoc. split; [exact H|]. split; [|discriminate].
  rewrite upper_app, N. reflexivity.
Qed.
Definition first_of (s : sc) : bfac := match s with SC_f f => f | SC_t f _ _ => f end.
Definition more_of (s : sc) : text := match s with SC_f _ => [] | SC_t _ op s => L " " ++ op ++ L " " ++ pr_sc fmt s end.
Lemma rd_sc_f f : Rbfac f -> c_sc fmt (SC_f f) = true -> Rsc (SC_f f).
Proof.
  intros R C i k K B P H. rewrite pr_sc_f in H by exact C. apply (reads_rule m R_sc). apply reads_alt2.
  - apply fails_map, fails_seq1. eapply fails_seq2; [apply R; [exact K|auto|auto|exact H]|]. intros r Hr. eapply sfail_lex; [|exact B|exact Hr]. reflexivity.
  - nextalt H. eapply reads_map with (v := f); [|reflexivity]. apply R; auto.
Qed.
Lemma rd_sc_t f op s : Rbfac f -> Rsc s -> c_sc fmt (SC_t f op s) = true -> Rsc (SC_t f op s).
Proof.
  intros R S C i k K B P H. rewrite pr_sc_t, <- !app_assoc in H by exact C. rewrite c_sc_SC_t in C. ands. match goal with X : one_of op _ = true |- _ => apply one_of_iff in X; rename X into O end.
  apply (reads_rule m R_sc). apply reads_alt1. eapply reads_map with (v := (f, op, s)); [|reflexivity]. eapply reads_seq; [eapply reads_seq|].
  - eapply R; [| | |exact H].
    + destruct O as [<-|[<-|[]]]; reflexivity.
    + match goal with X : negb (open_f f) = true |- _ => apply negb_true_iff in X; rewrite X; discriminate | X : open_f f = false |- _ => rewrite X; discriminate end.
    + intros _. destruct O as [<-|[<-|[]]]; reflexivity.
  - intros r Hr. change (skip (L " " ++ op ++ L " " ++ pr_sc fmt s ++ k)) with (skip (op ++ L " " ++ pr_sc fmt s ++ k)) in Hr.
    eapply (rd_softs m _ op " "%char); [..|exact Hr]; destruct O as [<-|[<-|[]]]; reflexivity.
  - intros r Hr. apply S; auto.
Qed.
Lemma sc_text s : c_sc fmt s = true -> pr_sc fmt s = pr_bfac fmt (first_of s) ++ more_of s.
Proof. destruct s; intros C; [rewrite pr_sc_f by exact C; now rewrite app_nil_r|]. now rewrite pr_sc_t by exact C. Qed.
Lemma more_follow s k : c_sc fmt s = true -> vstop (more_of s ++ L ")" ++ k) = true /\ (match s with SC_f _ => False | _ => True end -> strip false (L ")") (skip (more_of s ++ L ")" ++ k)) = None).
Proof.
  destruct s as [f|f op s]; intros C; [now split|]. cbn [more_of]. rewrite c_sc_SC_t in C. ands. match goal with X : one_of op _ = true |- _ => apply one_of_iff in X; rename X into O end.
  destruct O as [<-|[<-|[]]]; split; reflexivity.
Qed.
Lemma Vsc_ok s : c_sc fmt s = true -> Rsc s -> match first_of s with BF n p => (if is_nil n then True else one_of_nc n ["NOT"%string] = true) /\ Vbprim p end -> Vsc s.
Proof.
  intros C R V. destruct (first_of s) as [n p] eqn:F. destruct V as [N V].
  assert (NV : no_value s = true -> forall k i, skip i = skip (pr_sc fmt s ++ k) -> fails p_venb i).
  { intros X k i H. rewrite sc_text, F, <- app_assoc in H by exact C. destruct n as [|c n].
    - rewrite pr_bfac_BF in H. cbn [nl_sp is_nil app] in H. specialize (V (more_of s ++ k)). assert (no_value_p p = true) as Z by (destruct s; cbn in F, X; subst; exact X). rewrite Z in V. now apply V.
    - eapply not_no_value; [exact N|exact H]. }
  intros k. split; [intros X; now apply NV|]. destruct (no_value s) eqn:X.
  - assert (is_value s = true) as ->. { destruct s as [f|f op s]; cbn in F; subst f; cbn in X |- *; destruct (is_nil n); auto; cbn in X |- *; destruct p as [[]| |]; auto. }
    intros K. exists (paren_val (VE_sc s)). intros i H. eapply rd_paren; [exact K| |exact H]. intros r Hr. apply (reads_rule m R_ve). apply reads_alt2; [apply fails_map; eapply NV; [reflexivity|exact Hr]|].
    intros q Hq. rewrite <- Hq in Hr. eapply reads_map with (v := s); [|reflexivity]. apply R; [reflexivity..|exact Hr].
  - assert (n = []) as ->. { destruct n; [reflexivity|]. destruct s as [f|f op s]; cbn in F; subst f; discriminate X. }
    assert (no_value_p p = false) as Y. { destruct s as [f|f op s]; cbn in F; subst f; exact X. }
    destruct (more_follow s k C) as [M1 M2]. specialize (V (more_of s ++ L ")" ++ k)). rewrite Y in V. destruct (V M1) as (v & j & Hv & J).
    assert (Hv' : forall r, skip r = skip (pr_sc fmt s ++ L ")" ++ k) -> reads p_ve r (VE_nb v) j).
    { intros r Hr. rewrite sc_text, F, pr_bfac_BF, <- !app_assoc in Hr by exact C. apply (reads_rule m R_ve). apply reads_alt1. eapply reads_map with (v := v); [|reflexivity]. apply Hv. exact Hr. }
    assert (Z : is_value s = match s with SC_f _ => exact_p p | _ => false end).
    { destruct s as [f|f op s]; cbn in F; subst f; cbn in Y |- *; destruct p as [[]| |]; auto; try discriminate Y. }
    rewrite Z. destruct s as [f|f op s].
    + cbn in F. subst f. destruct (exact_p p).
      * subst j. cbn [more_of app] in Hv'. intros K. exists (paren_val (VE_nb v)). intros i H. eapply rd_paren; [exact K| |exact H]. exact Hv'.
      * intros i H. eapply no_paren; [right; exists (VE_nb v), j; split; [exact J|exact Hv']|exact H].
    + intros i H. eapply no_paren; [right; exists (VE_nb v), j; split; [|exact Hv']|exact H]. destruct (exact_p p); [|exact J]. subst j. now apply M2.
Qed.
End Cond.
