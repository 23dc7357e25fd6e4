(** What reading a query in order of priority rules out in the result (for C13). *)
From Verif Require Import Query PegProps PegSpec PegEquiv Totality SkipInv Calc First Look Invert SpecNodes Nodes NodeProps SpecCanon SpecFine TextLemmas LexProofs LexProofs2.

Section Run.
Variable m : text -> option text.
Notation EV := (ev (g_body m) _).
Notation reads := (reads m).
Notation fails := (fails m).
Notation throws := (throws m).

Lemma read_reads T {A : Set} (e : PE A) v : read m T e v -> exists i j, reads e i v j.
Proof.
  intros (n & i & r & S & H). exists i, (skip r), r. split; [|reflexivity]. unfold grun in H. rewrite <- H. apply run_ev. congruence.
Qed.
Lemma sign_none i : srun s_sign [] i = SFail [] \/ exists s c r, i = c :: r /\ srun s_sign [] i = SOk s r /\ (c = "+" \/ c = "-")%char /\ s = [c].
Proof.
  destruct i as [|c r]; [now left|]. unfold s_sign, chr. cbn [srun]. destruct (Ascii.eqb_spec c "+"); [right; exists [c], c, r; subst; cbn; auto|].
  destruct (Ascii.eqb_spec c "-"); [right; exists [c], c, r; subst; cbn; auto 6|now left].
Qed.
Definition unsigned (i : text) : Prop := srun s_sign [] (skip i) = SFail [].
Ltac fa := repeat match goal with H : fails (PAlt _ _) _ |- _ => apply f_alt in H as [? H]; [|reflexivity] end.

Lemma venb_no i : fails p_venb i -> unsigned i -> fails (g_numeric_primary m) i.
Proof.
  intros H U. apply f_venb in H. apply f_map in H. apply f_seq in H as [H|(f & k & H & H2)]; [|now apply f_star in H2|reflexivity].
  apply f_map in H. apply f_seq in H as [H|(s & k & H1 & H2)]; [now apply f_olex in H| |reflexivity].
  apply i_olex in H1 as [(r & E & K)|(E & K)]; [congruence|subst|reflexivity].
  eapply fails_same; [reflexivity|apply skip_skip|exact H2].
Qed.
(** All the ways to read a value, when there is none. *)
Record no_primary (i : text) : Prop := {
  np_nvf : fails (g_numeric_value_function m) i;
  np_array : fails g_array_constructor i;
  np_lit : fails (PLex s_unsigned_literal) i;
  np_col : fails (g_column_reference m) i;
  np_set : fails g_set_function_specification i;
  np_case : fails g_case_expression i;
  np_any : fails g_any_expression i;
  np_cast : fails (PLex s_null_cast) i;
  np_null : fails (PLex s_null_literal) i;
  np_sub : fails g_value_subexpression i }.
Lemma primary_no i : fails (g_numeric_primary m) i -> no_primary i.
Proof.
  intro H. apply f_alt in H as [H1 H2]; [|reflexivity]. apply f_map in H1, H2. apply f_map in H2. apply f_seq in H2 as [H2|(v & k & _ & H)]; [|now apply f_star in H|reflexivity].
  apply f_alt in H2 as [A1 H2]; [|reflexivity]. apply f_alt in H2 as [A2 H2]; [|reflexivity]. apply f_alt in H2 as [A3 H2]; [|reflexivity].
  apply f_alt in H2 as [A4 H2]; [|reflexivity]. apply f_alt in H2 as [A5 H2]; [|reflexivity]. apply f_alt in H2 as [A6 H2]; [|reflexivity].
  apply f_alt in H2 as [A7 H2]; [|reflexivity]. apply f_alt in H2 as [A8 A9]; [|reflexivity].
  apply f_map in A2, A3, A7, A8. now constructor.
Qed.
Lemma ve_no i : fails p_ve i -> fails p_venb i /\ fails p_sc i.
Proof. intro H. apply f_ve in H. apply f_alt in H as [H1 H2]; [|reflexivity]. apply f_map in H1, H2. auto. Qed.

(** ** A result of CASE is never a separate NULL *)
Lemma result_fine v i j : reads g_result i v j -> match v with Res_str _ => False | Res_ve _ => True end.
Proof.
  intro H. apply i_alt in H as [H|[F H]]; [|  |reflexivity]; apply i_map in H as (x & -> & H); [exact I|].
  apply f_map in F. apply ve_no in F as [F _]. apply i_lex in H as (r & H & _); [|reflexivity].
  assert (U : unsigned i).
  { unfold unsigned. destruct (sign_none (skip i)) as [E|(s & c & q & E & _ & [-> | ->] & _)]; [exact E| |]; rewrite E in H; discriminate. }
  apply (venb_no i) in F; [|exact U]. apply primary_no in F. apply np_null in F. apply f_lex in F as (a & F); [|reflexivity]. congruence.
Qed.
(** ** A column to group by is read as a value *)
Lemma gterm_fine v i j : reads (g_group_by_term m) i v j -> match v with GT_col _ => False | GT_ve _ => True end.
Proof.
  intro H. apply i_alt in H as [H|[F H]]; [|  |reflexivity]; apply i_map in H as (x & -> & H); [exact I|].
  apply f_map in F. apply ve_no in F as [F _].
  assert (U : unsigned i).
  { unfold unsigned. destruct (sign_none (skip i)) as [E|(s & c & q & E & _ & C & _)]; [exact E|]. exfalso.
    assert (X : fails (g_column_reference m) i) by (apply reads_first; rewrite E; destruct C as [-> | ->]; reflexivity).
    eapply reads_fails; [|exact H|exact X]. reflexivity. }
  apply (venb_no i) in F; [|exact U]. apply primary_no in F. apply np_col in F. eapply reads_fails; [|exact H|exact F]. reflexivity.
Qed.
Lemma i_parens {A B : Set} (e : PE A) (f : unit * A * unit -> B) i v j : skips e = true -> reads (lit "(" >> e >> lit ")" ==> f) i v j ->
  exists x k1 k2, v = f (tt, x, tt) /\ reads (lit "(") i tt k1 /\ reads e k1 x k2 /\ reads (lit ")") k2 tt j.
Proof.
  intros S H. apply i_map in H as (p & -> & H). apply i_seq in H as (p1 & [] & k2 & -> & H & C); [|reflexivity].
  apply i_seq in H as ([] & x & k1 & -> & O & H); [|exact S]. eauto 10.
Qed.
Lemma r_parens {A B : Set} (e : PE A) (f : unit * A * unit -> B) i x k1 k2 j : skips e = true ->
  reads (lit "(") i tt k1 -> reads e k1 x k2 -> reads (lit ")") k2 tt j -> reads (lit "(" >> e >> lit ")" ==> f) i (f (tt, x, tt)) j.
Proof. intros S O H C. eapply reads_map; [|reflexivity]. eapply r_seq; [reflexivity| |exact C]. eapply r_seq; [exact S|exact O|exact H]. Qed.
Ltac alts H := repeat match type of H with Calc.reads _ (PAlt _ _) _ _ _ => apply i_alt in H as [H|[?F H]]; [| |reflexivity] end.

(** ** A join in parentheses is not a derived table *)
Lemma dc_fine q a i j : reads (g_table_reference m) i (TR_dc q a) j -> match q with SQ_jt _ => False | SQ_q _ => True end.
Proof.
  intro H. apply i_alt in H as [H|[F H]]; [apply i_map in H as (x & E & _); discriminate| |reflexivity].
  apply i_alt in H as [H|[_ H]]; [apply i_map in H as ([? ?] & E & _); discriminate| |reflexivity].
  apply i_alt in H as [H|[_ H]]; [|apply i_map in H as ([[[? ?] ?] ?] & E & _); discriminate|reflexivity].
  apply i_map in H as ([q' a'] & E & H). injection E as -> ->. apply i_seq in H as (q1 & a1 & k & E & H & _); [|reflexivity]. injection E as -> ->.
  destruct q1 as [j1|q1]; [|exact I]. apply i_subq in H. apply i_parens in H as (x & k1 & k2 & E & O & H & C); [|reflexivity]. cbn beta iota in E. subst x.
  apply i_alt in H as [H|[_ H]]; [apply i_map in H as (x & E & _); discriminate| |reflexivity]. apply i_map in H as (x & E & H).
  apply f_map in F. apply f_jt in F. apply f_alt in F as [_ F]; [|reflexivity].
  eapply reads_fails; [| |exact F]; [reflexivity|]. eapply r_parens; [|exact O|exact H|exact C]; reflexivity.
Qed.
(** ** ARRAY in front of an index is not a column *)
Ltac same A B := let E := fresh "E" in let E' := fresh "E" in pose proof (fun C => reads_det m _ _ _ _ _ _ C A B) as E; specialize (E eq_refl); destruct E as [E E']; try subst; try injection E as E.
Ltac bad H := let x := fresh "x" in let E := fresh "E" in apply i_map in H as (x & E & _); repeat match goal with p : prod _ _ |- _ => destruct p end; discriminate E.
Lemma vepv_col c i j : reads (g_array_constructor <|> (PLex s_unsigned_literal ==> VP_str) <|> (g_column_reference m ==> VP_col) <|>
   g_set_function_specification <|> g_case_expression <|> g_any_expression <|>
   (PLex s_null_cast ==> VP_str) <|> (PLex s_null_literal ==> VP_str) <|> g_value_subexpression) i (VP_col c) j ->
  fails g_array_constructor i /\ fails (PLex s_unsigned_literal) i /\ reads (g_column_reference m) i c j.
Proof.
  intro H. apply i_alt in H as [H|[F1 H]]; [bad H| |reflexivity]. apply i_alt in H as [H|[F2 H]]; [bad H| |reflexivity]. apply f_map in F2.
  apply i_alt in H as [H|[_ H]]; [apply i_map in H as (x & E & H); injection E as ->; auto| |reflexivity]. exfalso.
  apply i_alt in H as [H|[_ H]]; [apply i_alt in H as [H|[_ H]]; [bad H|bad H|reflexivity]| |reflexivity].
  apply i_alt in H as [H|[_ H]]; [| |reflexivity].
  { apply i_alt in H as [H|[_ H]]; [apply i_alt in H as [H|[_ H]]; [bad H|bad H|reflexivity]| |reflexivity].
    apply i_map in H as (p & E & H). apply i_exp in H as ([? ?] & c1 & k & -> & _ & H); [|reflexivity]. cbn beta iota in E. subst c1.
    apply i_alt in H as [H|[_ H]]; [bad H|bad H|reflexivity]. }
  apply i_alt in H as [H|[_ H]]; [bad H| |reflexivity]. apply i_alt in H as [H|[_ H]]; [bad H| |reflexivity]. apply i_alt in H as [H|[_ H]]; [bad H|bad H|reflexivity].
Qed.
Lemma colref_one w i j : reads (g_column_reference m) i (CR1 w) j -> exists r, srun s_identifier [] (skip i) = SOk w r /\ skip r = j.
Proof.
  intro H. apply i_alt in H as [H|[_ H]]; [bad H| |reflexivity]. apply i_alt in H as [H|[_ H]]; [bad H| |reflexivity].
  apply i_alt in H as [H|[_ H]]; [bad H| |reflexivity]. apply i_map in H as (x & E & H). injection E as ->. now apply i_lex in H.
Qed.
Lemma kw_reads w s r : upper w = upper s -> forall i, skip i = w ++ r -> reads (PLit true s) i tt (skip r).
Proof. intros E i H. eapply reads_lit. apply strip_nc_iff. rewrite H. split; [reflexivity|exact E]. Qed.
Lemma array_fine w i idx j : reads (g_value_expression_primary m) i (VEP (VP_col (CR1 w)) idx) j -> one_of_nc w ["ARRAY"%string] = true -> idx = [].
Proof.
  intros H E. apply i_map in H as ([v' idx'] & E1 & H). injection E1 as <- <-. apply i_seq in H as (v1 & idx1 & k & E1 & H & HI); [|reflexivity]. injection E1 as <- <-.
  apply vepv_col in H as (F & _ & H). apply colref_one in H as (r & H & K). apply identifier_inv in H as [H _].
  destruct idx as [|x idx]; [reflexivity|]. exfalso.
  apply i_star in HI as [[HI _]|(x' & idx' & k2 & E1 & HI & _)]; [discriminate| |reflexivity]. injection E1 as <- <-.
  apply i_map in HI as (p & _ & HI). apply i_seq in HI as (? & ? & k3 & _ & HI & _); [|reflexivity]. apply i_seq in HI as ([] & y & k4 & _ & HO & HI); [|reflexivity].
  assert (A : reads (kw "ARRAY") i tt k).
  { rewrite <- K. eapply kw_reads; [|exact H]. unfold one_of_nc, one_of in E. cbn [existsb] in E. rewrite orb_false_r in E. apply text_eqb_iff in E. rewrite E. reflexivity. }
  apply f_map in F. apply f_exp in F. apply f_seq in F as [F|(? & k5 & F1 & F)]; [| |reflexivity].
  - apply f_seq in F as [F|(? & k5 & F1 & F)]; [| |reflexivity].
    + eapply reads_fails; [|exact A|exact F]. reflexivity.
    + same A F1. eapply reads_fails; [|exact HO|exact F]. reflexivity.
  - apply i_seq in F1 as ([] & [] & k6 & _ & F1 & F2); [|reflexivity]. same A F1.
    same HO F2. apply f_list in F. eapply reads_fails; [|exact HI|exact F]. reflexivity.
Qed.
End Run.
