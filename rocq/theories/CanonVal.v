(** Printed factors, sums and values are read back. *)
From Verif Require Import Grammar Print PegProps PegSpec PegEquiv TextLemmas SpecLexical LexProofs LexProofs2 First Calc Look Tight Operand TopProofs SpecCanon PrintEq CanonBase CanonLex CanonGeo CanonHead CanonLead CanonFun CanonPrim.

(** behind a value no string literal goes on *)
Lemma nml_stop k c : k = c :: tl k -> existsb (Ascii.eqb c) (L "[*/+|),]") = true -> no_more_literal k.
Proof.
  intros E H. rewrite E. exists [], (c :: tl k). repeat split; auto.
  - cbn. revert H. clear. destruct c as [[] [] [] [] [] [] [] []]; vm_compute; try discriminate; intros _ [|[|]]; discriminate.
  - intros (r & X). injection X as -> _. discriminate H.
Qed.
Lemma nml_vstop k : vstop k = true -> no_more_literal k.
Proof.
  unfold vstop. intros [_ H]%andb_true_iff. unfold nostart in H. induction k as [|c k IH].
  - exists [], []. repeat split; auto. now intros (r & X).
  - destruct (is_space c) eqn:S.
    + rewrite (skip_space c k S) in H. destruct (IH H) as (b & r & -> & B & R1 & R2). destruct (ascii_dec c " ") as [->|N1]; [exists (" "%char :: b), r; repeat split; auto|].
      destruct (ascii_dec c (ascii_of_N 10)) as [->|N2]; [exists (ascii_of_N 10 :: b), r; repeat split; auto|].
      exists [], (c :: b ++ r). repeat split; auto.
      * cbn. intros [->|[X| ->]]; [congruence| |discriminate S]. apply N2. rewrite <- X. now rewrite ascii_N_embedding.
      * intros (z & X). injection X as -> _. discriminate S.
    + cbn in H. rewrite S in H. apply negb_true_iff in H. exists [], (c :: k). repeat split; auto.
      * cbn. intros [->|[X| ->]]; [discriminate S| |discriminate H]. assert (c = ascii_of_N 10) as -> by (rewrite <- X; now rewrite ascii_N_embedding). discriminate S.
      * intros (z & X). injection X as -> _. discriminate H.
Qed.

Section Val.
Variable m : text -> option text.
Variable fmt : text -> text.
Notation reads := (reads m).
Notation fails := (fails m).
Notation arg := (arg m fmt).
Notation prim := (prim m).
Notation g_nvf := (g_numeric_value_function m).
Definition is_str (v : vepv) : bool := match v with VP_str s => head_is sq s | _ => false end.
Definition is_str_p (p : nprim) : bool := match p with NP_vep (VEP v []) => is_str v | _ => false end.
Definition Rvepv (v : vepv) : Prop := forall i k, stop1 k = true -> no_index v k -> (is_str v = true -> no_more_literal k) -> skip i = skip (pr_vepv fmt v ++ k) -> prim v i k.
Definition Rnvf (f : nvf) : Prop := forall i k, boundary k -> skip i = skip (pr_nvf fmt f ++ k) -> reads g_nvf i f (skip k).
Definition Rnprim (p : nprim) : Prop := forall i k, stop2 k = true -> (is_str_p p = true -> no_more_literal k) -> skip i = skip (pr_nprim fmt p ++ k) -> reads (g_numeric_primary m) i p (skip k).
Definition Rfactor (f : factor) : Prop := forall i k, stop2 k = true -> (is_string f = true -> no_more_literal k) -> skip i = skip (pr_factor fmt f ++ k) -> reads (g_factor m) i f (skip k).
Definition Rvenb (v : venb) : Prop := forall i k, vstop k = true -> skip i = skip (pr_venb fmt v ++ k) -> reads p_venb i v (skip k).

Lemma rd_index a i k : arg a -> skip i = skip ((L "[" ++ pr_ve fmt a ++ L "]") ++ k) -> reads g_array_index i a (skip k).
Proof.
  intros A H. rewrite <- !app_assoc in H. eapply reads_map with (v := (tt, a, tt)); [|reflexivity]. eapply reads_seq; [eapply reads_seq|].
  - eapply rd_lit; [|exact H]. reflexivity. - intros r Hr. eapply A; [|exact Hr]. reflexivity. - intros r Hr. eapply rd_lit; [|exact Hr]. reflexivity.
Qed.
Lemma no_more_index i k : stop2 k = true -> skip i = skip k -> fails g_array_index i.
Proof. intros K H. apply fails_map, fails_seq1, fails_seq1. eapply no_lit; [|exact H]. unfold stop2 in K. ands. eapply nostart_lit; [eassumption|reflexivity]. Qed.
Lemma rd_vep v idx : Rvepv v -> Forall arg idx -> (idx <> [] -> match v with VP_col (CR1 w) => upper w <> L "ARRAY" | _ => True end) -> Rnprim (NP_vep (VEP v idx)).
Proof.
  intros V A N i k K S H. rewrite pr_nprim_NP_vep, pr_vep_VEP, <- app_assoc in H.
  destruct (V i (concat (map (fun i => L "[" ++ pr_ve fmt i ++ L "]") idx) ++ k)) as [P1 P2]; [| | |exact H|].
  - destruct idx as [|a idx]; [now apply stop21|]. reflexivity.
  - destruct idx as [|a idx].
    + destruct v as [| |[| | |w]| | | | | | | |]; try exact I. intros _. unfold stop2 in K. ands. eapply nostart_sub; [|eassumption]. reflexivity.
    + destruct v as [| |[| | |w]| | | | | | | |]; try exact I. intros U. destruct N; [discriminate|exact U].
  - intros E. destruct idx as [|a idx]; [now apply S|]. cbn [map concat app]. eapply (nml_stop _ "[" ); reflexivity.
  - apply reads_alt2; [now apply fails_map|]. intros r Hr. eapply reads_map with (v := VEP v idx); [|reflexivity]. eapply reads_map with (v := (v, idx)); [|reflexivity].
    rewrite <- Hr in H. eapply reads_seq.
    + eapply (V r (concat (map (fun i => L "[" ++ pr_ve fmt i ++ L "]") idx) ++ k)); [| | |exact H].
      * destruct idx as [|a idx]; [now apply stop21|]. reflexivity.
      * destruct idx as [|a idx].
        -- destruct v as [| |[| | |w]| | | | | | | |]; try exact I. intros _. unfold stop2 in K. ands. eapply nostart_sub; [|eassumption]. reflexivity.
        -- destruct v as [| |[| | |w]| | | | | | | |]; try exact I. intros U. destruct N; [discriminate|exact U].
      * intros E. destruct idx as [|a idx]; [now apply S|]. cbn [map concat app]. eapply (nml_stop _ "[" ); reflexivity.
    + intros r2 H2. eapply (rd_star m _ (fun i => L "[" ++ pr_ve fmt i ++ L "]") (fun _ => True)); [| | | |exact H2]; auto.
      * eapply Forall_impl; [|exact A]. intros a Ha j t _ Hj. now apply rd_index.
      * intros r3 H3. now apply (no_more_index r3 k).
Qed.
Lemma rd_nvf f : Rnvf f -> Rnprim (NP_nvf f).
Proof.
  intros F i k K _ H. rewrite pr_nprim_NP_nvf in H. apply reads_alt1. eapply reads_map with (v := f); [|reflexivity]. apply F; [|exact H]. now apply stop1_bnd, stop21.
Qed.
Lemma rd_factor s p : one_of s [""; "+"; "-"]%string = true -> c_nprim fmt p = true -> Rnprim p -> Rfactor (Factor s p).
Proof.
  intros C N P i k K S H. rewrite pr_factor_Factor, <- app_assoc in H. apply one_of_iff in C. eapply reads_map with (v := (s, p)); [|reflexivity].
  eapply (reads_seq m _ _ _ _ (skip (pr_nprim fmt p ++ k))).
  - destruct C as [<-|[<-|[<-|[]]]].
    + cbn [app L list_ascii_of_string] in H. change (skip i = skip (pr_nprim fmt p ++ k)) in H. rewrite <- H. apply reads_olex_none; [reflexivity|].
      assert (LD : lead0 (pr_nprim fmt p ++ k)) by (apply lead_all; [exact N|]; now apply stop1_word, stop21).
      assert (LD' : lead (pr_nprim fmt p ++ k)) by (eapply lead_mono; eauto). rewrite H, dark_skip0 by now apply lead_dark.
      destruct (pr_nprim fmt p ++ k) as [|c t]; [now apply lead_dark in LD'|]. assert (X : c <> "+"%char /\ c <> "-"%char); [|apply sign_none; tauto].
      destruct LD as [c' r E B|w r E W _ _|w r E W _ _|w r E W _]; [injection E as <- <-; revert B; clear; intros B; split; intros ->; discriminate B|..];
        destruct (word_starts _ W) as (c' & w' & -> & B); injection E as <- _; revert B; clear; intros B; split; intros ->; discriminate B.
    + eapply reads_olex; [reflexivity|]. rewrite H. reflexivity.
    + eapply reads_olex; [reflexivity|]. rewrite H. reflexivity.
  - intros r Hr. apply P; auto. intros E. apply S. destruct p as [[[] []]|]; cbn in E |- *; auto; discriminate.
Qed.
Definition factor_of (t : vterm) : factor := match t with VTerm _ f => f end.
(** the operators between the factors *)
Lemma op_in op t : one_of op ["*"; "/"; "+"; "-"; "||"]%string = true -> (exists c r, op ++ t = c :: r /\ existsb (Ascii.eqb c) (L "*/+-|") = true) /\ srun s_binary_operators [] (op ++ t) = SOk op t /\ dark op.
Proof.
  intros H. apply one_of_iff in H. cbn [map In] in H. repeat (destruct H as [<-|H]; [split; [eexists _, _; split; reflexivity|split; reflexivity]|]). destruct H.
Qed.
Lemma term_follow f ts k : forallb (c_vterm fmt) ts = true -> no_comments f ts = true -> vstop k = true ->
  stop2 (concat (map (pr_vterm fmt) ts) ++ k) = true /\ (is_string f = true -> no_more_literal (concat (map (pr_vterm fmt) ts) ++ k)).
Proof.
  destruct ts as [|[op [s p]] ts]; intros C N K; [split; [now apply vstop2|intros _; now apply nml_vstop]|].
  cbn [map concat forallb] in C |- *. rewrite c_vterm_VTerm, c_factor_Factor in C. rewrite pr_vterm_VTerm, pr_factor_Factor, <- !app_assoc. ands.
  match goal with H : one_of op _ = true |- _ => destruct (op_in op (s ++ pr_nprim fmt p ++ concat (map (pr_vterm fmt) ts) ++ k) H) as [(c & r & E & X) _]; apply one_of_iff in H; rename H into O end.
  split.
  - rewrite E. apply existsb_exists in X as (x & I & X). apply Ascii.eqb_eq in X as <-. cbn in I. repeat (destruct I as [<-|I]; [reflexivity|]). destruct I.
  - intros S. cbn [no_comments sign_of] in N. rewrite S in N. cbn [andb] in N. apply andb_true_iff in N as [N _]. apply negb_true_iff in N.
    destruct (text_dec op (L "-")) as [->|NO].
    + assert (NS : s <> L "-") by (intros ->; discriminate N).
      match goal with H : one_of s _ = true |- _ => apply one_of_iff in H; rename H into SI end.
      exists [], (L "-" ++ s ++ pr_nprim fmt p ++ concat (map (pr_vterm fmt) ts) ++ k). repeat split; auto; [cbn; intros [|[|]]; discriminate|].
      intros (z & Z). change (L "--" ++ z) with ("-"%char :: "-"%char :: z) in Z. injection Z as Z. destruct SI as [<-|[<-|[<-|[]]]]; [|discriminate Z|congruence].
      change (pr_nprim fmt p ++ concat (map (pr_vterm fmt) ts) ++ k = "-"%char :: z) in Z.
      assert (LD : lead0 (pr_nprim fmt p ++ concat (map (pr_vterm fmt) ts) ++ k)).
      { apply lead_all; [assumption|]. destruct ts as [|[op2 f2] ts]; [cbn; unfold vstop in K; ands; now apply bnd_word|]. cbn [map concat]. rewrite pr_vterm_VTerm, <- !app_assoc.
        cbn [forallb] in *. rewrite c_vterm_VTerm in *. ands. match goal with H : one_of op2 _ = true |- _ => destruct (op_in op2 (pr_factor fmt f2 ++ concat (map (pr_vterm fmt) ts) ++ k) H) as [(c2 & r2 & E2 & X2) _] end.
        rewrite E2. apply no_word_char. revert X2. clear. destruct c2 as [[] [] [] [] [] [] [] []]; vm_compute; congruence. }
      destruct LD as [c' r' E' B|w r' E' W _ _|w r' E' W _ _|w r' E' W _]; rewrite E' in Z; [injection Z as -> _; discriminate B|..];
        destruct (word_starts _ W) as (c' & w' & -> & B); injection Z as -> _; discriminate B.
    + rewrite E. eapply (nml_stop _ c); [reflexivity|]. assert (c <> "-"%char) as NC.
      { intros ->. cbn [map In] in O. repeat (destruct O as [<-|O]; [first [discriminate E|congruence]|]). destruct O. }
      revert X NC. clear. destruct c as [[] [] [] [] [] [] [] []]; vm_compute; congruence.
Qed.
Lemma rd_terms ts : forall f i k, Forall (fun t => Rfactor (factor_of t)) ts -> forallb (c_vterm fmt) ts = true -> no_comments f ts = true -> vstop k = true ->
  skip i = skip (concat (map (pr_vterm fmt) ts) ++ k) -> reads (PStar (g_term m)) i ts (skip k).
Proof.
  induction ts as [|[op f2] ts IH]; intros f i k F C N K H.
  - cbn [map concat app] in H. rewrite <- H. apply reads_star_nil. apply fails_map, fails_seq1. eapply fails_lex; [reflexivity|]. rewrite H.
    unfold vstop in K. ands. assert (srun s_binary_operators [] (skip k) = SFail []) as ->; [|reflexivity].
    assert (X : forall s, In s ["*"; "/"; "+"; "-"; "||"]%string -> strip false (L s) (skip k) = None).
    { intros s I. eapply nostart_lit; [eassumption|]. cbn in I. repeat (destruct I as [<-|I]; [reflexivity|]). destruct I. }
    unfold s_binary_operators, strs_cs. cbn [map alts srun].
    rewrite (X "*"%string), (X "/"%string), (X "+"%string), (X "-"%string), (X "||"%string) by (cbn; tauto). now destruct (skip k).
  - cbn [map concat forallb] in C, H. rewrite pr_vterm_VTerm, <- !app_assoc in H. rewrite c_vterm_VTerm in C. inversion_clear F as [|? ? F1 F2]. cbn [factor_of] in F1. ands.
    cbn [no_comments] in N. ands.
    match goal with H : one_of op _ = true |- _ => destruct (op_in op (pr_factor fmt f2 ++ concat (map (pr_vterm fmt) ts) ++ k) H) as [_ [O D]] end.
    destruct (term_follow f2 ts k) as [T1 T2]; auto. eapply reads_star_cons.
    + eapply reads_map with (v := (op, f2)); [|reflexivity]. eapply reads_seq.
      * eapply reads_lex; [reflexivity|]. rewrite H, dark_skip by exact D. exact O.
      * intros r Hr. eapply F1; [exact T1|exact T2|exact Hr].
    + intros r Hr. eapply IH; eauto.
Qed.
Lemma rd_venb f ts : c_venb fmt (VENB f ts) = true -> Rfactor f -> Forall (fun t => Rfactor (factor_of t)) ts -> Rvenb (VENB f ts).
Proof.
  intros C F T i k K H. rewrite c_venb_VENB in C. rewrite pr_venb_VENB, <- app_assoc in H. ands. destruct (term_follow f ts k) as [T1 T2]; auto.
  apply (reads_rule m R_venb). eapply reads_map with (v := (f, ts)); [|reflexivity]. eapply reads_seq; [eapply F; [exact T1|exact T2|exact H]|]. intros r Hr. eapply rd_terms; eauto.
Qed.
End Val.
