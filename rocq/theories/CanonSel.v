(** The list of columns: printed select lists are read back. *)
From Verif Require Import Query Grammar Print PegProps PegSpec PegEquiv TextLemmas SpecLexical LexProofs LexProofs2 First Calc Look Tight Operand TopProofs SpecCanon AstInd PrintEq CanonBase CanonLex CanonGeo CanonHead CanonLead CanonFun CanonPrim CanonVal CanonCond CanonJt CanonJoin.

Section Star.
Variable m : text -> option text.
Variable fmt : text -> text.
Notation reads := (reads m).
Notation fails := (fails m).
(** ** Printed values are not of the form "t.*" *)
Definition nostar (t : text) : Prop := forall i, skip i = skip t -> fails (PLex (s_qualifier_star m)) i.
Lemma nostar_char c t : existsb (Ascii.eqb c) (L "'.0123456789+-(") = true -> nostar (c :: t).
Proof. intros C i H. rewrite (skip_char c t _ C eq_refl) in H. revert C H. apply char_fails. reflexivity. Qed.
Lemma nostar_look b p k : upper p = p -> (b = true -> bnd k = true) -> glook m b (PLex (s_qualifier_star m)) p = LFail -> nostar (p ++ k).
Proof. intros U B G i H. eapply look_fail; [|exact G]. exists p, k. split; [exact H|split; [exact U|intros Z; apply bnd_ok; auto]]. Qed.
Lemma nostar_look_nc b p w k : upper w = p -> (b = true -> bnd k = true) -> glook m b (PLex (s_qualifier_star m)) p = LFail -> nostar (w ++ k).
Proof. intros U B G i H. eapply look_fail; [|exact G]. exists w, k. split; [exact H|split; [exact U|intros Z; apply bnd_ok; auto]]. Qed.
Lemma nostar_call w c r : word w -> c = "("%char \/ c = "["%char -> nostar (w ++ c :: r).
Proof.
  intros W C i H. rewrite (dark_skip w) in H by now apply word_dark'. assert (K : is_idchar c = false /\ c <> "."%char) by (destruct C as [-> | ->]; split; (reflexivity || discriminate)). destruct K as [K1 K2].
  assert (D : forall acc x, srun (SSeq (chr ".") x) acc (c :: r) = SFail acc). { intros acc x. cbn. destruct (Ascii.eqb_spec c "."); [congruence|reflexivity]. }
  destruct (ident_word w (c :: r) W (no_word_char _ _ K1)) as [E|E].
  - eapply fails_lex; [reflexivity|]. rewrite H. unfold s_qualifier_star. erewrite seq_run.
    2: { unfold s_table_name. rewrite (alt_no _ _ _ _ []) by now apply word_not_upload.
      rewrite (alt_no _ _ _ _ []) by (eapply hold_no; erewrite seq_run by exact E; apply D). rewrite (alt_no _ _ _ _ []) by (eapply hold_no; erewrite seq_run by exact E; apply D). exact E. }
    cbn [srun]. destruct C as [-> | ->]; reflexivity.
  - eapply fails_lex; [reflexivity|]. rewrite H. unfold s_qualifier_star, s_table_name. cbn [srun]. fold (s_tap_upload m). rewrite (word_not_upload m w c r W K1 K2). fold s_identifier. rewrite !E. reflexivity.
Qed.
Lemma nostar_col c k : cnames name c -> bnd k = true -> nostar (pr_colref c ++ k).
Proof.
  intros N B i H. eapply colref_no_star; [exact N| | |exact H]; [now apply boundary_nstop, bnd_ok|]. destruct k as [|x k]; [exact I|]. cbn. intros ->. discriminate B.
Qed.

Definition ns {A : Set} (c : A -> bool) (pr : A -> text) (x : A) : Prop := c x = true -> forall k, bnd k = true -> nostar (pr x ++ k).
Lemma call_ns ws w r : forallb (fun u => is_word (L u)) ws = true -> one_of_nc w ws = true -> nostar (w ++ L "(" ++ r).
Proof. intros A I. apply one_of_nc_iff in I. apply nostar_call; [eapply listed_word; eauto|now left]. Qed.
Lemma nvf_ns f : ns (c_nvf fmt) (pr_nvf fmt) f.
Proof.
  intros C k S. destruct f.
  - rewrite c_nvf_NV_trig1 in C. rewrite pr_nvf_NV_trig1, <- !app_assoc. ands. eapply call_ns; [|eassumption]; reflexivity.
  - rewrite c_nvf_NV_trig2 in C. rewrite pr_nvf_NV_trig2, <- !app_assoc. ands. eapply call_ns; [|eassumption]; reflexivity.
  - rewrite c_nvf_NV_math0 in C. rewrite pr_nvf_NV_math0, <- !app_assoc. change (L "()" ++ k) with (L "(" ++ L ")" ++ k). eapply call_ns; [|eassumption]; reflexivity.
  - rewrite c_nvf_NV_math1 in C. rewrite pr_nvf_NV_math1, <- !app_assoc. ands. eapply call_ns; [|eassumption]; reflexivity.
  - rewrite c_nvf_NV_math2 in C. rewrite pr_nvf_NV_math2, <- !app_assoc. ands. eapply call_ns; [|eassumption]; reflexivity.
  - rewrite pr_nvf_NV_cast, <- !app_assoc. change (L "CAST(" ++ ?r) with (L "CAST" ++ L "(" ++ r). apply nostar_call; [now apply is_word_ok|now left].
  - rewrite c_nvf_NV_geo1 in C. rewrite pr_nvf_NV_geo1. ands. match goal with H : one_of_nc f ?ws = true |- _ => rewrite (one_of_nc_nonempty f ws eq_refl H) end. rewrite <- !app_assoc. eapply call_ns; [|eassumption]; reflexivity.
  - rewrite c_nvf_NV_geo2 in C. rewrite pr_nvf_NV_geo2. ands. match goal with H : one_of_nc f ?ws = true |- _ => rewrite (one_of_nc_nonempty f ws eq_refl H) end. rewrite <- !app_assoc. eapply call_ns; [|eassumption]; reflexivity.
  - rewrite c_nvf_NV_udf in C. rewrite pr_nvf_NV_udf, <- !app_assoc. apply andb_true_iff in C as [C _]. apply orb_true_iff in C as [C|C]; [|eapply call_ns; [|eassumption]; reflexivity]. ands. apply free_word_ok in H as [W R].
    apply nostar_call; [exact W|now left].
  - rewrite c_nvf_NV_str in C. rewrite pr_nvf_NV_str. apply one_of_nc_iff in C as [C|[]]. eapply (nostar_look_nc true); [symmetry; exact C| |reflexivity]. intros _. exact S.
Qed.
Lemma str_ns s k : is_number s || is_quoted sq s || one_of_nc s ["TRUE"; "FALSE"; "NULL"; "NULL::CHAR"; "NULL::INT"; "NULL::FLOAT"]%string = true -> bnd k = true -> nostar (s ++ k).
Proof.
  rewrite !orb_true_iff. intros [[C|C]|C] S.
  - apply is_number_ok in C. destruct (number_starts _ C) as (c & t & -> & D). apply nostar_char. destruct D as [D| ->]; [|reflexivity].
    revert D. clear. destruct c as [[] [] [] [] [] [] [] []]; vm_compute; congruence.
  - apply is_quoted_ok in C as (b & -> & _). apply nostar_char. reflexivity.
  - apply one_of_nc_iff in C. cbn [map In] in C. repeat (destruct C as [C|C]; [eapply (nostar_look_nc true); [symmetry; exact C| |reflexivity]; intros _; exact S|]). destruct C.
Qed.
Lemma term_bnd ts k : forallb (c_vterm fmt) ts = true -> bnd k = true -> bnd (concat (map (pr_vterm fmt) ts) ++ k) = true.
Proof.
  destruct ts as [|[op f2] ts]; intros C S; [exact S|]. cbn [map concat forallb] in *. rewrite pr_vterm_VTerm, <- !app_assoc. ands. rewrite c_vterm_VTerm in H. ands. apply one_of_iff in H.
  destruct H as [<-|[<-|[<-|[<-|[<-|[]]]]]]; (reflexivity).
Qed.
Theorem ns_all : (forall v, ns (c_ve fmt) (pr_ve fmt) v) /\ (forall v, ns (c_sc fmt) (pr_sc fmt) v).
Proof.
  edestruct (ast_ind (ns (c_ve fmt) (pr_ve fmt)) (ns (c_venb fmt) (pr_venb fmt)) (fun _ => True) (ns (c_factor fmt) (pr_factor fmt)) (ns (c_nprim fmt) (pr_nprim fmt))
    (ns (c_nvf fmt) (pr_nvf fmt)) (ns (c_vep fmt) (pr_vep fmt)) (ns (c_vepv fmt) (pr_vepv fmt)) (fun _ => True) (fun _ => True) (fun _ => True)
    (ns (c_sc fmt) (pr_sc fmt)) (ns (c_bfac fmt) (pr_bfac fmt)) (ns (c_bprim fmt) (pr_bprim fmt)) (ns (c_pred fmt) (pr_pred fmt)) (fun _ => True) (fun _ => True)
    (fun _ => True) (fun _ => True) (fun _ => True) (fun _ => True) (fun _ => True) (fun _ => True) (fun _ => True) (fun _ => True) (fun _ => True) (fun _ => True)
    (fun _ => True) (fun _ => True) (fun _ => True) (fun _ => True) (fun _ => True) (fun _ => True) (fun _ => True)).
  all: try (intros; exact I). all: try (intros; apply nvf_ns).
  - intros v H C. rewrite c_ve_VE_nb in C. rewrite pr_ve_VE_nb. apply H. exact C.
  - intros s H C. rewrite c_ve_VE_sc in C. rewrite pr_ve_VE_sc. ands. apply H. assumption.
  - intros f ts H _ C k S. rewrite c_venb_VENB in C. rewrite pr_venb_VENB. ands. rewrite <- app_assoc. apply H; [assumption|]. now apply term_bnd.
  - intros s p H C k S. rewrite c_factor_Factor in C. rewrite pr_factor_Factor. ands. rewrite <- app_assoc. apply one_of_iff in H0. destruct H0 as [<-|[<-|[<-|[]]]]; [apply H; assumption|now apply nostar_char|now apply nostar_char].
  - intros v H C. rewrite c_nprim_NP_vep in C. rewrite pr_nprim_NP_vep. now apply H.
  - intros v l H _ C k S. rewrite c_vep_VEP in C. rewrite pr_vep_VEP. ands. rewrite <- app_assoc. apply H; [assumption|]. destruct l; [exact S|]. cbn [map concat]. rewrite <- !app_assoc. reflexivity.
  - intros l _ C k S. rewrite pr_vepv_VP_array. change ((L "ARRAY[" ++ ?r) ++ k) with (L "ARRAY" ++ "["%char :: r ++ k). apply nostar_call; [now apply is_word_ok|now right].
  - intros s C k S. rewrite c_vepv_VP_str in C. rewrite pr_vepv_VP_str. now apply str_ns.
  - intros c C k S. rewrite c_vepv_VP_col in C. rewrite pr_vepv_VP_col. apply nostar_col; [|exact S]. apply (c_colref_ok is_value_name name); [apply value_name_ok|exact C].
  - intros s C k S. rewrite c_vepv_VP_setstr in C. rewrite pr_vepv_VP_setstr. apply one_of_nc_iff in C as [C|[]]. eapply (nostar_look_nc false); [symmetry; exact C|discriminate|reflexivity].
  - intros ty q a _ C k S. rewrite c_vepv_VP_set in C. rewrite pr_vepv_VP_set. ands. rewrite <- !app_assoc. eapply call_ns; [|eassumption]; reflexivity.
  - intros a b _ _ C k S. rewrite pr_vepv_VP_nullif. change ((L "NULLIF(" ++ ?r) ++ k) with (L "NULLIF" ++ "("%char :: r ++ k). apply nostar_call; [now apply is_word_ok|now left].
  - intros l _ C k S. rewrite pr_vepv_VP_coalesce. change ((L "COALESCE(" ++ ?r) ++ k) with (L "COALESCE" ++ "("%char :: r ++ k). apply nostar_call; [now apply is_word_ok|now left].
  - intros x w e _ _ _ C k S. rewrite pr_vepv_VP_case. rewrite <- app_assoc. eapply (nostar_look false (L "CASE ")); [reflexivity|discriminate|reflexivity].
  - intros w e _ _ C k S. rewrite pr_vepv_VP_scase. rewrite <- app_assoc. eapply (nostar_look false (L "CASE ")); [reflexivity|discriminate|reflexivity].
  - intros a _ C k S. rewrite pr_vepv_VP_any. change ((L "ANY(" ++ ?r) ++ k) with (L "ANY" ++ "("%char :: r ++ k). apply nostar_call; [now apply is_word_ok|now left].
  - intros a H C k S. rewrite c_vepv_VP_sub in C. rewrite pr_vepv_VP_sub, <- !app_assoc. now apply nostar_char.
  - intros f H C k S. rewrite pr_sc_f by exact C. apply H; [|exact S]. now rewrite c_sc_SC_f in C.
  - intros f op s H _ C k S. rewrite pr_sc_t by exact C. rewrite <- !app_assoc. rewrite c_sc_SC_t in C. ands. apply H; [assumption|]. match goal with X : one_of op _ = true |- _ => apply one_of_iff in X as [<-|[<-|[]]] end; reflexivity.
  - intros n p H C k S. rewrite c_bfac_BF in C. rewrite pr_bfac_BF. ands. destruct n as [|c n]; [apply H; assumption|]. unfold nl_sp. cbn [is_nil]. rewrite <- !app_assoc.
    cbn [is_nil] in H0. apply one_of_nc_iff in H0 as [H0|[]]. eapply (nostar_look_nc true); [symmetry; exact H0| |reflexivity]. reflexivity.
  - intros p H C. rewrite c_bprim_BP_pred in C. rewrite pr_bprim_BP_pred. now apply H.
  - intros s H C k S. rewrite c_bprim_BP_sc in C. rewrite pr_bprim_BP_sc, <- !app_assoc. now apply nostar_char.
  - intros v H C. rewrite c_bprim_BP_val in C. rewrite pr_bprim_BP_val. ands. now apply H.
  - intros l op r H _ C k S. rewrite c_pred_P_cmp in C. rewrite pr_pred_P_cmp. ands. rewrite <- !app_assoc. apply H; [assumption|]. match goal with X : one_of op _ = true |- _ => apply one_of_iff in X; cbn [map In] in X; repeat (destruct X as [<-|X]; [reflexivity|]); destruct X end.
  - intros v n lo hi H _ _ C k S. rewrite c_pred_P_between in C. rewrite pr_pred_P_between. ands. rewrite <- !app_assoc. apply H; [assumption|].
    reflexivity.
  - intros v n t H _ C k S. rewrite c_pred_P_in in C. rewrite pr_pred_P_in. ands. rewrite <- !app_assoc. apply H; [assumption|]. match goal with X : one_of n _ = true |- _ => apply one_of_iff in X as [<-|[<-|[]]] end; reflexivity.
  - intros v n H C k S. rewrite c_pred_P_null in C. rewrite pr_pred_P_null. ands. rewrite <- !app_assoc. apply H; [assumption|]. reflexivity.
  - intros v n p H _ C k S. rewrite c_pred_P_like in C. rewrite pr_pred_P_like. ands. rewrite <- !app_assoc. apply H; [assumption|]. destruct n; reflexivity.
  - intros q _ C k S. rewrite pr_pred_P_exists. rewrite <- app_assoc. eapply (nostar_look false (L "EXISTS ")); [reflexivity|discriminate|reflexivity].
  - tauto.
Qed.

(** ** The table of "t.*" is first read as a column *)
Lemma no_ident_star i k : skip i = "*"%char :: k -> fails ident i.
Proof. intros H. eapply look_class; [exact H|reflexivity]. Qed.
Lemma rd_cr1_star a i k : name a -> skip i = skip (a ++ "."%char :: "*"%char :: k) -> reads (g_column_reference m) i (CR1 a) (skip ("."%char :: "*"%char :: k)).
Proof.
  intros Na H.
  assert (F : forall r, skip r = skip i -> fails (ident >> lit "." >> ident) r).
  { intros r Hr. eapply fails_seq2; [apply rd_dot; [exact Na|rewrite Hr; exact H]|]. intros r2 H2. eapply no_ident_star; exact H2. }
  apply reads_alt2; [apply fails_map; do 4 apply fails_seq1; auto|]. intros r Hr. apply reads_alt2; [apply fails_map; do 2 apply fails_seq1; auto|]. intros r2 Hr2. apply reads_alt2.
  { apply fails_map. eapply fails_seq2.
    - eapply reads_seq; [apply reads_alt2; [eapply no_upload; [exact Na|apply (dot_nstop ("*"%char :: k))|congruence]|]|].
      + intros r3 Hr3. eapply rd_name; [exact Na|apply (dot_nstop ("*"%char :: k))|congruence].
      + intros r3 Hr3. eapply (rd_lit m "."); [reflexivity|exact Hr3].
    - intros r3 Hr3. eapply no_ident_star; exact Hr3. }
  intros r3 Hr3. eapply reads_map; [|reflexivity]. eapply rd_name; [exact Na|apply dot_nstop|congruence].
Qed.
Lemma rd_cr2_star a b i k : name a -> name b -> skip i = skip (a ++ "."%char :: b ++ "."%char :: "*"%char :: k) -> reads (g_column_reference m) i (CR2 a b) (skip ("."%char :: "*"%char :: k)).
Proof.
  intros Na Nb H.
  assert (F : forall r, skip r = skip i -> fails (ident >> lit "." >> ident >> lit "." >> ident) r).
  { intros r Hr. eapply fails_seq2; [eapply reads_seq; [eapply reads_seq; [apply rd_dot; [exact Na|rewrite Hr; exact H]|]|]|].
    - intros r2 H2. eapply rd_name; [exact Nb|apply dot_nstop|exact H2].
    - intros r2 H2. eapply (rd_lit m "."); [reflexivity|exact H2].
    - intros r2 H2. eapply no_ident_star; exact H2. }
  apply reads_alt2; [apply fails_map; do 2 apply fails_seq1; auto|]. intros r Hr. apply reads_alt2; [apply fails_map; auto|]. intros r2 Hr2. apply reads_alt1.
  eapply reads_map with (v := (a, tt, b)); [|reflexivity]. eapply reads_seq; [eapply reads_seq|].
  - apply reads_alt2; [eapply no_upload; [exact Na|eapply dot_nstop|rewrite Hr2, Hr; exact H]|]. intros r3 Hr3. eapply rd_name; [exact Na|eapply dot_nstop|rewrite Hr3, Hr2, Hr; exact H].
  - intros r3 Hr3. eapply (rd_lit m "."); [reflexivity|exact Hr3].
  - intros r3 Hr3. eapply rd_name; [exact Nb|apply dot_nstop|exact Hr3].
Qed.
Lemma rd_cr3_star a b c i k : name a -> name b -> name c -> skip i = skip (a ++ "."%char :: b ++ "."%char :: c ++ "."%char :: "*"%char :: k) -> reads (g_column_reference m) i (CR3 a b c) (skip ("."%char :: "*"%char :: k)).
Proof.
  intros Na Nb Nc H.
  assert (R : forall r, skip r = skip i -> reads (ident >> lit "." >> ident >> lit "." >> ident) r (a, tt, b, tt, c) (skip ("."%char :: "*"%char :: k))).
  { intros r Hr. eapply reads_seq; [eapply reads_seq; [eapply reads_seq; [apply rd_dot; [exact Na|rewrite Hr; exact H]|]|]|].
    - intros r2 H2. eapply rd_name; [exact Nb|apply dot_nstop|exact H2].
    - intros r2 H2. eapply (rd_lit m "."); [reflexivity|exact H2].
    - intros r2 H2. eapply rd_name; [exact Nc|apply dot_nstop|exact H2]. }
  apply reads_alt2.
  { apply fails_map. eapply fails_seq2; [eapply reads_seq; [apply R; reflexivity|]|].
    - intros r2 H2. eapply (rd_lit m "."); [reflexivity|exact H2].
    - intros r2 H2. eapply no_ident_star; exact H2. }
  intros r Hr. apply reads_alt1. eapply reads_map with (v := (a, tt, b, tt, c)); [|reflexivity]. now apply R.
Qed.
Definition vname (n : text) : Prop := name n /\ (word n -> ~ read_as_value n).
Lemma rd_before_star t i k : tname vname t -> skip i = skip (t ++ "."%char :: "*"%char :: k) -> exists v, forall r, skip r = skip i -> reads p_ve r v (skip ("."%char :: "*"%char :: k)).
Proof.
  intros T H.
  assert (C : exists c a x, skip i = skip (a ++ "."%char :: x) /\ vname a /\ forall r, skip r = skip i -> reads (g_column_reference m) r c (skip ("."%char :: "*"%char :: k))).
  { destruct T as [a Ha|a b Ha Hb|a b c Ha Hb Hc].
    - exists (CR1 a), a. eexists. split; [exact H|split; [exact Ha|]]. intros r Hr. apply rd_cr1_star; [apply Ha|congruence].
    - rewrite <- app_assoc in H. cbn [app] in H. exists (CR2 a b), a. eexists. split; [exact H|split; [exact Ha|]]. intros r Hr. apply rd_cr2_star; [apply Ha|exact Hb|congruence].
    - rewrite <- app_assoc in H. cbn [app] in H. rewrite <- app_assoc in H. cbn [app] in H. exists (CR3 a b c), a. eexists. split; [exact H|split; [exact Ha|]]. intros r Hr. apply rd_cr3_star; [apply Ha|exact Hb|exact Hc|congruence]. }
  destruct C as (c & a & x & E & [An Av] & R). exists (VE_nb (VENB (Factor [] (NP_vep (VEP (VP_col c) []))) [])). intros r Hr.
  assert (G : forall r, skip r = skip i -> fails (g_numeric_value_function m) r /\ fails g_array_constructor r /\ fails (PLex s_unsigned_literal) r).
  { intros r' Hr'. rewrite E in Hr'. destruct An as [[W Re]|D].
    - rewrite dark_skip in Hr' by now apply word_dark'. eapply word_fails; [exact W|exact Re|auto| | | |exact Hr']; [now apply no_word_char|reflexivity|]. intros _. reflexivity.
    - destruct (delimited_starts _ D) as (b & E'). rewrite E' in Hr'. cbn [app] in Hr'. repeat split; (eapply first_byte; [exact Hr'|reflexivity]). }
  apply (reads_rule m R_ve). apply reads_alt1. eapply reads_map; [|reflexivity]. apply (reads_rule m R_venb). eapply reads_map with (v := (Factor [] (NP_vep (VEP (VP_col c) [])), [])); [|reflexivity].
  eapply (reads_seq m _ _ _ _ (skip ("."%char :: "*"%char :: k))).
  - eapply reads_map with (v := ([], NP_vep (VEP (VP_col c) []))); [|reflexivity]. eapply (reads_seq m _ _ _ _ (skip i)).
    + rewrite <- Hr. apply reads_olex_none; [reflexivity|]. rewrite Hr, E. rewrite dark_skip by now apply name_dark.
      assert (exists y z, a = y :: z /\ y <> "+"%char /\ y <> "-"%char) as (y & z & -> & Y1 & Y2).
      { destruct An as [[W _]|D]; [destruct (word_starts _ W) as (y & z & -> & Hl); exists y, z; split; [reflexivity|]; split; intros ->; discriminate|]. destruct (delimited_starts _ D) as (b & ->). eexists _, _. split; [reflexivity|]. split; discriminate. }
      apply sign_none; tauto.
    + intros r2 H2. apply reads_alt2; [apply fails_map; now apply G|]. intros r3 H3. eapply reads_map; [|reflexivity]. eapply reads_map with (v := (VP_col c, [])); [|reflexivity].
      eapply (reads_seq m _ _ _ _ (skip ("."%char :: "*"%char :: k))).
      * apply reads_alt2; [apply G; congruence|]. intros r4 H4. apply reads_alt2; [apply fails_map, G; congruence|]. intros r5 H5. apply reads_alt1. eapply reads_map; [|reflexivity]. apply R. congruence.
      * intros r4 H4. rewrite <- H4. apply reads_star_nil. eapply look_class; [exact H4|reflexivity].
  - intros r2 H2. rewrite <- H2. apply reads_star_nil. eapply look_class; [exact H2|reflexivity].
Qed.
End Star.

(** ** Select lists *)
Section Select.
Variable tm : mapping.
Variable fmt : text -> text.
Notation m := (lookup tm).
Notation reads := (reads m).
Notation fails := (fails m).
Definition cfol (k : text) : Prop := exists t, k = L "," ++ t \/ k = L " FROM " ++ t.
Definition Rcolv (c : colv) : Prop := forall i k, cfol k -> skip i = skip (pr_colv fmt c ++ k) -> reads (g_select_item m) i c (skip k).
Lemma cfol_astop k : cfol k -> astop k = true.
Proof. intros (t & [-> | ->]); reflexivity. Qed.
Lemma cfol_bnd k : cfol k -> bnd k = true.
Proof. intros (t & [-> | ->]); reflexivity. Qed.
Lemma cfol_no_as i k : cfol k -> skip i = skip k -> fails (PLex (kw_soft "AS")) i.
Proof. intros (t & [-> | ->]) H; (eapply no_soft; [|exact H]; reflexivity). Qed.
Lemma rd_as e a : Rve m fmt e -> name a -> Rcolv (CV_as e a).
Proof.
  intros E A i k K H. rewrite pr_colv_CV_as, <- !app_assoc in H. apply reads_alt1. eapply reads_map with (v := (e, [], a)); [|reflexivity]. eapply reads_exp; [eapply reads_seq|].
  - eapply ve_arg; [exact E| |exact H]. reflexivity.
  - intros r Hr. eapply (rd_soft m "AS" (L "AS") " "%char); [reflexivity..|exact Hr].
  - intros r Hr. eapply rd_name; [exact A| |exact Hr]. now apply boundary_nstop, bnd_ok, cfol_bnd.
Qed.
Lemma rd_item_ve e : Rve m fmt e -> c_ve fmt e = true -> Rcolv (CV_ve e).
Proof.
  intros E C i k K H. rewrite pr_colv_CV_ve in H. apply reads_alt2.
  - apply fails_map, fails_exp1. eapply fails_seq2; [apply (ve_arg m fmt e E i k (cfol_astop k K) H)|]. intros r Hr. apply (cfol_no_as r k); [exact K|exact Hr].
  - intros r Hr. rewrite H in Hr. apply reads_alt2; [apply fails_map; eapply (proj1 (ns_all m fmt)); [exact C|apply cfol_bnd; exact K|exact Hr]|]. intros r2 H2. rewrite Hr in H2. eapply reads_map; [|reflexivity].
    apply (ve_arg m fmt e E r2 k (cfol_astop k K)). rewrite H2. reflexivity.
Qed.
Lemma star_parts s : existsb (fun '(n, r) => text_eqb r (L "*") && table_name_from is_value_name n) (cuts "." s) = true -> exists t, s = t ++ L ".*" /\ tname vname t.
Proof.
  intros C. apply existsb_exists in C as ((n & r) & I & C). apply andb_true_iff in C as [E T]. apply text_eqb_iff in E as ->. apply cuts_ok in I. exists n. split; [exact I|].
  eapply table_name_ok; [|exact T]. apply value_name_ok.
Qed.
Lemma rd_item_star s : existsb (fun '(n, r) => text_eqb r (L "*") && table_name_from is_value_name n) (cuts "." s) = true -> Rcolv (CV_star s).
Proof.
  intros C i k K H. apply star_parts in C as (t & -> & T). rewrite pr_colv_CV_star, <- app_assoc in H. apply reads_alt2.
  - apply fails_map, fails_exp1. destruct (rd_before_star m fmt t i k T H) as (v & R). eapply fails_seq2; [now apply R|]. intros r Hr. eapply look_class; [exact Hr|reflexivity].
  - intros r Hr. rewrite H in Hr. apply reads_alt1. eapply reads_map; [|reflexivity]. eapply rd_star_item; [|exact T|exact Hr]. now intros x [].
Qed.
Lemma colv_lead c k : c_colv fmt c = true -> bnd k = true -> lead (pr_colv fmt c ++ k).
Proof.
  intros C K. destruct c as [e a|s|e].
  - rewrite c_colv_CV_as in C. rewrite pr_colv_CV_as, <- app_assoc. ands. apply lead_all; [assumption|]. now apply no_word_char.
  - rewrite c_colv_CV_star in C. apply star_parts in C as (t & -> & T). rewrite pr_colv_CV_star, <- app_assoc. apply lead_mono.
    destruct T as [a Ha|a b Ha Hb|a b c Ha Hb Hc]; rewrite <- ?app_assoc; (apply name_lead; [apply Ha|now apply no_word_char]).
  - rewrite c_colv_CV_ve in C. rewrite pr_colv_CV_ve. apply lead_all; [assumption|]. now apply bnd_word.
Qed.
Lemma rd_columns c i k : c_columns fmt c = true -> match c with C_star _ => True | C_list l => Forall Rcolv l end -> skip i = skip (pr_columns fmt c ++ L " FROM " ++ k) -> reads (g_columns m) i c (skip (L "FROM " ++ k)).
Proof.
  intros C R H. destruct c as [s|l].
  - rewrite c_columns_C_star in C. apply text_eqb_iff in C as ->. rewrite pr_columns_C_star in H. apply reads_alt1. eapply reads_map; [|reflexivity].
    change (skip (L "FROM " ++ k)) with (skip (L " FROM " ++ k)). eapply reads_lex; [reflexivity|]. rewrite H. reflexivity.
  - rewrite c_columns_C_list in C. rewrite pr_columns_C_list in H. apply andb_true_iff in C as [N C]. assert (Ne : l <> []) by now intros ->. apply reads_alt2.
    + apply fails_map. destruct l as [|x l]; [congruence|]. cbn [forallb] in C. apply andb_true_iff in C as [Cx _].
      assert (E : exists f, join (L ", ") (map (pr_colv fmt) (x :: l)) ++ L " FROM " ++ k = pr_colv fmt x ++ f /\ bnd f = true).
      { cbn [map join]. destruct l as [|y l]; [eexists; split; reflexivity|]. cbn [map]. rewrite <- !app_assoc. eexists. split; reflexivity. }
      destruct E as (f & E & B). rewrite E in H. pose proof (colv_lead x f Cx B) as LD. destruct (lead_hd _ LD) as (c & r & Ec & Hc). pose proof (lead_dark _ LD) as DK. rewrite (dark_skip0 _ DK), Ec in H.
      eapply look_class; [exact H|]. revert Hc. clear. destruct c as [[] [] [] [] [] [] [] []]; vm_compute; intros [Hc|Hc]; (reflexivity || discriminate).
    + intros r Hr. rewrite H in Hr. eapply reads_map; [|reflexivity]. change (skip (L "FROM " ++ k)) with (skip (L " FROM " ++ k)).
      eapply (rd_list m _ _ (L ", ") (pr_colv fmt) cfol); [exact Ne|exact R| | | | |exact Hr].
      * intros t. exists (L " " ++ t). now left.
      * intros r2 t Ht. change (skip t) with (skip (L " " ++ t)). now apply rd_comma.
      * exists k. now right.
      * intros r2 H2. eapply no_lit; [|exact H2]. reflexivity.
Qed.

(** The text that a column list starts with is neither a set quantifier nor TOP. *)
Lemma columns_start c k : c_columns fmt c = true -> let t := pr_columns fmt c ++ L " FROM " ++ k in
  forall i, skip i = skip t -> reads (POptLex s_set_quantifier) i [] (skip t) /\ fails (g_top) i.
Proof.
  intros C t i H. subst t. destruct c as [s|l].
  - rewrite c_columns_C_star in C. apply text_eqb_iff in C as ->. rewrite pr_columns_C_star in *. split.
    + rewrite <- H. apply reads_olex_none; [reflexivity|]. rewrite H. reflexivity.
    + apply fails_map, fails_exp1. eapply no_soft; [|exact H]. reflexivity.
  - rewrite c_columns_C_list in C. rewrite pr_columns_C_list in *. apply andb_true_iff in C as [N C]. destruct l as [|x l]; [discriminate|]. cbn [forallb] in C. apply andb_true_iff in C as [Cx _].
    assert (E : exists f, join (L ", ") (map (pr_colv fmt) (x :: l)) ++ L " FROM " ++ k = pr_colv fmt x ++ f /\ bnd f = true).
    { cbn [map join]. destruct l as [|y l]; [eexists; split; reflexivity|]. cbn [map]. rewrite <- !app_assoc. eexists. split; reflexivity. }
    destruct E as (f & E & B). rewrite E in *. pose proof (colv_lead x f Cx B) as LD. split.
    + now apply lead_no_quant.
    + apply fails_map, fails_exp1. eapply lead_no_soft; [exact LD|reflexivity..|exact H].
Qed.
(* split a word listed by its upper case *)
Ltac names I := cbn [map In] in I; repeat (destruct I as [I|I]); [..|destruct I]; symmetry in I.
Definition Rselect (s : select) : Prop := forall i k, skip i = skip (pr_select fmt s ++ L " FROM " ++ k) -> reads (g_select m) i s (skip (L "FROM " ++ k)).
Lemma rd_quant q r i : is_nil q || one_of_nc q ["ALL"; "DISTINCT"]%string = true -> (q = [] -> forall j, skip j = skip r -> reads (POptLex s_set_quantifier) j [] (skip r)) -> skip i = skip (nl_sp q ++ r) ->
  reads (POptLex s_set_quantifier) i q (skip r).
Proof.
  intros Q Z H. assert (QL : q = [] \/ In (upper q) (map L ["ALL"; "DISTINCT"]%string)) by (apply orb_true_iff in Q as [Q|Q]; [left; now destruct q|right; now apply one_of_nc_iff]). clear Q.
  destruct QL as [->|QL]; [now apply Z|]. assert (W : word q) by (eapply listed_word; [|exact QL]; reflexivity). destruct q as [|x q]; [destruct W as (? & ? & ? & _); discriminate|].
  cbn [nl_sp is_nil] in H. rewrite <- app_assoc in H. eapply (reads_olex m _ _ (x :: q) (L " " ++ r)); [reflexivity|]. rewrite H, dark_skip by now apply word_dark'.
  unfold s_set_quantifier. cbn [srun]. rewrite (strs_pick ["DISTINCT"; "ALL"]%string (x :: q)); [reflexivity| |left; reflexivity|reflexivity]. names QL; rewrite QL; reflexivity.
Qed.
Lemma rd_select q top c : c_select fmt (Select q top c) = true -> match c with C_star _ => True | C_list l => Forall Rcolv l end -> Rselect (Select q top c).
Proof.
  intros C R i k H. rewrite c_select_Select in C. rewrite pr_select_Select, <- !app_assoc in H. apply andb_true_iff in C as [C Cc]. apply andb_true_iff in C as [Cq Ct].
  apply N.leb_le in Ct. set (cols := pr_columns fmt c ++ L " FROM " ++ k) in *.
  set (tops := if (top =? top_none)%N then [] else L "TOP " ++ pr_N top ++ L " ") in *.
  eapply reads_map with (v := ([], q, if (top =? top_none)%N then None else Some top, c)); [|destruct (N.eqb_spec top top_none) as [->|]; reflexivity].
  eapply reads_exp; [eapply reads_seq; [eapply reads_seq|]|].
  - eapply (rd_hard m "SELECT" (L "SELECT") " "%char); [reflexivity..|exact H].
  - intros r Hr. instantiate (1 := skip (tops ++ cols)). apply rd_quant; [exact Cq| |exact Hr]. intros _ j Hj. subst tops. destruct (N.eqb_spec top top_none) as [T|T].
    + now apply columns_start.
    + rewrite <- Hj. apply reads_olex_none; [reflexivity|]. rewrite Hj. reflexivity.
  - intros r Hr. instantiate (1 := skip cols). subst tops. destruct (N.eqb_spec top top_none) as [T|T].
    + cbn [app] in Hr. rewrite <- Hr. apply reads_none. now apply (columns_start c k Cc).
    + apply reads_some. rewrite <- !app_assoc in Hr. pose proof (top_reads tm (L "TOP") (L " ") (pr_N top) " "%char cols r) as Y. destruct (pr_N_decimal top) as [PD PG]. rewrite PD in Y.
      assert (Lt : (top <? 2 ^ 64)%N = true) by (apply N.ltb_lt; unfold top_none in *; lia). rewrite Lt in Y. apply Y; [reflexivity|repeat constructor|discriminate|exact PG|reflexivity|exact Hr].
  - intros r Hr. now apply rd_columns.
Qed.
End Select.
