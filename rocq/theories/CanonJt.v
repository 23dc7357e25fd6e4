(** Printed values and conditions are not joins. *)
From Verif Require Import Grammar Print PegProps PegSpec PegEquiv TextLemmas SpecLexical LexProofs LexProofs2 First Calc Look Tight Operand TopProofs SpecCanon AstInd PrintEq CanonBase CanonLex CanonGeo CanonHead CanonLead CanonFun CanonPrim CanonVal CanonCond.

Section Jt.
Variable m : text -> option text.
Variable fmt : text -> text.
Notation reads := (reads m).
Notation fails := (fails m).
Definition nojt (t : text) : Prop := forall i, skip i = skip t -> fails p_jt i.
(** behind a table: neither alias nor join *)
Definition noalias (k : text) : Prop := forall i, skip i = skip k -> fails g_correlation_specification i.
Definition nosuffix (k : text) : Prop := forall i, skip i = skip k -> fails g_join_suffix i.
Definition nojoin (k : text) : Prop := bnd k = true /\ nodot k /\ noalias k /\ nosuffix k.

Lemma char_fails {A : Set} (e : PE A) (cs : string) : forallb (fun c => match gclass m e (Some c) with C_fail => true | _ => false end) (L cs) = true ->
  forall c t i, existsb (Ascii.eqb c) (L cs) = true -> skip i = c :: t -> fails e i.
Proof.
  intros F c t i C H. apply existsb_exists in C as (x & I & X). apply Ascii.eqb_eq in X as <-. apply (proj1 (forallb_forall _ _) F) in I. eapply first_byte; [exact H|].
  destruct (gclass m e (Some c)); congruence.
Qed.
Lemma look_class {A : Set} (e : PE A) i c t : skip i = c :: t -> gclass m e (Some c) = C_fail -> fails e i.
Proof. apply first_byte. Qed.
Definition jchars : string := ")],*/+-|[(=<>!."%string.
Lemma jchar_alias : forallb (fun c => match gclass m g_correlation_specification (Some c) with C_fail => true | _ => false end) (L jchars) = true. Proof. reflexivity. Qed.
Lemma jchar_suffix : forallb (fun c => match gclass m g_join_suffix (Some c) with C_fail => true | _ => false end) (L jchars) = true. Proof. reflexivity. Qed.
Lemma skip_char c t (cs : string) : existsb (Ascii.eqb c) (L cs) = true -> forallb (fun c => negb (is_space c)) (L cs) = true -> skip (c :: t) = c :: t.
Proof. intros H F. apply existsb_exists in H as (x & I & X). apply Ascii.eqb_eq in X as <-. apply (proj1 (forallb_forall _ _) F) in I. cbn. destruct (is_space c); [discriminate|reflexivity]. Qed.
Lemma strip1_no a c t : a <> c -> strip false [a] (c :: t) = None.
Proof. intros N. cbn [strip]. unfold eq_ch. apply Ascii.eqb_neq in N. now rewrite N. Qed.
Lemma noalias_char k c t : skip k = c :: t -> existsb (Ascii.eqb c) (L jchars) = true -> noalias k.
Proof. intros K C i H. rewrite K in H. eapply (char_fails _ _ jchar_alias); eauto. Qed.
Lemma nosuffix_char k c t : skip k = c :: t -> existsb (Ascii.eqb c) (L jchars) = true -> nosuffix k.
Proof. intros K C i H. rewrite K in H. eapply (char_fails _ _ jchar_suffix); eauto. Qed.
Lemma nojoin_char k c t : bnd k = true -> skip k = c :: t -> existsb (Ascii.eqb c) (L ")],*/+-|[=<>!") = true -> nojoin k.
Proof.
  intros B K C. assert (C' : existsb (Ascii.eqb c) (L jchars) = true /\ c <> "."%char).
  { apply existsb_exists in C as (x & I & X). apply Ascii.eqb_eq in X as <-. cbn in I. repeat (destruct I as [<-|I]; [split; [reflexivity|discriminate]|]). destruct I. }
  destruct C' as [C1 C2]. repeat split; [exact B| |eapply noalias_char; eauto|eapply nosuffix_char; eauto].
  unfold nodot. rewrite K. apply strip1_no. congruence.
Qed.
Lemma noalias_word w k t : skip k = L w ++ t -> upper (L w) = L w -> bnd t = true -> glook m true g_correlation_specification (L w) = LFail -> noalias k.
Proof. intros K U B G i H. eapply look_fail; [|exact G]. exists (L w), t. split; [|split; [exact U|intros _; now apply bnd_ok]]. rewrite H, K. symmetry. rewrite <- K. apply skip_skip. Qed.
Lemma nosuffix_word w k t : skip k = L w ++ t -> upper (L w) = L w -> bnd t = true -> glook m true g_join_suffix (L w) = LFail -> nosuffix k.
Proof. intros K U B G i H. eapply look_fail; [|exact G]. exists (L w), t. split; [|split; [exact U|intros _; now apply bnd_ok]]. rewrite H, K. symmetry. rewrite <- K. apply skip_skip. Qed.
(** AND and the like *)
Lemma nojoin_word w k : In w ["AND"; "OR"; "NOT"; "BETWEEN"; "IN"; "IS"; "LIKE"]%string -> nojoin (L " " ++ L w ++ L " " ++ k).
Proof.
  intros I. split; [reflexivity|split; [|split]].
  - cbn in I. repeat (destruct I as [<-|I]; [reflexivity|]). destruct I.
  - cbn in I. repeat (destruct I as [<-|I]; [match goal with |- noalias (L " " ++ L ?w ++ _) => eapply (noalias_word w _ (L " " ++ k)); reflexivity end|]). destruct I.
  - cbn in I. repeat (destruct I as [<-|I]; [match goal with |- nosuffix (L " " ++ L ?w ++ _) => eapply (nosuffix_word w _ (L " " ++ k)); reflexivity end|]). destruct I.
Qed.

Lemma nojt_start i v k : strip false (L "(") (skip i) = None -> srun (s_table_name m) [] (skip i) = SOk v k -> noalias k -> nosuffix k -> fails p_jt i.
Proof.
  intros P T A S. apply (fails_rule m R_jt). apply fails_alt.
  - apply fails_map. eapply (fails_seq2 m _ _ _ _ (skip k)).
    + apply reads_alt2; [apply fails_map, fails_seq1, fails_seq1; now apply fails_lit|]. intros r Hr. eapply reads_map with (v := (v, [])); [|reflexivity].
      eapply reads_map with (v := (v, None)); [|reflexivity]. eapply reads_seq; [eapply reads_lex; [reflexivity|rewrite Hr; exact T]|].
      intros r2 H2. rewrite <- H2. apply reads_none. now apply A.
    + intros r Hr. apply fails_plus. now apply S.
  - intros r Hr. apply fails_map, fails_seq1, fails_seq1, fails_lit. now rewrite Hr.
Qed.
Lemma nojt_none i a : strip false (L "(") (skip i) = None -> srun (s_table_name m) [] (skip i) = SFail a -> fails p_jt i.
Proof.
  intros P T. apply (fails_rule m R_jt). apply fails_alt.
  - apply fails_map. apply fails_seq1. apply fails_alt; [apply fails_map, fails_seq1, fails_seq1; now apply fails_lit|]. intros r Hr. apply fails_map, fails_map, fails_seq1. eapply fails_lex; [reflexivity|]. rewrite Hr. exact T.
  - intros r Hr. apply fails_map, fails_seq1, fails_seq1, fails_lit. now rewrite Hr.
Qed.
Lemma nojt_paren t : nojt t -> nojt (L "(" ++ t).
Proof.
  intros T i H. apply (fails_rule m R_jt). assert (P : forall r, skip r = skip i -> fails (lit "(" >> p_jt) r).
  { intros r Hr. rewrite H in Hr. eapply fails_seq2; [eapply rd_lit; [|exact Hr]; reflexivity|]. exact T. }
  apply fails_alt.
  - apply fails_map, fails_seq1. apply fails_alt; [apply fails_map, fails_seq1; now apply P|]. intros r Hr. rewrite H in Hr. eapply look_class; [exact Hr|reflexivity].
  - intros r Hr. apply fails_map, fails_seq1. now apply P.
Qed.
Lemma nojt_char c t : existsb (Ascii.eqb c) (L "'.0123456789+-") = true -> nojt (c :: t).
Proof.
  intros C i H. rewrite (skip_char c t _ C eq_refl) in H. revert C H. apply char_fails. reflexivity.
Qed.
Lemma nojt_look b p k : upper p = p -> (b = true -> bnd k = true) -> glook m b p_jt p = LFail -> nojt (p ++ k).
Proof. intros U B G i H. eapply look_fail; [|exact G]. exists p, k. split; [exact H|split; [exact U|intros Z; apply bnd_ok; auto]]. Qed.
Lemma nojt_look_nc b p w k : upper w = p -> (b = true -> bnd k = true) -> glook m b p_jt p = LFail -> nojt (w ++ k).
Proof. intros U B G i H. eapply look_fail; [|exact G]. exists w, k. split; [exact H|split; [exact U|intros Z; apply bnd_ok; auto]]. Qed.
Lemma ident_word w k : word w -> stops word_char k -> srun s_identifier [] (w ++ k) = SOk w k \/ srun s_identifier [] (w ++ k) = SFail [].
Proof.
  intros W K. unfold s_identifier, s_regular_identifier. cbn [srun].
  destruct (word_cases w k W K) as [[_ ->]|[_ (r & ->)]]; [left; now rewrite all_identifiers_run|right].
  destruct (word_starts w W) as (c & w' & -> & Hl). cbn [app]. unfold s_delimited_identifier. cbn [srun chr]. change dquote with dq. now rewrite letter_not_quote.
Qed.
Lemma word_not_upload w c r : word w -> is_idchar c = false -> c <> "."%char -> srun (s_tap_upload m) [] (w ++ c :: r) = SFail [].
Proof.
  intros W K N. unfold s_tap_upload. cbn [srun]. destruct (strip false (L "TAP_UPLOAD.") (w ++ c :: r)) as [[x y]|] eqn:E; [exfalso|reflexivity].
  apply strip_cs_iff in E as [-> E]. change (L "TAP_UPLOAD.") with (L "TAP_UPLOAD" ++ ["."%char]) in E. rewrite <- app_assoc in E. cbn [app] in E.
  destruct (word_prefix w (c :: r) (L "TAP_UPLOAD") ("."%char :: y) E (no_word_char _ _ K) eq_refl) as (w' & -> & E2). destruct w' as [|c' w'].
  - cbn in E2. congruence.
  - injection E2 as <- ->. apply word_chars in W. apply Forall_app in W as [_ W]. inversion W as [|? ? Wc _]; subst. apply is_idchar_iff in Wc. discriminate.
Qed.
Lemma nojt_call w c r : word w -> c = "("%char \/ c = "["%char -> nojt (w ++ c :: r).
Proof.
  intros W C i H. rewrite (dark_skip w) in H by now apply word_dark'. assert (K : is_idchar c = false /\ c <> "."%char) by (destruct C as [-> | ->]; split; (reflexivity || discriminate)). destruct K as [K1 K2].
  assert (P : strip false (L "(") (skip i) = None).
  { rewrite H. destruct (word_starts w W) as (x & w' & -> & Hl). apply strip1_no. intros <-. discriminate Hl. }
  assert (D : forall acc x, srun (SSeq (chr ".") x) acc (c :: r) = SFail acc). { intros acc x. cbn. destruct (Ascii.eqb_spec c "."); [congruence|reflexivity]. }
  destruct (ident_word w (c :: r) W (no_word_char _ _ K1)) as [E|E].
  - eapply (nojt_start i w (c :: r) P).
    + rewrite H. unfold s_table_name. rewrite (alt_no _ _ _ _ []) by now apply word_not_upload.
      rewrite (alt_no _ _ _ _ []) by (eapply hold_no; erewrite seq_run by exact E; apply D). rewrite (alt_no _ _ _ _ []) by (eapply hold_no; erewrite seq_run by exact E; apply D). exact E.
    + eapply (noalias_char _ c r); destruct C as [-> | ->]; reflexivity.
    + eapply (nosuffix_char _ c r); destruct C as [-> | ->]; reflexivity.
  - eapply (nojt_none i [] P). rewrite H. unfold s_table_name. rewrite (alt_no _ _ _ _ []) by now apply word_not_upload.
    rewrite (alt_no _ _ _ _ []) by (eapply hold_no; cbn [srun]; rewrite E; reflexivity). rewrite (alt_no _ _ _ _ []) by (eapply hold_no; cbn [srun]; rewrite E; reflexivity). exact E.
Qed.
Lemma nojt_col c k : cnames name c -> nojoin k -> nojt (pr_colref c ++ k).
Proof.
  intros N (B & D & A & S) i H. assert (DK : dark (pr_colref c)) by exact (colref_dark name c name_dark N). rewrite (dark_skip _ _ DK) in H.
  assert (P : strip false (L "(") (skip i) = None).
  { rewrite H. destruct (colref_first c k) as (k' & -> & _). assert (F : name (first_part c)) by (destruct c; cbn in N |- *; tauto).
    destruct F as [[W _]|Q]; [destruct (word_starts _ W) as (x & w' & -> & Hl)|destruct (delimited_starts _ Q) as (b & ->); reflexivity]. apply strip1_no. intros <-. discriminate Hl. }
  assert (T : tstop k). { split; [now apply boundary_nstop, bnd_ok|]. unfold nodot in D. destruct k as [|x k]; [exact I|]. destruct (Ascii.eqb_spec x "."); [subst x; discriminate D|exact I]. }
  assert (Z : forall t, tname name t -> srun (s_table_name m) [] (t ++ k) = SOk t k) by (intros t Ht; eapply tname_run; eauto).
  destruct c as [a b c d|a b c|a b|a]; cbn [pr_colref cnames] in *; change (L ".") with ["."%char] in *.
  - destruct N as (Na & Nb & Nc & Nd). rewrite <- !app_assoc in H. cbn [app] in H. rewrite <- ?app_assoc in H. cbn [app] in H.
    eapply (nojt_start i (a ++ "."%char :: b ++ "."%char :: c) ("."%char :: d ++ k) P); [|eapply noalias_char; reflexivity|eapply nosuffix_char; reflexivity].
    rewrite H. unfold s_table_name. rewrite (alt_no _ _ _ _ []) by (apply tap_upload_no; [apply name_before; auto; apply dot_nstop|now apply name_free]).
    apply alt_ok, hold_ok. erewrite seq_run by (apply name_run; auto; apply dot_nstop). erewrite seq_run by apply dot_run.
    erewrite seq_run by (apply name_run; auto; apply dot_nstop). erewrite seq_run by apply dot_run. rewrite name_run by (auto; apply dot_nstop). cbn [app]. now rewrite <- !app_assoc.
  - eapply (nojt_start i _ k P); [|exact A|exact S]. rewrite H. apply Z. destruct N as (Na & Nb & Nc). now apply tn3.
  - eapply (nojt_start i _ k P); [|exact A|exact S]. rewrite H. apply Z. destruct N as (Na & Nb). now apply tn2.
  - eapply (nojt_start i _ k P); [|exact A|exact S]. rewrite H. apply Z. now apply tn1.
Qed.

Definition nj {A : Set} (c : A -> bool) (pr : A -> text) (x : A) : Prop := c x = true -> forall k, nojoin k -> nojt (pr x ++ k).
Lemma call_nj ws w r : forallb (fun u => is_word (L u)) ws = true -> one_of_nc w ws = true -> nojt (w ++ L "(" ++ r).
Proof. intros A I. apply one_of_nc_iff in I. apply nojt_call; [eapply listed_word; eauto|now left]. Qed.
Lemma nvf_nj f : nj (c_nvf fmt) (pr_nvf fmt) f.
Proof.
  intros C k S. destruct f.
  - rewrite c_nvf_NV_trig1 in C. rewrite pr_nvf_NV_trig1, <- !app_assoc. ands. eapply call_nj; [|eassumption]; reflexivity.
  - rewrite c_nvf_NV_trig2 in C. rewrite pr_nvf_NV_trig2, <- !app_assoc. ands. eapply call_nj; [|eassumption]; reflexivity.
  - rewrite c_nvf_NV_math0 in C. rewrite pr_nvf_NV_math0, <- !app_assoc. change (L "()" ++ k) with (L "(" ++ L ")" ++ k). eapply call_nj; [|eassumption]; reflexivity.
  - rewrite c_nvf_NV_math1 in C. rewrite pr_nvf_NV_math1, <- !app_assoc. ands. eapply call_nj; [|eassumption]; reflexivity.
  - rewrite c_nvf_NV_math2 in C. rewrite pr_nvf_NV_math2, <- !app_assoc. ands. eapply call_nj; [|eassumption]; reflexivity.
  - rewrite pr_nvf_NV_cast, <- !app_assoc. change (L "CAST(" ++ ?r) with (L "CAST" ++ L "(" ++ r). apply nojt_call; [now apply is_word_ok|now left].
  - rewrite c_nvf_NV_geo1 in C. rewrite pr_nvf_NV_geo1. ands. match goal with H : one_of_nc f ?ws = true |- _ => rewrite (one_of_nc_nonempty f ws eq_refl H) end. rewrite <- !app_assoc. eapply call_nj; [|eassumption]; reflexivity.
  - rewrite c_nvf_NV_geo2 in C. rewrite pr_nvf_NV_geo2. ands. match goal with H : one_of_nc f ?ws = true |- _ => rewrite (one_of_nc_nonempty f ws eq_refl H) end. rewrite <- !app_assoc. eapply call_nj; [|eassumption]; reflexivity.
  - rewrite c_nvf_NV_udf in C. rewrite pr_nvf_NV_udf, <- !app_assoc. apply andb_true_iff in C as [C _]. apply orb_true_iff in C as [C|C]; [|eapply call_nj; [|eassumption]; reflexivity]. ands. apply free_word_ok in H as [W R].
    apply nojt_call; [exact W|now left].
  - rewrite c_nvf_NV_str in C. rewrite pr_nvf_NV_str. apply one_of_nc_iff in C as [C|[]]. eapply (nojt_look_nc true); [symmetry; exact C| |reflexivity]. intros _. apply S.
Qed.
Lemma str_nj s k : is_number s || is_quoted sq s || one_of_nc s ["TRUE"; "FALSE"; "NULL"; "NULL::CHAR"; "NULL::INT"; "NULL::FLOAT"]%string = true -> nojoin k -> nojt (s ++ k).
Proof.
  rewrite !orb_true_iff. intros [[C|C]|C] S.
  - apply is_number_ok in C. destruct (number_starts _ C) as (c & t & -> & D). apply nojt_char. destruct D as [D| ->]; [|reflexivity].
    revert D. clear. destruct c as [[] [] [] [] [] [] [] []]; vm_compute; congruence.
  - apply is_quoted_ok in C as (b & -> & _). apply nojt_char. reflexivity.
  - apply one_of_nc_iff in C. cbn [map In] in C. repeat (destruct C as [C|C]; [eapply (nojt_look_nc true); [symmetry; exact C| |reflexivity]; intros _; apply S|]). destruct C.
Qed.
Lemma term_nojoin ts k : forallb (c_vterm fmt) ts = true -> nojoin k -> nojoin (concat (map (pr_vterm fmt) ts) ++ k).
Proof.
  destruct ts as [|[op f2] ts]; intros C S; [exact S|]. cbn [map concat forallb] in *. rewrite pr_vterm_VTerm, <- !app_assoc. ands. rewrite c_vterm_VTerm in H. ands. apply one_of_iff in H.
  destruct H as [<-|[<-|[<-|[<-|[<-|[]]]]]]; (eapply nojoin_char; reflexivity).
Qed.
Lemma nojoin_bracket t : nojoin (L "[" ++ t). Proof. eapply nojoin_char; reflexivity. Qed.
Theorem nj_all : (forall v, nj (c_ve fmt) (pr_ve fmt) v) /\ (forall v, nj (c_sc fmt) (pr_sc fmt) v).
Proof.
  edestruct (ast_ind (nj (c_ve fmt) (pr_ve fmt)) (nj (c_venb fmt) (pr_venb fmt)) (fun _ => True) (nj (c_factor fmt) (pr_factor fmt)) (nj (c_nprim fmt) (pr_nprim fmt))
    (nj (c_nvf fmt) (pr_nvf fmt)) (nj (c_vep fmt) (pr_vep fmt)) (nj (c_vepv fmt) (pr_vepv fmt)) (fun _ => True) (fun _ => True) (fun _ => True)
    (nj (c_sc fmt) (pr_sc fmt)) (nj (c_bfac fmt) (pr_bfac fmt)) (nj (c_bprim fmt) (pr_bprim fmt)) (nj (c_pred fmt) (pr_pred fmt)) (fun _ => True) (fun _ => True)
    (fun _ => True) (fun _ => True) (fun _ => True) (fun _ => True) (fun _ => True) (fun _ => True) (fun _ => True) (fun _ => True) (fun _ => True) (fun _ => True)
    (fun _ => True) (fun _ => True) (fun _ => True) (fun _ => True) (fun _ => True) (fun _ => True) (fun _ => True)).
  all: try (intros; exact I). all: try (intros; apply nvf_nj).
  - intros v H C. rewrite c_ve_VE_nb in C. rewrite pr_ve_VE_nb. apply H. exact C.
  - intros s H C. rewrite c_ve_VE_sc in C. rewrite pr_ve_VE_sc. ands. apply H. assumption.
  - intros f ts H _ C k S. rewrite c_venb_VENB in C. rewrite pr_venb_VENB. ands. rewrite <- app_assoc. apply H; [assumption|]. now apply term_nojoin.
  - intros s p H C k S. rewrite c_factor_Factor in C. rewrite pr_factor_Factor. ands. rewrite <- app_assoc. apply one_of_iff in H0. destruct H0 as [<-|[<-|[<-|[]]]]; [apply H; assumption|now apply nojt_char|now apply nojt_char].
  - intros v H C. rewrite c_nprim_NP_vep in C. rewrite pr_nprim_NP_vep. now apply H.
  - intros v l H _ C k S. rewrite c_vep_VEP in C. rewrite pr_vep_VEP. ands. rewrite <- app_assoc. apply H; [assumption|]. destruct l; [exact S|]. cbn [map concat]. rewrite <- !app_assoc. apply nojoin_bracket.
  - intros l _ C k S. rewrite pr_vepv_VP_array. change ((L "ARRAY[" ++ ?r) ++ k) with (L "ARRAY" ++ "["%char :: r ++ k). apply nojt_call; [now apply is_word_ok|now right].
  - intros s C k S. rewrite c_vepv_VP_str in C. rewrite pr_vepv_VP_str. now apply str_nj.
  - intros c C k S. rewrite c_vepv_VP_col in C. rewrite pr_vepv_VP_col. apply nojt_col; [|exact S]. apply (c_colref_ok is_value_name name); [apply value_name_ok|exact C].
  - intros s C k S. rewrite c_vepv_VP_setstr in C. rewrite pr_vepv_VP_setstr. apply one_of_nc_iff in C as [C|[]]. eapply (nojt_look_nc false); [symmetry; exact C|discriminate|reflexivity].
  - intros ty q a _ C k S. rewrite c_vepv_VP_set in C. rewrite pr_vepv_VP_set. ands. rewrite <- !app_assoc. eapply call_nj; [|eassumption]; reflexivity.
  - intros a b _ _ C k S. rewrite pr_vepv_VP_nullif. change ((L "NULLIF(" ++ ?r) ++ k) with (L "NULLIF" ++ "("%char :: r ++ k). apply nojt_call; [now apply is_word_ok|now left].
  - intros l _ C k S. rewrite pr_vepv_VP_coalesce. change ((L "COALESCE(" ++ ?r) ++ k) with (L "COALESCE" ++ "("%char :: r ++ k). apply nojt_call; [now apply is_word_ok|now left].
  - intros x w e _ _ _ C k S. rewrite pr_vepv_VP_case. rewrite <- app_assoc. eapply (nojt_look false (L "CASE ")); [reflexivity|discriminate|reflexivity].
  - intros w e _ _ C k S. rewrite pr_vepv_VP_scase. rewrite <- app_assoc. eapply (nojt_look false (L "CASE ")); [reflexivity|discriminate|reflexivity].
  - intros a _ C k S. rewrite pr_vepv_VP_any. change ((L "ANY(" ++ ?r) ++ k) with (L "ANY" ++ "("%char :: r ++ k). apply nojt_call; [now apply is_word_ok|now left].
  - intros a H C k S. rewrite c_vepv_VP_sub in C. rewrite pr_vepv_VP_sub, <- !app_assoc. apply nojt_paren. apply H; [exact C|]. eapply nojoin_char; reflexivity.
  - intros f H C k S. rewrite pr_sc_f by exact C. apply H; [|exact S]. now rewrite c_sc_SC_f in C.
  - intros f op s H _ C k S. rewrite pr_sc_t by exact C. rewrite <- !app_assoc. rewrite c_sc_SC_t in C. ands. apply H; [assumption|]. match goal with X : one_of op _ = true |- _ => apply one_of_iff in X as [<-|[<-|[]]] end; apply nojoin_word; cbn; tauto.
  - intros n p H C k S. rewrite c_bfac_BF in C. rewrite pr_bfac_BF. ands. destruct n as [|c n]; [apply H; assumption|]. unfold nl_sp. cbn [is_nil]. rewrite <- !app_assoc.
    cbn [is_nil] in H0. apply one_of_nc_iff in H0 as [H0|[]]. eapply (nojt_look_nc true); [symmetry; exact H0| |reflexivity]. reflexivity.
  - intros p H C. rewrite c_bprim_BP_pred in C. rewrite pr_bprim_BP_pred. now apply H.
  - intros s H C k S. rewrite c_bprim_BP_sc in C. rewrite pr_bprim_BP_sc, <- !app_assoc. apply nojt_paren. apply H; [exact C|]. eapply nojoin_char; reflexivity.
  - intros v H C. rewrite c_bprim_BP_val in C. rewrite pr_bprim_BP_val. ands. now apply H.
  - intros l op r H _ C k S. rewrite c_pred_P_cmp in C. rewrite pr_pred_P_cmp. ands. rewrite <- !app_assoc. apply H; [assumption|]. match goal with X : one_of op _ = true |- _ => apply one_of_iff in X; cbn [map In] in X; repeat (destruct X as [<-|X]; [eapply nojoin_char; reflexivity|]); destruct X end.
  - intros v n lo hi H _ _ C k S. rewrite c_pred_P_between in C. rewrite pr_pred_P_between. ands. rewrite <- !app_assoc. apply H; [assumption|].
    destruct n as [|c n]; [apply (nojoin_word "BETWEEN"); cbn; tauto|]. cbn [nl_sp is_nil]. rewrite <- !app_assoc.
    match goal with X : is_nil (c :: n) || _ = true |- _ => cbn [is_nil orb] in X; apply upper_not in X as [U (c' & t & E & CC)] end.
    split; [reflexivity|split; [|split]].
    + injection E as -> _. unfold nodot. destruct CC as [-> | ->]; reflexivity.
    + intros i Hi. eapply look_fail with (b := true) (p := L "NOT"); [|reflexivity]. exists (c :: n), (L " " ++ L "BETWEEN " ++ pr_ve fmt lo ++ L " AND " ++ pr_ve fmt hi ++ k). split; [exact Hi|split; [exact U|intros _; reflexivity]].
    + intros i Hi. eapply look_fail with (b := true) (p := L "NOT"); [|reflexivity]. exists (c :: n), (L " " ++ L "BETWEEN " ++ pr_ve fmt lo ++ L " AND " ++ pr_ve fmt hi ++ k). split; [exact Hi|split; [exact U|intros _; reflexivity]].
  - intros v n t H _ C k S. rewrite c_pred_P_in in C. rewrite pr_pred_P_in. ands. rewrite <- !app_assoc. apply H; [assumption|]. match goal with X : one_of n _ = true |- _ => apply one_of_iff in X as [<-|[<-|[]]] end; [apply (nojoin_word "IN")|apply (nojoin_word "NOT")]; cbn; tauto.
  - intros v n H C k S. rewrite c_pred_P_null in C. rewrite pr_pred_P_null. ands. rewrite <- !app_assoc. apply H; [assumption|]. apply (nojoin_word "IS"); cbn; tauto.
  - intros v n p H _ C k S. rewrite c_pred_P_like in C. rewrite pr_pred_P_like. ands. rewrite <- !app_assoc. apply H; [assumption|]. destruct n; [apply (nojoin_word "LIKE")|apply (nojoin_word "NOT")]; cbn; tauto.
  - intros q _ C k S. rewrite pr_pred_P_exists. rewrite <- app_assoc. eapply (nojt_look false (L "EXISTS ")); [reflexivity|discriminate|reflexivity].
  - tauto.
Qed.
End Jt.
