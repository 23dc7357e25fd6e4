(** The terminals of the grammar as items. *)
From Verif Require Import Query PegProps Gen Spec TextLemmas SpecLexical LexProofs LexProofs2 LexDec First Operand TopProofs SpecContent SpecNodes
  ContentCalc ContentLeaves ContentTokens ContentNames ContentShapes SpecSpelling SpellCalc.

Lemma exact_any acc i a r : srun s_exact_numeric acc i = SOk a r ->
  exists x, i = x ++ r /\ (a = acc ++ x /\ mantissa x \/ begins (L ".") r /\ a = acc ++ x ++ L "." /\ digits x).
Proof.
  intros H. destruct r as [|c r]; [|destruct (ascii_dec c "."%char) as [->|N]].
  1,3: apply exact_inv in H as (x & -> & -> & M); [eauto 6|easy].
  unfold s_exact_numeric in H. rewrite run_alt, run_seq in H.
  destruct (srun s_unsigned_integer acc i) as [a1 i1|a1| |] eqn:E; try discriminate.
  - apply takes_digits in E as (x1 & -> & -> & D1). rewrite run_opt in H.
    destruct (srun (SSeq (chr ".") s_unsigned_integer) (acc ++ x1) i1) as [a2 i2|a2| |] eqn:E2; try discriminate; injection H as <- E1.
    + subst i2. eapply (takes_seq (chr ".") s_unsigned_integer) in E2; [|apply takes_char|apply takes_digits].
      destruct E2 as (x & -> & -> & y & z & -> & -> & Dz). exists (x1 ++ ["."%char] ++ z).
      rewrite <- !app_assoc. split; [reflexivity|]. left. split; [reflexivity|]. right; left. exists x1, z. auto.
    + subst i1. exists x1. split; auto. right. split; [exists r; reflexivity|]. split; auto. rewrite run_seq in E2. cbn [srun chr] in E2.
      rewrite Ascii.eqb_refl in E2. apply (clean_ok s_unsigned_integer) in E2; [|reflexivity]. now rewrite E2, <- app_assoc.
  - assert (a1 = acc) as -> by (eapply (clean_ok s_unsigned_integer); [reflexivity|exact E]).
    eapply (takes_seq (chr ".") s_unsigned_integer) in H; [|apply takes_char|apply takes_digits].
    destruct H as (x & -> & -> & y & z & -> & -> & Dz). exists (["."%char] ++ z). split; auto. left. split; auto. right; right. exists z. auto.
Qed.
Lemma number_any i a r : srun s_unsigned_numeric [] i = SOk a r ->
  exists x, i = x ++ r /\ (a = x /\ number x \/ begins (L ".") r /\ a = x ++ L "." /\ digits x).
Proof.
  intros H. destruct r as [|c r]; [|destruct (ascii_dec c "."%char) as [->|N]].
  1,3: apply number_inv in H as (x & -> & -> & M); [eauto 6|easy].
  unfold s_unsigned_numeric in H. rewrite run_alt in H.
  destruct (srun s_approximate_numeric [] i) as [a1 i1|a1| |] eqn:E; try discriminate.
  - injection H as -> ->. unfold s_approximate_numeric in E. rewrite run_hold, run_seq in E.
    destruct (srun s_exact_numeric [] i) as [a2 i2|a2| |] eqn:E2; try discriminate.
    destruct (srun (SSeq (SChr (fun c => Ascii.eqb c "E" || Ascii.eqb c "e")) s_signed_integer) a2 i2) as [a3 i3|a3| |] eqn:E3; try discriminate.
    injection E as -> ->.
    eapply (takes_seq (SChr (fun c => Ascii.eqb c "E" || Ascii.eqb c "e")) s_signed_integer) in E3; [|apply takes_chr|apply takes_signed].
    destruct E3 as (x & -> & -> & y & z & -> & (e & -> & Ee) & (s & d & -> & S & Dd)).
    apply exact_inv in E2 as (m & -> & -> & M).
    2:{ cbn. intros ->. discriminate. }
    exists (m ++ [e] ++ s ++ d). rewrite <- !app_assoc. split; [reflexivity|]. left. split; [reflexivity|].
    right. exists m, ([e] ++ s ++ d). split; auto. split; auto. exists e, s, d. repeat split; auto; try apply Dd.
    apply orb_true_iff in Ee as [Ee|Ee]; apply Ascii.eqb_eq in Ee; auto.
  - unfold s_approximate_numeric in E. assert (a1 = []) as -> by (eapply clean_ok in E; [exact E|reflexivity]).
    apply exact_any in H as (x & -> & [[-> M]|M]); exists x; split; auto. left. split; auto. now left.
Qed.

Section Leaves.
Variable m : text -> option text.
Notation its := (its m).

Lemma i_optlex e P : lx e P -> clean e = true ->
  its (POptLex e) (fun v l => l = [T (P v)] \/ (v = [] /\ l = [])).
Proof.
  intros H C t k v [(sp & x & -> & S & Hx)|(S & _ & F)].
  - exists [T (P v)]. split; auto. apply writes_t; auto.
  - exists []. apply clean_ok in F; auto. split; auto. constructor. now apply spaces_white.
Qed.

(** Names *)
Lemma lx_upload : lx (s_tap_upload m) (upload m).
Proof.
  intros x k v H. apply upload_inv in H as (y & t & E & B & M & ->). rewrite app_assoc in E. apply app_inv_tail in E as ->.
  exists y. auto.
Qed.
Lemma i_upload : its (PLex (s_tap_upload m)) (fun v l => l = [T (upload m v)]).
Proof. exact (i_lex m _ _ lx_upload). Qed.
Lemma lx_table : lx (s_table_name m) (table_name m).
Proof.
  intros x k v H. unfold lexeme, s_table_name in H. rewrite run_alt in H.
  destruct (srun (s_tap_upload m) [] (x ++ k)) as [a1 i1|a1| |] eqn:E; try discriminate.
  - injection H as -> ->. left. now apply lx_upload.
  - right. unfold s_tap_upload in E. apply clean_ok in E as ->; [|reflexivity].
    assert (Tk : takes (SAlt (SHold (SSeq s_identifier (SSeq (chr ".") (SSeq s_identifier (SSeq (chr ".") s_identifier)))))
               (SAlt (SHold (SSeq s_identifier (SSeq (chr ".") s_identifier))) s_identifier))
               (fun x r => exists n, 1 <= n <= 3 /\ dotted n r x)).
    { apply takes_alt; [reflexivity| |apply takes_alt; [reflexivity| |]].
      - apply takes_hold. eapply takes_weak; [apply takes_seq; [apply takes_ident|apply takes_seq; [apply takes_char|
          apply takes_seq; [apply takes_ident|apply takes_seq; [apply takes_char|apply takes_ident]]]]|]. cbn beta.
        intros y r (y1 & y2 & -> & B1 & (y3 & y4 & -> & -> & (y5 & y6 & -> & B5 & (y7 & y8 & -> & -> & B8)))).
        exists 3. split; [lia|]. cbn [app] in *. constructor; [exact B1|]. constructor; [exact B5|]. now constructor.
      - apply takes_hold. eapply takes_weak; [apply takes_seq; [apply takes_ident|apply takes_seq; [apply takes_char|apply takes_ident]]|]. cbn beta.
        intros y r (y1 & y2 & -> & B1 & (y3 & y4 & -> & -> & B5)).
        exists 2. split; [lia|]. cbn [app] in *. constructor; [exact B1|]. now constructor.
      - eapply takes_weak; [apply takes_ident|]. intros y r B. exists 1. split; [lia|]. now constructor. }
    eapply takes_lexeme in H; [|exact Tk]. destruct H as (-> & H). auto.
Qed.
Lemma i_table : its (PLex (s_table_name m)) (fun v l => l = [T (table_name m v)]).
Proof. exact (i_lex m _ _ lx_table). Qed.
Definition qstar (n : text) : terminal := fun k x => exists y, x = y ++ L ".*" /\ table_name m n (L ".*" ++ k) y.
Lemma i_qstar : its (PLex (s_qualifier_star m)) (fun v l => exists n, v = n ++ L ".*" /\ l = [T (qstar n)]).
Proof.
  intros t k v (sp & x & -> & S & H). unfold lexeme, s_qualifier_star in H. rewrite run_seq in H.
  destruct (srun (s_table_name m) [] (x ++ k)) as [a1 i1| | |] eqn:E; try discriminate.
  apply takes_cs in H as (s & -> & -> & ->).
  assert (exists y, x = y ++ L ".*") as (y & ->).
  { pose proof (srun_suffix _ _ _ _ _ E) as [y Ey]. exists y. rewrite app_assoc in Ey. now apply app_inv_tail in Ey. }
  rewrite <- app_assoc in E. exists [T (qstar a1)]. split; [eauto|]. apply writes_t; auto. exists y. split; auto. now apply lx_table.
Qed.
Lemma i_udf : its (PLex s_udf_name) (fun v l => l = [function_name v]).
Proof.
  apply (i_lex m s_udf_name (fun v k x => x = v /\ word v /\
       (stops word_char k \/ In (upper v) (map L ["RIGHT"; "LEFT"; "UPPER"; "LOWER"; "DISTINCT"; "TRIM"]%string)))).
  intros x k v H. unfold lexeme, s_udf_name in H. rewrite run_alt in H.
  destruct (srun s_regular_identifier [] (x ++ k)) as [a1 i1|a1| |] eqn:E; try discriminate.
  - injection H as -> ->. eapply takes_diff in E; [|exact takes_all_id]. destruct E as (y & E & -> & W & S). apply app_inv_tail in E as ->. auto.
  - assert (a1 = []) as ->. { eapply clean_ok in E; [exact E|reflexivity]. }
    pose proof H as H'. apply (lx_strs ["RIGHT"; "LEFT"; "UPPER"; "LOWER"; "DISTINCT"; "TRIM"]%string eq_refl) in H as (-> & I).
    split; auto. split; auto. eapply (tok_strs ["RIGHT"; "LEFT"; "UPPER"; "LOWER"; "DISTINCT"; "TRIM"]%string eq_refl v k v) in H' as (l & _ & _ & W & _). exact W.
Qed.

(** Values *)
Lemma i_value : its (PLex s_unsigned_literal) (fun v l => l = [value v]).
Proof.
  apply (i_lex m _ (fun v k x => begins (L ".") k /\ digits x /\ v = x ++ L "." \/ x = v /\ (number v \/ literal_parts v \/ In (upper v) (map L ["TRUE"; "FALSE"]%string)))).
  intros x k v H.
  unfold lexeme, s_unsigned_literal in H. rewrite run_alt in H.
  destruct (srun s_unsigned_numeric [] (x ++ k)) as [a1 i1|a1| |] eqn:E; try discriminate.
  - injection H as -> ->. apply number_any in E as (y & E & [[-> N]|(B & -> & N)]); apply app_inv_tail in E as ->; auto.
  - right. assert (C : a1 = [] \/ exists r, x ++ k = "."%char :: r).
    { destruct (x ++ k) as [|c r]; [left; cbn in E; congruence|]. destruct (ascii_dec c "."%char) as [->|N]; [eauto|left].
      unfold s_unsigned_numeric in E. rewrite run_alt in E.
      destruct (srun s_approximate_numeric [] (c :: r)) as [a2 i2|a2| |] eqn:E2; try discriminate.
      unfold s_approximate_numeric in E2. apply clean_ok in E2 as ->; [|reflexivity].
      unfold s_exact_numeric in E. rewrite run_alt in E.
      destruct (srun (SSeq s_unsigned_integer (SOpt (SSeq (chr ".") s_unsigned_integer))) [] (c :: r)) as [a3 i3|a3| |] eqn:E3; try discriminate.
      apply clean_ok in E3 as ->; [|reflexivity]. rewrite run_seq in E. cbn in E. apply Ascii.eqb_neq in N. rewrite N in E. congruence. }
    rewrite run_alt in H. destruct C as [->|(r & C)].
    + destruct (srun s_character_string [] (x ++ k)) as [a2 i2|a2| |] eqn:E2; try discriminate.
      * injection H as -> ->. apply takes_string in E2 as (y & E2 & -> & P). apply app_inv_tail in E2 as ->. auto.
      * assert (C : a2 = [] \/ exists r, x ++ k = quote :: r).
        { destruct (x ++ k) as [|c r]; [left; cbn in E2; congruence|]. destruct (ascii_dec c quote) as [->|N]; [eauto|left].
          unfold s_character_string in E2. rewrite run_seq in E2. cbn [srun chr] in E2. apply Ascii.eqb_neq in N. rewrite N in E2. congruence. }
        destruct C as [->|(r & C)]; [|rewrite C in H; discriminate H].
        eapply takes_lexeme in H; [|apply takes_strs]. destruct H as (-> & w & Hw & U). split; auto. do 2 right. rewrite U.
        destruct Hw as [<-|[<-|[]]]; cbn; auto.
    + rewrite C in H. discriminate H.
Qed.
Lemma i_null : its (PLex s_null_literal) (fun v l => l = [one_of ["NULL"]%string v]).
Proof. now apply i_strs. Qed.
Definition nulls : list string := ["NULL"; "NULL::CHAR"; "NULL::INT"; "NULL::FLOAT"]%string.
Lemma i_nulls : its (PLex s_null_literal) (fun v l => l = [one_of nulls v]).
Proof.
  apply (i_lex m _ (fun v _ x => x = v /\ In (upper v) (map L nulls))). intros x k v H.
  eapply takes_lexeme in H; [|apply takes_strs]. destruct H as (-> & w & Hw & U). split; auto. rewrite U.
  destruct Hw as [<-|[]]. now left.
Qed.
Lemma i_null_cast : its (PLex s_null_cast) (fun v l => l = [one_of nulls v]).
Proof.
  apply (i_lex m _ (fun v _ x => x = v /\ In (upper v) (map L nulls))). intros x k v H.
  eapply takes_lexeme in H; [|apply takes_strs]. destruct H as (-> & w & Hw & U). split; auto. rewrite U.
  destruct Hw as [<-|[<-|[<-|[]]]]; cbn; auto.
Qed.
Lemma i_char c : its (PLex (chr c)) (fun v l => v = [c] /\ l = [T (fun _ x => x = [c])]).
Proof.
  intros t k v (sp & x & -> & S & H). eapply takes_lexeme in H; [|apply takes_char]. destruct H as (-> & ->).
  eexists. split; [split; reflexivity|]. now apply writes_t.
Qed.

(** Functions, operators, flags *)
Lemma i_held ws b : forallb caps ws = true -> its (PLex (SHold (SSeq (strs_nc ws) (SAnd b)))) (fun v l => l = [one_of ws v]).
Proof.
  intros F. apply (i_lex m _ (fun v _ x => x = v /\ In (upper v) (map L ws))). intros x k v H. apply lexeme_hold, lexeme_seq_and in H.
  eapply (lx_strs ws F); eauto.
Qed.
Lemma i_arith : its (PLex s_arithmetic_operator) (fun v l => l = [one_mark ["+"; "-"; "*"; "/"]%string v]).
Proof.
  apply (i_lex m _ (fun v _ x => x = v /\ In v (map L ["+"; "-"; "*"; "/"]%string))). intros x k v H.
  eapply takes_lexeme in H; [|apply takes_arith]. destruct H as (-> & I). auto.
Qed.
Lemma i_flag : its (PLex s_char_flag) (fun v l => l = [one_mark ["0"; "1"]%string v]).
Proof.
  apply (i_lex m _ (fun v _ x => x = v /\ In v (map L ["0"; "1"]%string))). intros x k v H.
  eapply takes_lexeme in H; [|apply (takes_alt _ _ (fun x _ => In x (map L ["0"; "1"]%string)));
    [reflexivity|eapply takes_weak; [apply takes_char|]|eapply takes_weak; [apply takes_char|]]].
  - destruct H as (-> & I). auto.
  - intros y _ ->. now left.
  - intros y _ ->. right. now left.
Qed.
Lemma i_sign : its (POptLex s_sign) (fun v l => l = [one_mark ["+"; "-"]%string v] \/ (v = [] /\ l = [])).
Proof.
  apply (i_optlex s_sign (fun v _ x => x = v /\ In v (map L ["+"; "-"]%string))); [|reflexivity]. intros x k v H.
  eapply takes_lexeme in H; [|apply takes_sign]. destruct H as (-> & I). auto.
Qed.
Lemma i_quantifier : its (POptLex s_set_quantifier) (fun v l => l = [one_ofb ["DISTINCT"; "ALL"]%string v] \/ (v = [] /\ l = [])).
Proof.
  apply (i_optlex s_set_quantifier (fun v k x => x = v /\ In (upper v) (map L ["DISTINCT"; "ALL"]%string) /\ blank_ahead k)); [|reflexivity].
  intros x k v H. apply lexeme_hold in H. exact (lx_strs_soft ["DISTINCT"; "ALL"]%string eq_refl x k v H).
Qed.
Lemma i_ordering : its (POptLex s_ordering) (fun v l => l = [one_of ["ASC"; "DESC"]%string v] \/ (v = [] /\ l = [])).
Proof.
  apply (i_optlex s_ordering (fun v _ x => x = v /\ In (upper v) (map L ["ASC"; "DESC"]%string))); [|reflexivity].
  exact (lx_strs ["ASC"; "DESC"]%string eq_refl).
Qed.

(** NOT *)
Lemma i_not_soft : its (POptLex (kws_soft ["NOT"]%string)) (fun v l => l = [optional_not v]).
Proof.
  intros t k v [(sp & x & -> & S & H)|(S & Sk & E)]; exists [optional_not v]; (split; [reflexivity|]).
  - apply writes_t; auto. apply (lx_strs_soft ["NOT"]%string eq_refl) in H as (-> & [U|[]] & B). right; left. repeat split; auto. red. congruence.
  - rewrite <- (app_nil_r t). apply writes_t; auto. unfold kws_soft in E. rewrite run_seq, strs_run in E. cbn [first_str] in E.
    destruct (strip true (L "NOT") k) as [[n r]|] eqn:St; [|left; split; congruence]. apply strip_nc_iff in St as [-> U].
    cbn [app] in E. right; right. destruct (srun ahead_space n r) as [a r'|a| |] eqn:E2; try discriminate.
    assert (a = n /\ ~ blank_ahead r) as [-> B].
    { unfold ahead_space in E2. cbn [srun] in E2. destruct r as [|c r]; [|destruct (is_space c) eqn:C; [discriminate|]]; injection E2 as <-; (split; [reflexivity|]).
      - intros (c & k' & E3 & _). discriminate.
      - intros (d & k' & E3 & D). congruence. }
    injection E as <-. split; [exact U|]. split; auto. exists r. auto.
Qed.
Lemma i_not_hard : its (POptLex (kws_hard "NOT")) (fun v l => l = [spaced_not v]).
Proof.
  intros t k v [(sp & x & -> & S & H)|(S & Sk & E)]; exists [spaced_not v]; (split; [reflexivity|]).
  - apply writes_t; auto. right. unfold lexeme, kws_hard in H. cbn [srun] in H.
    destruct (strip true (L "NOT") (x ++ k)) as [[y r]|] eqn:St; [|discriminate].
    destruct (srun ahead_space ([] ++ y) r) as [a r'| | |] eqn:E2; try discriminate. injection H as <- ->.
    apply ahead_inv in E2 as (-> & -> & B). apply strip_nc_iff in St as [St U]. apply app_inv_tail in St as ->. cbn [app]. repeat split; auto.
  - rewrite <- (app_nil_r t). apply writes_t; auto. left. split; auto. apply clean_ok in E; auto.
Qed.
Lemma i_not_in : its (POptLex (SExp (SStr true (L "NOT")) (SChr is_space))) (fun v l => l = [in_not v]).
Proof.
  intros t k v [(sp & x & -> & S & H)|(S & Sk & E)]; exists [in_not v]; (split; [reflexivity|]).
  - apply writes_t; auto. right. eapply takes_lexeme in H; [|apply takes_exp; [apply takes_nc|apply takes_chr]].
    destruct H as (-> & n & y & -> & U & c & -> & C). split; auto. exists n, c. repeat split; auto.
  - rewrite <- (app_nil_r t). apply writes_t; auto. left. split; auto. apply clean_ok in E; auto.
Qed.

(** Table functions *)
Lemma i_tvf_head : its (PLex s_tvf_head)
  (fun f l => l = [T (fun _ x => exists tb, x = tb ++ L "(" ++ f ++ L "('" /\ upper tb = L "TABLE" /\ dotted_name f)]).
Proof. apply (i_lex m s_tvf_head (fun f _ x => exists tb, x = tb ++ L "(" ++ f ++ L "('" /\ upper tb = L "TABLE" /\ dotted_name f)). intros x k v. apply takes_tvf. Qed.
Lemma i_arg : its (PLex s_pqi) (fun a l => l = [T (fun _ x => x = a /\ dotted_name a)]).
Proof.
  apply (i_lex m s_pqi (fun a _ x => x = a /\ dotted_name a)). intros x k v H. eapply takes_lexeme in H; [|apply takes_pqi]. destruct H as (-> & D). auto.
Qed.
End Leaves.
