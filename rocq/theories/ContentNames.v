(** Composite leaves for C14: names of tables, table functions, coordinate systems, UNION. *)
From Verif Require Import Query PegProps Gen Spec TextLemmas SpecLexical LexProofs LexProofs2 LexDec First Operand TopProofs NonEmpty SpecContent
  ContentCalc ContentLeaves ContentTokens ContentOut.

Lemma upper_split x p q : upper x = p ++ q -> exists x1 x2, x = x1 ++ x2 /\ upper x1 = p /\ upper x2 = q.
Proof.
  revert x. induction p as [|c p IH]; intros x E; [exists [], x; auto|]. destruct x as [|d x]; [discriminate|]. cbn in E. injection E as <- E.
  destruct (IH x E) as (x1 & x2 & -> & <- & <-). exists (d :: x1), x2. auto.
Qed.
Lemma upc_colon c : upc c = ":"%char -> c = ":"%char.
Proof. revert c. by_byte. Qed.
Lemma upc_space c : upc c = " "%char -> c = " "%char.
Proof. revert c. by_byte. Qed.
Lemma takes_ident : takes s_identifier (fun x r => identifier_before r x).
Proof.
  intros acc i a r H. rewrite srun_acc in H. destruct (srun s_identifier [] i) as [v k| | |] eqn:E; try discriminate.
  cbn in H. injection H as <- <-. apply identifier_inv in E as [-> B]. eauto.
Qed.
Lemma ident_token k v : identifier_before k v -> token v.
Proof. intros B. apply before_name in B as [[W|D] _]; [now left|right; now left]. Qed.
Lemma ident_nonnil k v : identifier_before k v -> v <> [].
Proof. intros [((c & w & -> & _) & _)|((b & -> & _) & _)]; discriminate. Qed.
Lemma takes_pqi : takes s_pqi (fun x _ => dotted_name x).
Proof.
  eapply takes_weak; [apply takes_seq; [apply takes_chr|apply takes_chars]|]. cbn beta. intros x r (y & z & -> & (c & -> & C) & F).
  exists c, z. split; auto. split; [now apply is_letter_iff|]. eapply Forall_impl; [|exact F]. cbn beta. intros d D.
  apply orb_true_iff in D as [D|D]; [left; now apply is_idchar_iff|right; now apply Ascii.eqb_eq].
Qed.
Lemma doubled_none q b : ~ In q b -> doubled q b.
Proof. induction b as [|c b IH]; intros H; constructor; [intros ->; apply H; now left|apply IH; intros X; apply H; now right]. Qed.
Lemma white_no q w : white w -> is_space q = false -> ~ In q w.
Proof. intros W S H. unfold white in W. rewrite Forall_forall in W. apply W in H. congruence. Qed.
Lemma dotted_no a : dotted_name a -> ~ In sq a.
Proof.
  intros (c & r & -> & C & F) [H|H].
  - apply is_letter_iff in C. subst c. discriminate.
  - rewrite Forall_forall in F. destruct (F _ H) as [W|W]; [apply is_idchar_iff in W; discriminate|discriminate].
Qed.
Lemma dotted_nonnil a : dotted_name a -> a <> []. Proof. intros (c & r & -> & _). discriminate. Qed.
Lemma upper_in c w : In c w -> In (upc c) (upper w). Proof. apply in_map. Qed.
Lemma quoted_literal b : ~ In sq b -> string_literal (L "'" ++ b ++ L "'").
Proof. intros H. exists b. split; [reflexivity|now apply doubled_none]. Qed.

Section Names.
Variable m : text -> option text.
Variable fmt : text -> text.
Variable stray : Prop.
Variable Nr : forall r, attr r -> list text -> Prop.
Hypothesis Hm : forall n t, n <> [] -> m n = Some t -> t <> [].
Notation cont := (cont stray Nr).
Notation cont0 := (cont0 stray Nr).
Notation norm := (normal m fmt stray).
Notation prn := (prn m fmt stray).
Notation outs := (outs m fmt).

Definition tablep (v : text) (l : list text) : Prop := v <> [] /\ prn v l.
Lemma upload_inv acc i v r : srun (s_tap_upload m) acc i = SOk v r ->
  exists y t, i = L "TAP_UPLOAD." ++ y ++ r /\ identifier_before r y /\ m y = Some t /\ v = acc ++ t.
Proof.
  unfold s_tap_upload. cbn [srun]. destruct (strip false (L "TAP_UPLOAD.") i) as [[u j]|] eqn:E; [|discriminate].
  apply strip_cs_iff in E as [-> ->]. destruct (srun s_identifier [] j) as [y k| | |] eqn:E; try discriminate.
  destruct (m y) as [t|] eqn:M; [|discriminate]. intros H. injection H as <- <-. apply identifier_inv in E as [-> B]. eauto 7.
Qed.
Lemma upload_LI y k : identifier_before k y -> LI k (L "TAP_UPLOAD." ++ y) [L "TAP_UPLOAD"; L "."; y].
Proof.
  intros B. change [L "TAP_UPLOAD"; L "."; y] with ([L "TAP_UPLOAD"] ++ [L "."] ++ [y]).
  change (L "TAP_UPLOAD." ++ y) with (L "TAP_UPLOAD" ++ L "." ++ y). apply lexes_app.
  - apply LI_keyword; apply (kw_word "TAP_UPLOAD"); reflexivity.
  - apply lexes_app; [apply LI_mark; now left|]. apply before_name in B. tauto.
Qed.
Lemma upload_table y t k : identifier_before k y -> m y = Some t -> tablep t [L "TAP_UPLOAD"; L "."; y].
Proof.
  intros B M. split; [eapply Hm; [|exact M]; eapply ident_nonnil; eauto|]. exists [t]. split; [eapply outs_mapped; eauto|now constructor].
Qed.
Lemma c0_upload : cont0 (PLex (s_tap_upload m)) tablep.
Proof.
  apply c0_lex. intros x k v H. apply upload_inv in H as (y & t & E & B & M & ->). rewrite app_assoc in E. apply app_inv_tail in E as ->.
  eexists. split; [now apply upload_LI|]. eapply upload_table; eauto.
Qed.
Lemma name_table k v : identifier_before k v -> tablep v [v].
Proof. intros B. split; [eapply ident_nonnil; eauto|]. apply prn_token. eapply ident_token; eauto. Qed.
(* the names of a table in front of [r] *)
Definition names_before (x r : text) : Prop := exists l, LI r x l /\ tablep x l.
Lemma dotted_step x y r : identifier_before ("."%char :: y ++ r) x -> names_before y r -> names_before (x ++ ["."%char] ++ y) r.
Proof.
  intros B (l & Hl & N & l' & O & Nl). exists ([x] ++ [L "."] ++ l). split.
  - apply lexes_app; [apply before_name in B; apply B|]. apply lexes_app; auto. apply LI_mark. now left.
  - pose proof (ident_token _ _ B) as T. split; [pose proof (ident_nonnil _ _ B); now destruct x|]. exists ([x] ++ [L "."] ++ l'). split.
    + apply outs_safe; [now apply outs_token|now apply safe_cons|]. apply outs_shut; auto. now apply (shut_litl m fmt "." [L "."]).
    + cbn [app]. repeat (apply norm_cons; [constructor|]). exact Nl.
Qed.
Lemma name_before x r : identifier_before r x -> names_before x r.
Proof. intros B. exists [x]. split; [apply before_name in B; apply B|eapply name_table; eauto]. Qed.
Lemma tok_table : tokenizes (s_table_name m) tablep.
Proof.
  intros x k v H. unfold lexeme, s_table_name in H. rewrite run_alt in H.
  destruct (srun (s_tap_upload m) [] (x ++ k)) as [a1 i1|a1| |] eqn:E; try discriminate.
  - injection H as -> ->. apply upload_inv in E as (y & t & E & B & M & ->). rewrite app_assoc in E. apply app_inv_tail in E as ->.
    eexists. split; [now apply upload_LI|]. eapply upload_table; eauto.
  - unfold s_tap_upload in E. apply clean_ok in E as ->; [|reflexivity].
    assert (T : takes (SAlt (SHold (SSeq s_identifier (SSeq (chr ".") (SSeq s_identifier (SSeq (chr ".") s_identifier)))))
               (SAlt (SHold (SSeq s_identifier (SSeq (chr ".") s_identifier))) s_identifier)) names_before).
    { apply takes_alt; [reflexivity| |apply takes_alt; [reflexivity| |]].
      - apply takes_hold. eapply takes_weak; [apply takes_seq; [apply takes_ident|apply takes_seq; [apply takes_char|
          apply takes_seq; [apply takes_ident|apply takes_seq; [apply takes_char|apply takes_ident]]]]|]. cbn beta.
        intros y r (y1 & y2 & -> & B1 & (y3 & y4 & -> & -> & (y5 & y6 & -> & B5 & (y7 & y8 & -> & -> & B8)))).
        apply dotted_step; [exact B1|]. apply dotted_step; [exact B5|]. now apply name_before.
      - apply takes_hold. eapply takes_weak; [apply takes_seq; [apply takes_ident|apply takes_seq; [apply takes_char|apply takes_ident]]|]. cbn beta.
        intros y r (y1 & y2 & -> & B1 & (y3 & y4 & -> & -> & B5)).
        apply dotted_step; [exact B1|]. now apply name_before.
      - eapply takes_weak; [apply takes_ident|]. intros y r B. now apply name_before. }
    eapply takes_lexeme in H; [|exact T]. destruct H as (-> & H). exact H.
Qed.
Lemma c0_table : cont0 (PLex (s_table_name m)) tablep.
Proof. apply c0_lex, tok_table. Qed.
Lemma c0_qstar : cont0 (PLex (s_qualifier_star m)) tablep.
Proof.
  apply c0_lex. intros x k v H. unfold lexeme, s_qualifier_star in H. rewrite run_seq in H.
  destruct (srun (s_table_name m) [] (x ++ k)) as [a1 i1| | |] eqn:E; try discriminate.
  apply takes_cs in H as (s & -> & -> & ->).
  assert (exists y, x = y ++ L ".*") as (y & ->).
  { pose proof (srun_suffix _ _ _ _ _ E) as [y Ey]. exists y. rewrite app_assoc in Ey. now apply app_inv_tail in Ey. }
  rewrite <- app_assoc in E. destruct (tok_table y (L ".*" ++ k) a1 E) as (l & Hl & N & l' & O & Nl).
  exists (l ++ [L "."; L "*"]). split.
  - apply lexes_app; auto. change (L ".*") with (L "." ++ L "*"). change [L "."; L "*"] with ([L "."] ++ [L "*"]).
    apply lexes_app; apply LI_mark; cbn; tauto.
  - split; [now destruct a1|]. exists (l' ++ [L "."; L "*"]). split; [|constructor; auto; apply norm_refl].
    apply outs_safe; auto; [now apply safe_cons|]. now apply outs_litl.
Qed.

(** *** Fixed combinations *)
Definition fixedp (v : text) (l : list text) : Prop := v <> [] /\ prn v l.
Lemma c0_null_cast : cont0 (PLex s_null_cast) fixedp.
Proof.
  apply c0_lex. intros x k v H. eapply takes_lexeme in H; [|apply takes_strs]. destruct H as (-> & w & Hw & U).
  assert (exists b, kwb b = true /\ upper x = L "NULL" ++ L "::" ++ upper (L b)) as (b & Kb & Ub).
  { destruct Hw as [<-|[<-|[<-|[]]]]; [exists "CHAR"%string|exists "INT"%string|exists "FLOAT"%string]; split; auto. }
  apply upper_split in Ub as (x1 & x2 & -> & U1 & U2). apply upper_split in U2 as (x3 & x4 & -> & U3 & U4).
  assert (x3 = L "::") as ->.
  { destruct x3 as [|c [|d [|e x3]]]; try discriminate. cbn in U3. injection U3 as C D. apply upc_colon in C as ->. apply upc_colon in D as ->. reflexivity. }
  destruct (kw_word "NULL" x1 eq_refl U1) as [W1 K1]. destruct (kw_word b x4 Kb U4) as [W4 K4].
  exists ([x1] ++ [L "::"] ++ [x4]). split; [|split].
  - apply lexes_app; [now apply LI_keyword|]. apply lexes_app; [apply LI_mark; cbn; tauto|now apply LI_keyword].
  - destruct W1 as (c & w1 & -> & _). discriminate.
  - exists ([x1] ++ [L "::"] ++ [x4]). split; [|apply norm_refl]. apply outs_safe; [apply outs_token; now left|now apply safe_cons|].
    apply outs_shut; [apply shut_mark; cbn; tauto|apply outs_token; now left].
Qed.
Definition unionp (v : text) (l : list text) : Prop := v <> [] /\ prn (upper v) l.
Lemma c0_union : cont0 (PLex s_union) unionp.
Proof.
  apply c0_lex, tok_seq_and. intros x k v H. eapply takes_lexeme in H; [|apply takes_strs]. destruct H as (-> & w & Hw & U).
  assert (T : forall b, kwb b = true -> upper (L b) = L b -> mem (L b) upper_cased = true -> upper x = L "UNION" ++ L " " ++ L b ->
    exists l, LI k x l /\ norm l [L "UNION"; L b]).
  { intros b Kb Bb Cb Ub. apply upper_split in Ub as (x1 & x2 & E & U1 & U2). subst x. apply upper_split in U2 as (x3 & x4 & E & U3 & U4). subst x2.
    assert (x3 = L " ") as ->. { destruct x3 as [|c [|d x3]]; try discriminate. cbn in U3. injection U3 as C. apply upc_space in C as ->. reflexivity. }
    destruct (kw_word "UNION" x1 eq_refl U1) as [W1 K1]. assert (U4' : upper x4 = upper (L b)) by congruence.
    destruct (kw_word b x4 Kb U4') as [W4 K4].
    exists ([x1] ++ [] ++ [x4]). split.
    - apply lexes_app; [now apply LI_keyword|]. apply lexes_app; [constructor; constructor; auto|now apply LI_keyword].
    - cbn [app]. apply norm_cons; [eapply (norm_kw _ _ _ x1 "UNION"); [exact U1|reflexivity]|]. eapply norm_kw; [exact U4'|].
      unfold kw_case. rewrite Bb, Cb. rewrite (proj2 (text_eqb_iff _ _) eq_refl). reflexivity. }
  assert (N : x <> []) by (intros ->; destruct Hw as [<-|[<-|[<-|[]]]]; discriminate U).
  destruct Hw as [<-|[<-|[<-|[]]]].
  - destruct (T "DISTINCT"%string eq_refl eq_refl eq_refl U) as (l & Hl & Nl). exists l. split; auto. split; auto.
    eexists. split; [rewrite U; now apply (outs_litl m fmt "UNION DISTINCT" [L "UNION"; L "DISTINCT"])|exact Nl].
  - destruct (T "ALL"%string eq_refl eq_refl eq_refl U) as (l & Hl & Nl). exists l. split; auto. split; auto.
    eexists. split; [rewrite U; now apply (outs_litl m fmt "UNION ALL" [L "UNION"; L "ALL"])|exact Nl].
  - destruct (kw_word "UNION" x eq_refl U) as [W K]. exists [x]. split; [now apply LI_keyword|]. split; auto.
    exists [L "UNION"]. split; [rewrite U; now apply (outs_litl m fmt "UNION" [L "UNION"])|]. eapply norm_kw; [exact U|reflexivity].
Qed.
Lemma kwp_token ws v l : kwp ws v l -> token v /\ v <> [].
Proof. intros (_ & W & _). split; [now left|]. destruct W as (c & w & -> & _). discriminate. Qed.
Lemma c0_count_star : cont0 g_count_star fixedp.
Proof.
  unfold g_count_star. eapply c0_map.
  { apply cont0_exp, c0_seq; [apply c0_seq; [apply c0_seq; [apply c0_strs; reflexivity|]|]|].
    1-3: apply (c0_lex stray Nr _ (markp ["("; "*"; ")"]%string)); intros x k v H; (eapply takes_lexeme in H; [|apply takes_char]);
      destruct H as (-> & ->); eexists; (split; [apply LI_mark|split; [reflexivity|]]); cbn; tauto. }
  cbn beta. intros [[[a b] c] d] l (l1 & l2 & -> & (l3 & l4 & -> & (l5 & l6 & -> & A & B1) & B0) & B). cbn [fst snd] in *.
  destruct (kwp_token _ _ _ A) as [T N]. destruct A as (-> & W & _). destruct B1 as [-> B1], B0 as [-> B0], B as [-> B].
  assert (Sh : forall x, In x (map L ["("; "*"; ")"]%string) -> shut m fmt x [x] /\ safe x).
  { intros x Hx. split; [apply shut_mark; eapply marks_incl; eauto; reflexivity|]. destruct Hx as [<-|[<-|[<-|[]]]]; now apply safe_cons. }
  destruct (Sh _ B1), (Sh _ B0), (Sh _ B). split; [now destruct a|]. eexists. split; [outs_tac|apply norm_refl].
Qed.
End Names.
