(** Conditions and joins are read as far as possible: what that rules out in the result (for C13). *)
From Verif Require Import Query PegProps PegSpec PegEquiv Totality SkipInv Calc First Look Invert SpecNodes Nodes NodeProps SpecCanon SpecFine TextLemmas LexProofs LexProofs2 FineRun.

Section Greedy.
Variable m : text -> option text.
Notation reads := (reads m).
Notation fails := (fails m).
Notation throws := (throws m).
Ltac same A B := let E := fresh "E" in let E' := fresh "E" in pose proof (fun C => reads_det m _ _ _ _ _ _ C A B) as E; specialize (E eq_refl); destruct E as [E E']; try subst; try injection E as E.
Ltac clash A B := exfalso; eapply reads_fails; [|exact A|exact B]; reflexivity.

Definition live {A : Set} (e : PE A) (i : text) : Prop := ~ fails e i.
Lemma l_seq {A B : Set} (a : PE A) (b : PE B) i v k : chk a -> skips b = true -> reads a i v k -> live b k -> live (PSeq a b) i.
Proof.
  intros C S H L F. apply f_seq in F as [F|(v' & k' & F1 & F2)]; [| |exact S]; [exact (reads_fails m _ _ _ _ C H F)|].
  destruct (reads_det m _ _ _ _ _ _ C H F1) as [_ <-]. auto.
Qed.
Lemma l_alt1 {A : Set} (a b : PE A) i : skips b = true -> live a i -> live (PAlt a b) i.
Proof. intros S H F. apply f_alt in F as [F _]; auto. Qed.
Lemma l_alt2 {A : Set} (a b : PE A) i : skips b = true -> live b i -> live (PAlt a b) i.
Proof. intros S H F. apply f_alt in F as [_ F]; auto. Qed.
Lemma l_map {A B : Set} (f : A -> B) (a : PE A) i : live a i -> live (PMap f a) i.
Proof. intros H F. now apply f_map in F. Qed.
Lemma l_read {A : Set} (a : PE A) i v k : chk a -> reads a i v k -> live a i.
Proof. intros C H F. exact (reads_fails m _ _ _ _ C H F). Qed.
Lemma live_or {A : Set} (a : PE A) i : chk a -> live a i -> (exists v j, reads a i v j) \/ throws a i.
Proof. intros C H. destruct (some_outcome m a i C) as [X|[X|X]]; auto. contradiction. Qed.

(** ** Keywords are not values *)
Definition words4 : list string := ["NOT"; "EXISTS"; "SELECT"; "WITH"]%string.
Lemma word_no_value w x c r i : In w words4 -> upper x = L w -> is_space c = true -> skip i = x ++ c :: r -> fails p_venb i.
Proof.
  intros I U C H. assert (S : starts_as false i (L w ++ [c])).
  { exists (x ++ [c]), r. rewrite <- app_assoc. cbn [app]. rewrite <- H, skip_skip. split; [reflexivity|]. split; [|discriminate].
    rewrite upper_app, U. cbn [upper map]. f_equal. f_equal. revert C. clear. destruct c as [[] [] [] [] [] [] [] []]; vm_compute; congruence. }
  apply (look_fail m false) with (p := L w ++ [c]); [exact S|]. clear - I C.
  repeat destruct I as [<-|I]; try contradiction; revert C; destruct c as [[] [] [] [] [] [] [] []]; intros C; try discriminate C; vm_compute; reflexivity.
Qed.
Lemma ahead_ok acc i v r : srun ahead_space acc i = SOk v r -> v = acc /\ r = i /\ exists c i', i = c :: i' /\ is_space c = true.
Proof. unfold ahead_space. cbn [srun]. destruct i as [|c i]; [discriminate|]. destruct (is_space c) eqn:C; [|discriminate]. intros H; injection H as <- <-. eauto 6. Qed.
Lemma soft_ok ws i v r : srun (kws_soft ws) [] i = SOk v r -> exists s c r', In s ws /\ i = v ++ c :: r' /\ r = c :: r' /\ upper v = upper (L s) /\ is_space c = true.
Proof.
  unfold kws_soft. cbn [srun]. destruct (srun (strs_nc ws) [] i) as [v1 r1|v1|x1|] eqn:E; try discriminate. intros H. apply ahead_ok in H as (-> & -> & c & i' & -> & C).
  apply strs_nc_ok in E as (w & s & I & -> & -> & U). eauto 10.
Qed.
Lemma hard_ok w i v r : srun (kw_hard w) [] i = SOk v r -> exists x c r', i = x ++ c :: r' /\ r = c :: r' /\ upper x = upper (L w) /\ is_space c = true.
Proof.
  unfold kw_hard. cbn [srun]. destruct (strip true (L w) i) as [[x r']|] eqn:E; try discriminate. apply strip_nc_iff in E as [-> U].
  destruct (srun ahead_space [] r') as [v1 r1|v1|x1|] eqn:E; try discriminate. intros H. injection H as <- <-. apply ahead_ok in E as (-> & -> & c & i' & -> & C). eauto 10.
Qed.
Lemma venb_no_word w x c r i v j : reads p_venb i v j -> In w words4 -> upper x = L w -> is_space c = true -> skip i = x ++ c :: r -> False.
Proof. intros H I U C E. clash H (word_no_value _ _ _ _ _ I U C E). Qed.
Lemma venb_no_not i v j : reads p_venb i v j -> exists n, srun (kws_soft ["NOT"%string]) [] (skip i) = SFail n.
Proof.
  intros H. destruct (srun (kws_soft ["NOT"%string]) [] (skip i)) as [n r|n|x1|] eqn:E; eauto; exfalso.
  - apply soft_ok in E as (s & c & r' & [<-|[]] & E & _ & U & C). exact (venb_no_word "NOT" n c r' i v j H (or_introl eq_refl) U C E).
  - revert E. unfold kws_soft, ahead_space, strs_nc. cbn [map alts srun]. destruct (strip true (L "NOT") (skip i)) as [[? [|c ?]]|]; cbn [srun]; [|destruct (is_space c)|destruct (skip i)]; discriminate.
  - revert E. unfold kws_soft, ahead_space, strs_nc. cbn [map alts srun]. destruct (strip true (L "NOT") (skip i)) as [[? [|c ?]]|]; cbn [srun]; [|destruct (is_space c)|destruct (skip i)]; discriminate.
Qed.
Ltac inj E := injection E; clear E; intros; subst.
Lemma W i v j : reads p_venb i v j -> live p_sc i.
Proof.
  intros H F. apply f_sc in F. apply f_alt in F as [_ F]; [|reflexivity]. apply f_map in F. apply f_map in F.
  apply f_seq in F as [F|(n & k & F1 & F)]; [now apply f_olex in F| |reflexivity]. destruct (venb_no_not _ _ _ H) as (n' & E).
  apply i_olex in F1 as [(r & F1 & _)|(F1 & ->)]; [congruence| |reflexivity].
  apply f_alt in F as [_ F]; [|reflexivity]. apply f_alt in F as [_ F]; [|reflexivity]. apply f_map in F.
  eapply fails_same in F; [clash H F|reflexivity|apply skip_skip].
Qed.
Lemma sc_one i f k : reads p_sc i (SC_f f) k -> fails g_boolean_term i /\ reads g_boolean_factor i f k.
Proof.
  intros H. apply i_sc in H. apply i_alt in H as [H|[F H]]; [| |reflexivity].
  - apply i_map in H as ([[? ?] ?] & E & _). discriminate.
  - apply i_map in H as (f' & E & H). inj E. auto.
Qed.
Lemma sc_more i f o s k : reads p_sc i (SC_t f o s) k -> exists k1 k2, reads g_boolean_factor i f k1 /\ reads (PLex (kws_soft ["AND"; "OR"]%string)) k1 o k2 /\ reads p_sc k2 s k.
Proof.
  intros H. apply i_sc in H. apply i_alt in H as [H|[F H]]; [| |reflexivity].
  - apply i_map in H as ([[f' o'] s'] & E & H). inj E. apply i_seq in H as (x & s1 & k2 & E & H & H2); [|reflexivity]. inj E.
    apply i_seq in H as (f1 & o1 & k1 & E & H & H1); [|reflexivity]. inj E. eauto 6.
  - apply i_map in H as (f' & E & H). discriminate.
Qed.
Lemma greedy s : forall i k o k2, reads p_sc i s k -> reads (PLex (kws_soft ["AND"; "OR"]%string)) k o k2 -> fails p_sc k2.
Proof.
  induction s as [f|f o1 s IH]; intros i k o k2 H O.
  - apply sc_one in H as [F H]. apply f_map in F. apply f_seq in F as [F|([f' o'] & k' & F1 & F)]; [| |reflexivity].
    + apply f_seq in F as [F|(f' & k' & F1 & F)]; [clash H F| |reflexivity]. same H F1. clash O F.
    + apply i_seq in F1 as (f1 & o2 & k1 & E & F1 & F2); [|reflexivity]. inj E. same H F1. same O F2. exact F.
  - apply sc_more in H as (k3 & k4 & _ & _ & H). eauto.
Qed.
Lemma bfac_inv i n p j : reads g_boolean_factor i (BF n p) j ->
  (exists r, srun (kws_soft ["NOT"%string]) [] (skip i) = SOk n r /\ reads g_boolean_primary (skip r) p j) \/
  (srun (kws_soft ["NOT"%string]) [] (skip i) = SFail n /\ reads g_boolean_primary i p j).
Proof.
  intros H. apply i_map in H as ([n' p'] & E & H). inj E. apply i_seq in H as (n1 & p1 & k & E & H1 & H2); [|reflexivity]. inj E.
  apply i_olex in H1 as [(r & E & <-)|(E & ->)]; [left; eauto|right|reflexivity]. split; [exact E|]. eapply reads_same; [reflexivity|apply skip_skip|exact H2].
Qed.
Lemma bprim_pred i p j : reads g_boolean_primary i (BP_pred p) j -> reads g_predicate i p j.
Proof.
  intros H. apply i_alt in H as [H|[_ H]]; [| |reflexivity]; [apply i_map in H as (x & E & H); inj E; auto|].
  apply i_alt in H as [H|[_ H]]; [| |reflexivity]; [apply i_map in H as ([[? ?] ?] & E & H); discriminate|apply i_map in H as (x & E & H); discriminate].
Qed.
Lemma bfac_prim i n p j : reads g_boolean_factor i (BF n p) j -> exists i', reads g_boolean_primary i' p j.
Proof. intros H. apply bfac_inv in H as [(r & _ & H)|[_ H]]; eauto. Qed.
Ltac bad H := let x := fresh "x" in let E := fresh "E" in apply i_map in H as (x & E & _); repeat match goal with p : prod _ _ |- _ => destruct p end; discriminate E.
Ltac next H := apply i_alt in H as [H|[_ H]]; [| |reflexivity].
Lemma pred_cmp i l o r j : reads g_predicate i (P_cmp l o r) j -> exists k1 k2, reads p_venb i l k1 /\ reads (PLex s_comparison) k1 o k2 /\ reads p_ve k2 r j.
Proof.
  intros H. next H; [|repeat (next H; [bad H|]); bad H]. apply i_map in H as ([[l' o'] r'] & E & H). inj E.
  apply i_seq in H as (x & y & k2 & E & H & H2); [|reflexivity]. inj E. apply i_seq in H as (x & z & k1 & E & H & H1); [|reflexivity]. inj E. eauto 6.
Qed.
Lemma pred_between i v n lo hi j : reads g_predicate i (P_between v n lo hi) j ->
  exists k1 k2 k3 k4 k5 a b, reads p_venb i v k1 /\ reads (POptLex (kws_hard "NOT")) k1 n k2 /\ reads (PLex (kw_hard "BETWEEN")) k2 a k3 /\ reads p_ve k3 lo k4 /\ reads (PLex (kw_hard "AND")) k4 b k5 /\ reads p_ve k5 hi j.
Proof.
  intros H. next H; [bad H|]. next H; [|repeat (next H; [bad H|]); bad H]. apply i_map in H as ([[[[[v' n'] a] lo'] b] hi'] & E & H). inj E.
  apply i_seq in H as (x & y & k5 & E & H & H5); [|reflexivity]. inj E. apply i_seq in H as (x & y5 & k4 & E & H & H4); [|reflexivity]. inj E.
  apply i_seq in H as (x & y4 & k3 & E & H & H3); [|reflexivity]. inj E. apply i_seq in H as (x & y3 & k2 & E & H & H2); [|reflexivity]. inj E.
  apply i_seq in H as (x & y2 & k1 & E & H & H1); [|reflexivity]. inj E. eauto 20.
Qed.
Lemma ve_cond i s j : reads p_ve i (VE_sc s) j -> fails p_venb i /\ reads p_sc i s j.
Proof.
  intros H. apply i_ve in H. apply i_alt in H as [H|[F H]]; [| |reflexivity]; apply i_map in H as (x & E & H); [discriminate|]. inj E. apply f_map in F. auto.
Qed.
Lemma ve_val i v j : reads p_ve i (VE_nb v) j -> reads p_venb i v j.
Proof.
  intros H. apply i_ve in H. apply i_alt in H as [H|[F H]]; [| |reflexivity]; apply i_map in H as (x & E & H); [|discriminate]. inj E; auto.
Qed.
(** ** In front of AND and OR there is no open condition *)
Lemma closed_fac i f o s k : reads g_search_condition i (SC_t f o s) k -> open_f f = false.
Proof.
  intros H. apply r_sc in H. apply sc_more in H as (k1 & k2 & H & O & H2).
  assert (G : forall i v, reads p_ve i v k1 -> open_ve v = false).
  { intros i' [v|s'] V; [reflexivity|exfalso]. apply ve_cond in V as [_ V]. apply (greedy s' i' k1 o k2 V) in O. clash H2 O. }
  destruct f as [n p]. destruct p as [p|s'|v]; [|reflexivity|reflexivity]. apply bfac_prim in H as (i' & H). apply bprim_pred in H.
  destruct p; try reflexivity; cbn [open_f].
  - apply pred_cmp in H as (? & ? & _ & _ & H). eauto.
  - apply pred_between in H as (? & ? & ? & ? & ? & ? & ? & _ & _ & _ & _ & _ & H). eauto.
Qed.
Lemma closed_low i v n lo hi j : reads g_predicate i (P_between v n lo hi) j -> open_ve lo = false.
Proof.
  intros H. apply pred_between in H as (k1 & k2 & k3 & k4 & k5 & a & b & _ & _ & _ & L & A & H).
  destruct lo as [lo|s]; [reflexivity|exfalso]. apply ve_cond in L as [_ L].
  assert (O : exists o, reads (PLex (kws_soft ["AND"; "OR"]%string)) k4 o k5).
  { apply i_lex in A as (r & A & <-); [|reflexivity]. apply hard_ok in A as (x & c & r' & E & -> & U & C). exists x. eapply reads_lex; [reflexivity|].
    unfold kws_soft, ahead_space, strs_nc. cbn [map alts srun]. assert (S : strip true (Chars.L "AND") (skip k4) = Some (x, c :: r')) by (apply strip_nc_iff; auto).
    rewrite S. cbn [srun]. rewrite C. reflexivity. }
  destruct O as (o & O). apply (greedy s k3 k4 o k5 L) in O. destruct hi as [v'|s'].
  - apply ve_val in H. exact (W _ _ _ H O).
  - apply ve_cond in H as [_ H]. clash H O.
Qed.

(** ** Parentheses *)
Definition rp (j : text) : Prop := exists r, skip j = ")"%char :: r.
Lemma lit_rp j e : reads (lit ")") j tt e -> exists r, skip j = ")"%char :: r /\ e = skip r.
Proof.
  intros H. apply i_lit in H as (w & r & H & <-). apply strip_cs_iff in H as [H ->]. exists r. auto.
Qed.
Lemma lit_lp j e : reads (lit "(") j tt e -> exists r, skip j = "("%char :: r /\ e = skip r.
Proof.
  intros H. apply i_lit in H as (w & r & H & <-). apply strip_cs_iff in H as [H ->]. exists r. auto.
Qed.
Lemma lp_lit j r : skip j = "("%char :: r -> reads (lit "(") j tt (skip r).
Proof. intros H. eapply reads_lit. rewrite H. reflexivity. Qed.
Lemma no_first {A : Set} (e : PE A) i v j : chk e -> reads e i v j -> gclass m e (hd_of (skip i)) = C_fail -> False.
Proof. intros C H F. exact (reads_fails m _ _ _ _ C H (reads_first m _ _ F)). Qed.
Lemma tail_stop c e idx e1 ts j : hd_of (skip e) = Some c -> In c (Chars.L ")AaOoIi") -> reads (PStar g_array_index) e idx e1 -> reads (PStar (g_term m)) e1 ts j -> j = skip e.
Proof.
  intros H I X T. apply i_star in X as [(_ & _ & ->)|(v & vs & k & _ & X & _)]; [| |reflexivity].
  - apply i_star in T as [(_ & _ & ->)|(v & vs & k & _ & T & _)]; [apply skip_skip| |reflexivity]. exfalso. eapply no_first; [|exact T|]; [reflexivity|]. rewrite skip_skip, H. clear - I.
    repeat destruct I as [<-|I]; try contradiction; reflexivity.
  - exfalso. eapply no_first; [|exact X|]; [reflexivity|]. rewrite H. clear - I. repeat destruct I as [<-|I]; try contradiction; reflexivity.
Qed.
Ltac nofirst H := exfalso; eapply no_first; [|exact H|]; [reflexivity|].
Lemma paren_venb i r v j : skip i = "("%char :: r -> reads p_venb i v j ->
  exists a k2 e idx e1 ts, reads p_ve (skip r) a k2 /\ reads (lit ")") k2 tt e /\ reads (PStar g_array_index) e idx e1 /\ reads (PStar (g_term m)) e1 ts j.
Proof.
  intros P H. apply i_venb in H. apply i_map in H as ([f ts] & -> & H). apply i_seq in H as (f' & ts' & k & E & H & T); [|reflexivity]. inj E.
  apply i_map in H as ([s p] & -> & H). apply i_seq in H as (s' & p' & k' & E & S & H); [|reflexivity]. inj E.
  apply i_olex in S as [(r' & S & _)|(_ & ->)]; [rewrite P in S; discriminate| |reflexivity].
  assert (P' : skip (skip i) = "("%char :: r) by (now rewrite skip_skip).
  apply i_alt in H as [H|[_ H]]; [| |reflexivity]. { apply i_map in H as (x & _ & H). nofirst H. rewrite P'. reflexivity. }
  apply i_map in H as (x & _ & H). apply i_map in H as ([v idx] & _ & H). apply i_seq in H as (v' & idx' & e & E & H & X); [|reflexivity]. inj E.
  do 8 (apply i_alt in H as [H|[_ H]]; [nofirst H; rewrite P'; reflexivity| |reflexivity]).
  apply i_parens in H as (a & k1 & k2 & -> & O & H & C); [|reflexivity]. apply lit_lp in O as (r2 & O & ->). rewrite P' in O. injection O as <-. eauto 10.
Qed.
Lemma paren_fail i r : skip i = "("%char :: r -> fails p_venb i -> (forall a k2, reads p_ve (skip r) a k2 -> ~ rp k2) /\ ~ throws p_ve (skip r).
Proof.
  intros P F. apply venb_no in F; [|unfold unsigned; rewrite P; reflexivity]. apply primary_no in F. apply np_sub in F. apply f_map in F.
  pose proof (lp_lit _ _ P) as O. split.
  - intros a k2 H (r' & R). apply f_seq in F as [F|(x & k & F1 & F)]; [| |reflexivity].
    + apply f_seq in F as [F|(x & k & F1 & F)]; [clash O F| |reflexivity]. same O F1. clash H F.
    + apply i_seq in F1 as (x' & a' & k' & _ & O' & F1); [|reflexivity]. same O O'. same H F1. apply f_lit in F. rewrite R in F. discriminate.
  - intros T. apply f_seq in F as [F|(x & k & F1 & F)]; [| |reflexivity].
    + apply f_seq in F as [F|(x & k & F1 & F)]; [clash O F| |reflexivity]. same O F1. eapply fails_throws; [|exact F|exact T]. reflexivity.
    + apply i_seq in F1 as (x' & a' & k' & _ & O' & F1); [|reflexivity]. same O O'. eapply reads_throws; [|exact F1|exact T]. reflexivity.
Qed.

(** ** A condition starts with a value, an opening parenthesis, NOT or EXISTS *)
Definition exists_at (i : text) : Prop := exists x c r, skip i = x ++ c :: r /\ upper x = Chars.L "EXISTS" /\ is_space c = true.
Lemma exists_no_value i v j : reads p_venb i v j -> exists_at i -> False.
Proof. intros H (x & c & r & E & U & C). eapply (venb_no_word "EXISTS" x c r); eauto. right; now left. Qed.
Lemma rp_hd k : rp k -> hd_of (skip k) = Some ")"%char.
Proof. intros (r & ->). reflexivity. Qed.
Lemma rp_skip k : rp k -> rp (skip k).
Proof. unfold rp. now rewrite skip_skip. Qed.
Lemma rp_lex e k v j : rp k -> swf e = true -> (forall r, exists a, srun e [] (")"%char :: r) = SFail a) -> reads (PLex e) k v j -> False.
Proof. intros (r & R) S F H. apply i_lex in H as (r' & H & _); [|exact S]. rewrite R in H. destruct (F r) as (a & E). congruence. Qed.
Lemma rp_olex e k v j : rp k -> swf e = true -> (forall r, exists a, srun e [] (")"%char :: r) = SFail a) -> reads (POptLex e) k v j -> rp j.
Proof. intros (r & R) S F H. apply i_olex in H as [(r' & H & _)|(_ & ->)]; [| |exact S]; [|exists r; now rewrite skip_skip]. rewrite R in H. destruct (F r) as (a & E). congruence. Qed.
Lemma pred_value i q j : reads g_predicate i q j ->
  match q with P_exists _ => exists_at i | _ => exists v k, reads p_venb i v k /\ ~ rp k end.
Proof.
  intros H. next H.
  { apply i_map in H as ([[l o] v] & -> & H). apply i_seq in H as (x & y & k2 & E & H & _); [|reflexivity]. inj E. apply i_seq in H as (x & z & k1 & E & H & H1); [|reflexivity]. inj E.
    exists x, k1. split; [exact H|]. intros R. eapply (rp_lex s_comparison); [exact R|reflexivity| |exact H1]. intros r. eexists. reflexivity. }
  next H.
  { apply i_map in H as ([[[[[v n] a] lo] b] hi] & -> & H).
    apply i_seq in H as (x & y & k5 & E & H & H5); [|reflexivity]. inj E. apply i_seq in H as (x & y5 & k4 & E & H & H4); [|reflexivity]. inj E.
    apply i_seq in H as (x & y4 & k3 & E & H & H3); [|reflexivity]. inj E. apply i_seq in H as (x & y3 & k2 & E & H & H2); [|reflexivity]. inj E.
    apply i_seq in H as (x & y2 & k1 & E & H & H1); [|reflexivity]. inj E. exists x, k1. split; [exact H|]. intros R.
    eapply (rp_olex (kws_hard "NOT")) in R; [|reflexivity| |exact H1]; [|intros r; eexists; reflexivity].
    eapply (rp_lex (kw_hard "BETWEEN")); [exact R|reflexivity| |exact H2]. intros r. eexists. reflexivity. }
  next H.
  { apply i_map in H as ([[[v n] a] t] & -> & H).
    apply i_seq in H as (x & y & k3 & E & H & H3); [|reflexivity]. inj E. apply i_seq in H as (x & y3 & k2 & E & H & H2); [|reflexivity]. inj E.
    apply i_seq in H as (x & y2 & k1 & E & H & H1); [|reflexivity]. inj E. exists x, k1. split; [exact H|]. intros R.
    eapply rp_olex in R; [| | |exact H1]; [|reflexivity|intros r; eexists; reflexivity].
    eapply (rp_lex (kw_hard "IN")); [exact R|reflexivity| |exact H2]. intros r. eexists. reflexivity. }
  next H.
  { apply i_map in H as ([[[v a] n] []] & -> & H).
    apply i_seq in H as (x & y & k3 & E & H & H3); [|reflexivity]. inj E. apply i_seq in H as (x & y3 & k2 & E & H & H2); [|reflexivity]. inj E.
    apply i_seq in H as (x & y2 & k1 & E & H & H1); [|reflexivity]. inj E. exists x, k1. split; [exact H|]. intros R.
    eapply (rp_lex (kw_hard "IS")); [exact R|reflexivity| |exact H1]. intros r. eexists. reflexivity. }
  next H.
  { apply i_map in H as ([[[v n] a] t] & -> & H).
    apply i_seq in H as (x & y & k3 & E & H & H3); [|reflexivity]. inj E. apply i_seq in H as (x & y3 & k2 & E & H & H2); [|reflexivity]. inj E.
    apply i_seq in H as (x & y2 & k1 & E & H & H1); [|reflexivity]. inj E. exists x, k1. split; [exact H|]. intros R.
    eapply rp_olex in R; [| | |exact H1]; [|reflexivity|intros r; eexists; reflexivity].
    eapply (rp_lex (kw_soft "LIKE")); [exact R|reflexivity| |exact H2]. intros r. eexists. reflexivity. }
  apply i_map in H as ([a q'] & -> & H). apply i_seq in H as (x & y & k & E & H & _); [|reflexivity]. inj E.
  apply i_lex in H as (r & H & _); [|reflexivity]. apply hard_ok in H as (w & c & r' & E & _ & U & C). exists w, c, r'. auto.
Qed.
Lemma bprim_first i p j : reads g_boolean_primary i p j ->
  match p with
  | BP_pred (P_exists _) => exists_at i
  | BP_pred _ => exists v k, reads p_venb i v k /\ ~ rp k
  | BP_sc s => exists r k2, skip i = "("%char :: r /\ reads p_sc (skip r) s k2 /\ reads (lit ")") k2 tt j
  | BP_val v => reads p_venb i v j
  end.
Proof.
  intros H. next H.
  - apply i_map in H as (q & -> & H). now apply pred_value in H.
  - next H.
    + apply i_parens in H as (s & k1 & k2 & -> & O & H & C); [|reflexivity]. apply lit_lp in O as (r & O & ->). exists r, k2. auto.
    + apply i_map in H as (v & -> & H). exact H.
Qed.

(** ** Conditions that are read as values *)
Section Values.
(** a condition on factors under which a NOT in front of one stands in the text as a word of its own *)
Variable R : bfac -> Prop.
Hypothesis real_not : forall i n p j, R (BF n p) -> n <> [] -> reads g_boolean_factor i (BF n p) j -> exists r, srun (kws_soft ["NOT"%string]) [] (skip i) = SOk n r.
Fixpoint spine (s : sc) : Prop :=
  match s with
  | SC_f (BF n p) => R (BF n p) /\ match p with BP_sc s' => spine s' | _ => True end
  | SC_t (BF n p) _ _ => R (BF n p) /\ match p with BP_sc s' => spine s' | _ => True end
  end.

(** the factor behind a NOT that is not there is read at the same place *)
Lemma plain_fac i p j : reads g_boolean_factor i (BF [] p) j -> reads g_boolean_primary i p j.
Proof.
  intros H. apply bfac_inv in H as [(r & E & H)|[_ H]]; [|exact H]. exfalso. apply soft_ok in E as (s & c & r' & [<-|[]] & _ & _ & U & _). discriminate.
Qed.
Lemma not_fac i n p j v k : R (BF n p) -> reads g_boolean_factor i (BF n p) j -> reads p_venb i v k -> n = [].
Proof.
  intros Rf H V. destruct n as [|c n]; [reflexivity|exfalso]. destruct (venb_no_not _ _ _ V) as (n' & E). destruct (real_not _ _ _ _ Rf ltac:(discriminate) H) as (r & E'). congruence.
Qed.
Lemma ve_of_sc k s j : fails p_venb k -> reads p_sc k s j -> reads p_ve k (VE_sc s) j.
Proof. intros F H. apply r_ve. apply r_alt2; [reflexivity|now apply fails_map|]. eapply reads_map; [exact H|reflexivity]. Qed.
Lemma ve_of_venb k v j : reads p_venb k v j -> reads p_ve k (VE_nb v) j.
Proof. intros H. apply r_ve. apply reads_alt1. eapply reads_map; [exact H|reflexivity]. Qed.
Lemma throw_ve k : throws p_venb k -> throws p_ve k.
Proof. intros H. apply t_ve, t_alt1, t_map. exact H. Qed.
Lemma word_hd k o k2 : reads (PLex (kws_soft ["AND"; "OR"]%string)) k o k2 -> exists c, hd_of (skip k) = Some c /\ In c (Chars.L ")AaOoIi") /\ c <> ")"%char.
Proof.
  intros H. apply i_lex in H as (r & H & _); [|reflexivity]. apply soft_ok in H as (s & c & r' & I & E & _ & U & _). rewrite E.
  destruct o as [|a o]; [destruct I as [<-|[<-|[]]]; discriminate|]. exists a. split; [reflexivity|].
  assert (X : upc a = "A"%char \/ upc a = "O"%char) by (destruct I as [<-|[<-|[]]]; injection U as U _; auto). clear - X.
  destruct X as [X|X]; apply upc_cases in X as [->| ->]; cbn; split; auto 10; discriminate.
Qed.
Lemma and_no_rp k o k2 : reads (PLex (kws_soft ["AND"; "OR"]%string)) k o k2 -> ~ rp k.
Proof. intros H Rk. apply word_hd in H as (c & H & _ & N). rewrite (rp_hd _ Rk) in H. congruence. Qed.
Lemma shorter k r : skip k = "("%char :: r -> length (skip (skip r)) < length (skip k).
Proof. intros ->. rewrite skip_skip. cbn [length]. pose proof (skip_len r). lia. Qed.

Definition V_at (k : text) : Prop := forall s j, spine s -> reads p_sc k s j -> rp j -> is_value s = true -> throws p_ve k \/ exists v, reads p_ve k v j.
Definition D_at (k : text) : Prop := forall s j v j', spine s -> reads p_sc k s j -> rp j -> reads p_ve k v j' -> rp j' -> j = j' /\ is_value s = true.

Section Step.
Variable k : text.
Hypothesis IHV : forall k', length (skip k') < length (skip k) -> V_at k'.
Hypothesis IHD : forall k', length (skip k') < length (skip k) -> D_at k'.
Lemma lit_is_rp k2 e : reads (lit ")") k2 tt e -> rp k2.
Proof. intros H. apply lit_rp in H as (r & H & _). now exists r. Qed.
Lemma paren_reads r s k2 e v j : skip k = "("%char :: r -> spine s -> reads p_sc (skip r) s k2 -> reads (lit ")") k2 tt e -> reads p_venb k v j ->
  is_value s = true /\ exists idx e1 ts, reads (PStar g_array_index) e idx e1 /\ reads (PStar (g_term m)) e1 ts j.
Proof.
  intros P Sp H C V. destruct (paren_venb _ _ _ _ P V) as (a & k2' & e' & idx & e1 & ts & A & C' & X & T).
  destruct (IHD (skip r) (shorter _ _ P) s k2 a k2' Sp H (lit_is_rp _ _ C) A (lit_is_rp _ _ C')) as [<- I]. split; [exact I|]. same C C'. eauto.
Qed.
Lemma paren_live r s k2 e : skip k = "("%char :: r -> spine s -> reads p_sc (skip r) s k2 -> reads (lit ")") k2 tt e -> is_value s = true -> live p_venb k.
Proof.
  intros P Sp H C I F. destruct (paren_fail _ _ P F) as [F1 F2].
  destruct (IHV (skip r) (shorter _ _ P) s k2 Sp H (lit_is_rp _ _ C) I) as [T|(v & T)]; [exact (F2 T)|exact (F1 _ _ T (lit_is_rp _ _ C))].
Qed.
Lemma V_step : V_at k.
Proof.
  intros s j Sp H C I. destruct (some_outcome m p_venb k eq_refl) as [(v & j0 & V)|[F|T]]; [|right; exists (VE_sc s); now apply ve_of_sc|left; now apply throw_ve].
  right. exists (VE_nb v). cut (j0 = j); [intros <-; now apply ve_of_venb|]. destruct s as [[n p]|[n p] o s]; destruct Sp as [Rf Sp].
  - apply sc_one in H as [_ H]. pose proof (not_fac _ _ _ _ _ _ Rf H V) as ->. apply plain_fac in H. apply bprim_first in H. destruct p as [q|s|v'].
    + destruct q; try discriminate I. exfalso. exact (exists_no_value _ _ _ V H).
    + destruct H as (r & k2 & P & H & C2). destruct (paren_reads _ _ _ _ _ _ P Sp H C2 V) as (_ & idx & e1 & ts & X & T).
      pose proof (tail_stop _ _ _ _ _ _ (rp_hd _ C) (or_introl eq_refl) X T) as ->. apply lit_rp in C2 as (r2 & _ & ->). apply skip_skip.
    + same V H. reflexivity.
  - apply sc_more in H as (k1 & k2 & H & _ & _). pose proof (not_fac _ _ _ _ _ _ Rf H V) as ->. apply plain_fac in H. apply bprim_first in H. destruct p as [q|s'|v']; [| |discriminate I].
    + destruct q; try discriminate I. exfalso. exact (exists_no_value _ _ _ V H).
    + destruct H as (r & k2' & P & H & C2). destruct (paren_reads _ _ _ _ _ _ P Sp H C2 V) as (I' & _). cbn in I. rewrite I' in I. discriminate.
Qed.
Lemma D_step : D_at k.
Proof.
  intros s j v j' Sp H C V C'. destruct v as [v|s2].
  - apply ve_val in V. destruct s as [[n p]|[n p] o s]; destruct Sp as [Rf Sp].
    + apply sc_one in H as [_ H]. pose proof (not_fac _ _ _ _ _ _ Rf H V) as ->. apply plain_fac in H. pose proof (bprim_first _ _ _ H) as B. destruct p as [q|s|v'].
      * exfalso. destruct q; try (destruct B as (vv & kk & VV & NN); same V VV; contradiction). exact (exists_no_value _ _ _ V B).
      * split; [|reflexivity]. destruct B as (r & k2 & P & B & C2). destruct (paren_reads _ _ _ _ _ _ P Sp B C2 V) as (_ & idx & e1 & ts & X & T).
        pose proof (tail_stop _ _ _ _ _ _ (rp_hd _ C) (or_introl eq_refl) X T) as ->. apply lit_rp in C2 as (r2 & _ & ->). symmetry. apply skip_skip.
      * same V B. auto.
    + apply sc_more in H as (k1 & k2 & H & O & _). pose proof (not_fac _ _ _ _ _ _ Rf H V) as ->. apply plain_fac in H. pose proof (bprim_first _ _ _ H) as B. exfalso. destruct p as [q|s'|v'].
      * destruct q; try (destruct B as (vv & kk & VV & NN); same V VV; contradiction). exact (exists_no_value _ _ _ V B).
      * destruct B as (r & k2' & P & B & C2). destruct (paren_reads _ _ _ _ _ _ P Sp B C2 V) as (_ & idx & e1 & ts & X & T).
        destruct (word_hd _ _ _ O) as (c & Hc & Ic & _). pose proof (tail_stop _ _ _ _ _ _ Hc Ic X T) as ->. apply (and_no_rp _ _ _ O). revert C'. unfold rp. now rewrite skip_skip.
      * same V B. exact (and_no_rp _ _ _ O C').
  - apply ve_cond in V as [F V]. same H V. split; [reflexivity|]. rename s2 into s. destruct s as [[n p]|[n p] o s]; destruct Sp as [Rf Sp].
    + destruct n as [|c n]; [|reflexivity]. apply sc_one in H as [_ H]. apply plain_fac in H. pose proof (bprim_first _ _ _ H) as B. destruct p as [q|s|v']; [|reflexivity|clash B F].
      destruct q; try (destruct B as (vv & kk & VV & NN); clash VV F). reflexivity.
    + destruct n as [|c n]; [|reflexivity]. apply sc_more in H as (k1 & k2 & H & _ & _). apply plain_fac in H. pose proof (bprim_first _ _ _ H) as B. destruct p as [q|s'|v']; [| |clash B F].
      * destruct q; try (destruct B as (vv & kk & VV & NN); clash VV F). reflexivity.
      * destruct B as (r & k2' & P & B & C2). cbn. destruct (is_value s') eqn:I; [|reflexivity]. exfalso. exact (paren_live _ _ _ _ P Sp B C2 I F).
Qed.
End Step.
Lemma VD : forall k, V_at k /\ D_at k.
Proof.
  intros k. assert (G : forall N k, length (skip k) < N -> V_at k /\ D_at k); [|apply (G (S (length (skip k)))); lia].
  intros N. induction N as [|N IH]; [lia|]. intros k' Hk. split; [apply V_step|apply D_step]; intros k2 H2; apply IH; lia.
Qed.
Lemma not_value i s j : reads p_ve i (VE_sc s) j -> spine s -> no_value s = true.
Proof.
  intros H Sp. apply ve_cond in H as [F H].
  assert (G : forall n p j, R (BF n p) -> match p with BP_sc s' => spine s' | _ => True end -> reads g_boolean_factor i (BF n p) j -> no_value_f (BF n p) = true).
  { intros n p j' Rf Sf Hf. destruct n as [|c n]; [|reflexivity]. apply plain_fac in Hf. pose proof (bprim_first _ _ _ Hf) as B. destruct p as [q|s'|v']; [| |clash B F].
    - destruct q; try (destruct B as (vv & kk & VV & NN); clash VV F). reflexivity.
    - destruct B as (r & k2' & P & B & C2). cbn. destruct (is_value s') eqn:I; [|reflexivity]. exfalso.
      refine (paren_live i _ r s' k2' j' P Sf B C2 I F). intros k' _. apply VD. }
  destruct s as [[n p]|[n p] o s]; destruct Sp as [Rf Sf]; cbn [no_value].
  - apply sc_one in H as [_ H]. eauto.
  - apply sc_more in H as (k1 & k2 & H & _). eauto.
Qed.
End Values.

(** ** Joins *)
Lemma suf_inv i nat ty t sp j : reads g_join_suffix i (JS nat ty t sp) j ->
  exists kt k, reads p_tref kt t k /\ ((sp = None /\ fails g_join_specification k /\ j = skip k) \/ exists s, sp = Some s /\ reads g_join_specification k s j).
Proof.
  intros H. apply i_map in H as ([[[n ty'] u] [t' sp']] & E & H). cbn beta iota in E. inj E.
  apply i_exp in H as (x & y & kt & E & _ & H); [|reflexivity]. inj E. apply i_seq in H as (t1 & sp1 & k & E & H & S); [|reflexivity]. inj E.
  exists kt, k. split; [exact H|]. apply i_opt in S as [(s & -> & S)|(-> & F & ->)]; eauto.
Qed.
Lemma suf_inner i c x t sp j : reads g_join_suffix i (JS false (JTy_plain (c :: x)) t sp) j -> exists b r, upper (c :: x) = Chars.L "INNER" /\ skip i = (c :: x) ++ b :: r.
Proof.
  intros H. apply i_map in H as ([[[n ty'] u] [t' sp']] & E & H). cbn beta iota in E. injection E as En Ety Et Es. subst.
  apply i_exp in H as (x1 & y & kt & E & H & _); [|reflexivity]. inj E. apply i_seq in H as (x1 & u' & k & E & H & _); [|reflexivity]. inj E.
  apply i_seq in H as (n' & ty1 & k1 & E & Hn & H); [|reflexivity]. inj E. apply i_opt in Hn as [(s & -> & _)|(-> & _ & ->)]; [discriminate|].
  apply i_opt in H as [(ty & -> & H)|(-> & _)]; [|discriminate]. cbn [odef] in Ety. subst ty.
  apply i_alt in H as [H|[_ H]]; [| |reflexivity]; [|apply i_map in H as ([? ?] & E & _); discriminate]. apply i_map in H as (w & E & H). injection E as ->.
  apply i_lex in H as (r & H & _); [|reflexivity]. apply soft_ok in H as (s & b & r' & [<-|[]] & H & _ & U & _). rewrite skip_skip in H. rewrite H. eauto.
Qed.
Lemma star_last ss : forall i j, reads (PStar g_join_suffix) i ss j -> fails g_join_suffix j /\ (forall pre nat ty t, ss = pre ++ [JS nat ty t None] -> fails g_join_specification j).
Proof.
  induction ss as [|s ss IH]; intros i j H; apply i_star in H as [(E & F & ->)|(v & vs & k & E & H1 & H)]; try discriminate; [|reflexivity| |reflexivity].
  - split; [eapply fails_same; [reflexivity| |exact F]; symmetry; apply skip_skip|]. intros [|? ?]; discriminate.
  - inj E. destruct (IH _ _ H) as [A B]. split; [exact A|]. intros [|p pre] nat ty t E; [|injection E as _ E; eauto].
    injection E as -> ->. apply i_star in H as [(_ & _ & ->)|(v & vs & k' & E & _)]; [|discriminate|reflexivity]. apply suf_inv in H1 as (kt & k1 & _ & [(_ & F & ->)|(s & E & _)]); [|discriminate].
    eapply fails_same; [reflexivity| |exact F]. now rewrite !skip_skip.
Qed.
Lemma plus_last ss i j : reads (PPlus g_join_suffix) i ss j -> fails g_join_suffix j /\ (forall pre nat ty t, ss = pre ++ [JS nat ty t None] -> fails g_join_specification j).
Proof.
  intros H. apply i_plus in H as (v & vs & k & -> & H1 & H); [|reflexivity]. apply (star_last (v :: vs) i). eapply r_star; [reflexivity|exact H1|exact H].
Qed.
Lemma jt_join i h ss j : reads p_jt i (JT_q (QJ h ss)) j -> exists k, reads (PPlus g_join_suffix) k ss j.
Proof.
  intros H. apply i_jt in H. apply i_alt in H as [H|[_ H]]; [| |reflexivity]; [|bad H]. apply i_map in H as ([h' s'] & E & H). inj E.
  apply i_seq in H as (h1 & s1 & k & E & _ & H); [|reflexivity]. inj E. eauto.
Qed.
Lemma tref_jt i x j : reads p_tref i (TR_jt x) j -> reads p_jt i x j.
Proof.
  intros H. apply i_tref in H. next H; [apply i_map in H as (y & E & H); inj E; exact H|]. next H; [bad H|]. next H; bad H.
Qed.
Lemma closed_suf i nat ty t s j : reads g_join_suffix i (JS nat ty t (Some s)) j -> takes_spec t = false.
Proof.
  intros H. apply suf_inv in H as (kt & k & T & [(E & _)|(s' & E & S)]); [discriminate|]. inj E.
  destruct t as [| [[h ss]|]| |]; try reflexivity. cbn [takes_spec]. destruct (rev ss) as [|[nat' ty' t' [sp|]] pre] eqn:Rv; try reflexivity. exfalso.
  assert (Es : ss = rev pre ++ [JS nat' ty' t' None]) by (rewrite <- (rev_involutive ss), Rv; reflexivity).
  apply tref_jt in T. apply jt_join in T as (k' & T). apply plus_last in T as [_ T]. specialize (T _ _ _ _ Es). clash S T.
Qed.
Lemma l_plus {A : Set} (a : PE A) i v k : chk a -> reads a i v k -> live (PPlus a) i.
Proof. intros C H F. apply f_plus in F. exact (reads_fails m _ _ _ _ C H F). Qed.
Lemma join_taken i t k s j : reads p_tref i t k -> reads g_join_suffix k s j -> takes_joins t = false.
Proof.
  intros T S. destruct (takes_joins t) eqn:E; [exfalso|reflexivity]. apply i_tref in T. apply i_alt in T as [T|[F T]]; [| |reflexivity].
  - apply i_map in T as (x & -> & T). apply i_jt in T. apply i_alt in T as [T|[F T]]; [| |reflexivity].
    + apply i_map in T as ([h' s'] & _ & T). apply i_seq in T as (h1 & s1 & k' & E' & _ & T); [|reflexivity]. inj E'. apply plus_last in T as [T _]. clash S T.
    + apply i_map in T as (y & -> & T). apply f_map in F. apply f_seq in F as [F|(h & k' & H & F)]; [| |reflexivity].
      * apply f_alt in F as [F _]; [|reflexivity]. apply f_map in F. clash T F.
      * apply i_alt in H as [H|[F2 H]]; [| |reflexivity]; [apply i_map in H as (y' & _ & H); same T H; apply f_plus in F; clash S F|apply f_map in F2; clash T F2].
  - apply f_map, f_jt in F. apply f_alt in F as [F F2]; [|reflexivity]. apply f_map in F2. next T; [|next T; apply i_map in T as (x & -> & _); repeat match goal with p : prod _ _ |- _ => destruct p end; discriminate].
    apply i_map in T as (x & _ & T). apply f_map in F. apply f_seq in F as [F|(h & k' & H & F)]; [| |reflexivity].
    + apply f_alt in F as [_ F]; [|reflexivity]. apply f_map in F. clash T F.
    + next H; apply i_map in H as (y' & _ & H); [clash H F2|]. same T H. apply f_plus in F. clash S F.
Qed.

Section Inner.
Variable R : bfac -> Prop.
Hypothesis real_not : forall i n p j, R (BF n p) -> n <> [] -> reads g_boolean_factor i (BF n p) j -> exists r, srun (kws_soft ["NOT"%string]) [] (skip i) = SOk n r.
Notation spine := (spine R).
(** the end of a condition in parentheses, when it ends in parentheses *)
Fixpoint ending (s : sc) : Prop := match s with SC_f f => ending_f f | SC_t _ _ s' => ending s' end
with ending_f (f : bfac) : Prop := match f with BF _ p => ending_p p end
with ending_p (p : bprim) : Prop := match p with BP_pred q => ending_pred q | BP_sc s => spine s | BP_val _ => True end
with ending_pred (q : pred) : Prop := match q with P_cmp _ _ r => ending_ve r | P_between _ _ _ hi => ending_ve hi | _ => True end
with ending_ve (v : ve) : Prop := match v with VE_nb _ => True | VE_sc s => ending s end.

Definition inner_at (k : text) : Prop := exists x r, skip k = x ++ r /\ upper x = Chars.L "INNER".
Lemma inner_letters k : inner_at k -> exists a b c r, skip k = a :: b :: c :: r /\ (a = "I" \/ a = "i")%char /\ (b = "N" \/ b = "n")%char /\ (c = "N" \/ c = "n")%char.
Proof.
  intros (x & r & E & U). destruct x as [|a [|b [|c x]]]; try discriminate U. injection U as Ua Ub Uc _. rewrite E. exists a, b, c, (x ++ r).
  split; [reflexivity|]. apply upc_cases in Ua, Ub, Uc. auto.
Qed.
Lemma inner_throws i v k : reads p_venb i v k -> inner_at k -> live g_predicate i.
Proof.
  intros V I F. apply f_alt in F as [_ F]; [|reflexivity]. apply f_alt in F as [_ F]; [|reflexivity]. apply f_alt in F as [F _]; [|reflexivity]. apply f_map in F.
  destruct (inner_letters _ I) as (a & b & c & r & E & A & B & C).
  assert (Th : exists x, srun (kw_hard "IN") [] (skip k) = SThrow x).
  { rewrite E. destruct A as [-> | ->], B as [-> | ->], C as [-> | ->]; eexists; reflexivity. }
  assert (No : exists x, srun (SExp (SStr true (Chars.L "NOT")) (SChr is_space)) [] (skip k) = SFail x).
  { rewrite E. destruct A as [-> | ->]; eexists; reflexivity. }
  destruct Th as (x & Th), No as (y & No).
  assert (G : forall n k', reads (p_venb >> POptLex (SExp (SStr true (Chars.L "NOT")) (SChr is_space))) i n k' -> k' = skip k).
  { intros n k' H. apply i_seq in H as (v' & n' & k1 & _ & V' & H); [|reflexivity]. same V V'. apply i_olex in H as [(r' & H & _)|(_ & ->)]; [congruence|reflexivity|reflexivity]. }
  apply f_seq in F as [F|(z & k' & H & F)]; [| |reflexivity].
  - apply f_seq in F as [F|(z & k' & H & F)]; [| |reflexivity].
    + apply f_seq in F as [F|(z & k' & H & F)]; [clash V F|now apply f_olex in F|reflexivity].
    + apply G in H as ->. apply f_lex in F as (a' & F); [|reflexivity]. rewrite skip_skip in F. congruence.
  - apply i_seq in H as (n & u & k1 & _ & H & H1); [|reflexivity]. apply G in H as ->. apply i_lex in H1 as (r' & H1 & _); [|reflexivity]. rewrite skip_skip in H1. congruence.
Qed.
Lemma bprim_no_pred i p j : reads g_boolean_primary i p j -> match p with BP_pred _ => True | _ => fails g_predicate i end.
Proof.
  intros H. apply i_alt in H as [H|[F H]]; [| |reflexivity]; [apply i_map in H as (q & -> & _); exact I|]. apply f_map in F. now destruct p.
Qed.
Lemma throw_pred i : throws p_venb i -> throws g_predicate i.
Proof. intros T. apply t_alt1, t_map, t_seq1, t_seq1. exact T. Qed.
Lemma bare_inner s : forall i k, reads p_sc i s k -> bare s = true -> ending s -> inner_at k -> False
with bare_inner_ve v : forall i k, reads p_ve i v k -> bare_ve v = true -> ending_ve v -> inner_at k -> False.
Proof.
  - destruct s as [[n p]|f o s]; intros i k H B E I.
    + apply sc_one in H as [_ H]. apply bfac_prim in H as (i' & H). cbn [bare bare_f] in B. cbn [ending ending_f] in E. destruct p as [q|s'|v].
      * apply bprim_pred in H. cbn [bare_p] in B. cbn [ending_p] in E. destruct q as [l o r|v n' lo hi| | | |]; try discriminate B; cbn [bare_pred] in B; cbn [ending_pred] in E.
        -- apply pred_cmp in H as (? & k2 & _ & _ & H). exact (bare_inner_ve r _ _ H B E I).
        -- apply pred_between in H as (? & ? & ? & ? & k5 & ? & ? & _ & _ & _ & _ & _ & H). exact (bare_inner_ve hi _ _ H B E I).
      * pose proof (bprim_no_pred _ _ _ H) as F. apply bprim_first in H as (r & k2 & P & H & C). cbn [bare_p] in B. cbn [ending_p] in E.
        assert (L : live p_venb i') by (refine (paren_live R i' _ r s' k2 k P E H C B); intros k' _; apply (VD R real_not)).
        apply live_or in L as [(v & j0 & V)|T]; [| |reflexivity].
        -- refine (inner_throws i' v k _ I F). refine (let (_, X) := paren_reads R i' _ r s' k2 k v j0 P E H C V in _). { intros k' _. apply (VD R real_not). }
           destruct X as (idx & e1 & ts & X & T). destruct (inner_letters _ I) as (a & b & c & r' & Ek & A & _).
           assert (j0 = skip k) as ->. { eapply (tail_stop a); [rewrite Ek; reflexivity| |exact X|exact T]. destruct A as [-> | ->]; cbn; auto 10. }
           apply lit_rp in C as (r2 & _ & ->). rewrite skip_skip in V. exact V.
        -- apply throw_pred in T. eapply fails_throws; [|exact F|exact T]. reflexivity.
      * pose proof (bprim_no_pred _ _ _ H) as F. apply bprim_first in H. exact (inner_throws _ _ _ H I F).
    + apply sc_more in H as (k1 & k2 & _ & _ & H). exact (bare_inner s _ _ H B E I).
  - destruct v as [v|s]; intros i k H B E I; [discriminate B|]. apply ve_cond in H as [_ H]. exact (bare_inner s _ _ H B E I).
Qed.
Definition ending_suf (s : jsuf) : Prop := match s with JS _ _ _ (Some (JSp_on s)) => ending s | _ => True end.
Lemma spec_on i s j : reads g_join_specification i (JSp_on s) j -> exists k, reads p_sc k s j.
Proof.
  intros H. next H; [|bad H]. apply i_map in H as ([u s'] & E & H). inj E. apply i_seq in H as (u' & s1 & k & E & _ & H); [|reflexivity]. inj E. eauto.
Qed.
Lemma two_joins i s1 k s2 j : reads g_join_suffix i s1 k -> reads g_join_suffix k s2 j -> ending_suf s1 -> joins_in_turn s1 s2 = true.
Proof.
  intros H1 H2 E. destruct s1 as [nat1 ty1 t sp], s2 as [nat ty t2 sp2]. cbn [joins_in_turn]. apply suf_inv in H1 as (kt & k1 & T & [(-> & _ & ->)|(s & -> & H1)]).
  - apply negb_true_iff. eapply join_taken; [exact T|]. eapply reads_same; [reflexivity|apply skip_skip|exact H2].
  - destruct s as [l|s]; [reflexivity|]. apply negb_true_iff. destruct (bare s) eqn:B; [|reflexivity]. destruct nat; [reflexivity|]. destruct ty as [[|c x]|]; try reflexivity. exfalso.
    apply spec_on in H1 as (k' & H1). apply suf_inner in H2 as (b & r & U & H2). refine (bare_inner s _ _ H1 B E _). exists (c :: x), (b :: r). auto.
Qed.
Lemma star_turn ss : forall s i k j, reads g_join_suffix i s k -> reads (PStar g_join_suffix) k ss j -> Forall ending_suf (s :: ss) -> in_turn (s :: ss) = true.
Proof.
  induction ss as [|s2 ss IH]; intros s i k j H1 H F; [reflexivity|]. apply i_star in H as [(E & _)|(v & vs & k2 & E & H2 & H)]; [discriminate| |reflexivity]. inj E.
  inversion F; subst. change (joins_in_turn s v && in_turn (v :: vs) = true). rewrite (IH v k k2 j H2 H) by assumption. rewrite andb_true_r. eapply two_joins; eauto.
Qed.
Lemma jt_turn i h ss j : reads p_jt i (JT_q (QJ h ss)) j -> Forall ending_suf ss -> in_turn ss = true.
Proof.
  intros H F. apply jt_join in H as (k & H). apply i_plus in H as (v & vs & k' & -> & H1 & H); [|reflexivity]. eapply star_turn; eauto.
Qed.
End Inner.

End Greedy.
