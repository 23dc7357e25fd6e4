(** Conditions on geometries: printed conditions on geometries are read back, and other printed conditions are not taken for conditions on geometries. *)
From Verif Require Import Query Grammar Print PegProps PegSpec PegEquiv TextLemmas SpecLexical LexProofs LexProofs2 First Calc Look Tight Operand TopProofs SpecCanon AstInd PrintEq CanonBase CanonLex CanonGeo CanonHead CanonLead CanonFun CanonPrim CanonVal CanonCond CanonJt.

Section Geom.
Variable m : text -> option text.
Variable fmt : text -> text.
Notation reads := (reads m).
Notation fails := (fails m).

(** ** Printed values that begin with a digit *)
Definition nodig (t : text) : Prop := exists c r, t = c :: r /\ is_digit c || Ascii.eqb c "(" = false.
Definition tok (c : ascii) : bool := negb (is_space c) && negb (Ascii.eqb c "=").
(** behind a leading digit comes neither a blank nor an equals sign *)
Definition one (t : text) : Prop := nodig t \/ exists c r, t = c :: r /\ Ascii.eqb c "(" = false /\ match r with [] => True | d :: _ => tok d = true end.
Lemma letter_nodig c r : is_letter c = true -> nodig (c :: r).
Proof. intros H. exists c, r. split; [reflexivity|]. revert H. clear. destruct c as [[] [] [] [] [] [] [] []]; vm_compute; congruence. Qed.
Lemma word_nodig w r : word w -> nodig (w ++ r).
Proof. intros W. destruct (word_starts w W) as (c & t & -> & H). now apply letter_nodig. Qed.
Lemma listed_nodig w ws r : forallb (fun u => is_word (L u)) ws = true -> one_of_nc w ws = true -> nodig (w ++ r).
Proof. intros F H. apply one_of_nc_iff in H. apply word_nodig. eapply listed_word; eauto. Qed.
Lemma name_nodig n r : name n -> nodig (n ++ r).
Proof. intros [[W _]|D]; [now apply word_nodig|]. destruct (delimited_starts _ D) as (b & ->). eexists _, _. split; reflexivity. Qed.
Lemma nodig_app t u : nodig t -> nodig (t ++ u).
Proof. intros (c & r & -> & H). exists c, (r ++ u). auto. Qed.
Lemma nvf_nodig f : c_nvf fmt f = true -> nodig (pr_nvf fmt f).
Proof.
  intros C. destruct f.
  - rewrite c_nvf_NV_trig1 in C. rewrite pr_nvf_NV_trig1. ands. eapply listed_nodig; [|eassumption]; reflexivity.
  - rewrite c_nvf_NV_trig2 in C. rewrite pr_nvf_NV_trig2. ands. eapply listed_nodig; [|eassumption]; reflexivity.
  - rewrite c_nvf_NV_math0 in C. rewrite pr_nvf_NV_math0. ands. eapply listed_nodig; [|eassumption]; reflexivity.
  - rewrite c_nvf_NV_math1 in C. rewrite pr_nvf_NV_math1. ands. eapply listed_nodig; [|eassumption]; reflexivity.
  - rewrite c_nvf_NV_math2 in C. rewrite pr_nvf_NV_math2. ands. eapply listed_nodig; [|eassumption]; reflexivity.
  - rewrite pr_nvf_NV_cast. eexists _, _. split; reflexivity.
  - rewrite c_nvf_NV_geo1 in C. rewrite pr_nvf_NV_geo1. ands. match goal with H : one_of_nc f ?ws = true |- _ => rewrite (one_of_nc_nonempty f ws eq_refl H) end. eapply listed_nodig; [|eassumption]; reflexivity.
  - rewrite c_nvf_NV_geo2 in C. rewrite pr_nvf_NV_geo2. ands. match goal with H : one_of_nc f ?ws = true |- _ => rewrite (one_of_nc_nonempty f ws eq_refl H) end. eapply listed_nodig; [|eassumption]; reflexivity.
  - rewrite c_nvf_NV_udf in C. rewrite pr_nvf_NV_udf. apply andb_true_iff in C as [C _]. apply orb_true_iff in C as [C|C]; [|eapply listed_nodig; [|eassumption]; reflexivity]. ands. apply free_word_ok in H as [W _]. now apply word_nodig.
  - rewrite c_nvf_NV_str in C. rewrite pr_nvf_NV_str, <- (app_nil_r s). eapply listed_nodig; [|eassumption]; reflexivity.
Qed.
Lemma digits_tok t : digits t -> Forall (fun c => tok c = true) t.
Proof. intros [_ H]. eapply Forall_impl; [|exact H]. intros c D. apply is_digit_iff in D. revert D. clear. destruct c as [[] [] [] [] [] [] [] []]; vm_compute; congruence. Qed.
Lemma number_tok s : number s -> Forall (fun c => tok c = true) s.
Proof.
  assert (M : forall t, mantissa t -> Forall (fun c => tok c = true) t).
  { intros t [H|[(a & b & -> & A & B)|(b & -> & B)]]; [now apply digits_tok|apply Forall_app; split; [now apply digits_tok|]|]; (constructor; [reflexivity|now apply digits_tok]). }
  intros [H|(a & b & -> & A & (e & g & d & -> & E & G & D))]; [now apply M|]. apply Forall_app. split; [now apply M|]. constructor; [now destruct E as [-> | ->]|]. apply Forall_app. split; [|now apply digits_tok].
  destruct G as [->|[-> | ->]]; repeat constructor.
Qed.
Lemma number_one t : number t -> one t.
Proof.
  intros N. pose proof (number_tok t N) as H. destruct (number_starts _ N) as (c & r & -> & D). inversion_clear H as [|? ? _ H']. right. exists c, r. split; [reflexivity|]. split; [|destruct H'; auto].
  destruct D as [D| ->]; [|reflexivity]. revert D. clear. destruct c as [[] [] [] [] [] [] [] []]; vm_compute; congruence.
Qed.
Lemma one_app t u : one t -> match u with [] => True | d :: _ => tok d = true end -> one (t ++ u).
Proof. intros [H|(c & r & -> & Z & H)] U; [left; now apply nodig_app|]. right. exists c, (r ++ u). split; [reflexivity|]. split; [exact Z|]. destruct r; [exact U|exact H]. Qed.
Lemma vepv_one v : c_vepv fmt v = true -> (exists a, v = VP_sub a) \/ one (pr_vepv fmt v).
Proof.
  intros C. destruct v; [..|left; eexists; reflexivity]. all: right.
  2: { rewrite c_vepv_VP_str in C. rewrite pr_vepv_VP_str. rewrite !orb_true_iff in C. destruct C as [[C|C]|C].
    - apply is_number_ok in C. now apply number_one.
    - apply is_quoted_ok in C as (b & -> & _). left. eexists _, _. split; reflexivity.
    - apply one_of_nc_iff in C. left. destruct s as [|c s]; [destruct C as [C|[C|[C|[C|[C|[C|[]]]]]]]; discriminate C|]. apply letter_nodig.
      destruct C as [C|[C|[C|[C|[C|[C|[]]]]]]]; cbn in C; injection C as C _; revert C; clear; destruct c as [[] [] [] [] [] [] [] []]; vm_compute; congruence. }
  all: left.
  - rewrite pr_vepv_VP_array. eexists _, _. split; reflexivity.
  - rewrite c_vepv_VP_col in C. rewrite pr_vepv_VP_col. apply (c_colref_ok is_value_name name) in C; [|intros x X; apply (value_name_ok x X)]. destruct c; cbn [cnames pr_colref] in *; try (apply name_nodig; apply C). rewrite <- (app_nil_r _). apply name_nodig. apply C.
  - rewrite c_vepv_VP_setstr in C. rewrite pr_vepv_VP_setstr. apply one_of_nc_iff in C as [C|[]]. destruct s as [|c s]; [discriminate|]. apply letter_nodig. cbn in C. injection C as C _. revert C. clear. destruct c as [[] [] [] [] [] [] [] []]; vm_compute; congruence.
  - rewrite c_vepv_VP_set in C. rewrite pr_vepv_VP_set. ands. eapply listed_nodig; [|eassumption]; reflexivity.
  - rewrite pr_vepv_VP_nullif. eexists _, _. split; reflexivity.
  - rewrite pr_vepv_VP_coalesce. eexists _, _. split; reflexivity.
  - rewrite pr_vepv_VP_case. eexists _, _. split; reflexivity.
  - rewrite pr_vepv_VP_scase. eexists _, _. split; reflexivity.
  - rewrite pr_vepv_VP_any. eexists _, _. split; reflexivity.
Qed.
Lemma venb_one v : c_venb fmt v = true -> (exists a u, pr_venb fmt v = L "(" ++ pr_ve fmt a ++ L ")" ++ u /\ c_ve fmt a = true) \/ one (pr_venb fmt v).
Proof.
  intros C. destruct v as [[s p] ts]. rewrite c_venb_VENB in C. rewrite pr_venb_VENB, pr_factor_Factor. apply andb_true_iff in C as [C _]. apply andb_true_iff in C as [C T].
  rewrite c_factor_Factor in C. apply andb_true_iff in C as [Cs C]. apply one_of_iff in Cs. destruct Cs as [<-|[<-|[<-|[]]]]; [|right; left; eexists _, _; split; reflexivity..].
  cbn [app L list_ascii_of_string].
  assert (U : match concat (map (pr_vterm fmt) ts) with [] => True | d :: _ => tok d = true end).
  { destruct ts as [|[op f] ts]; [exact I|]. cbn [map concat forallb] in *. apply andb_true_iff in T as [T _]. rewrite c_vterm_VTerm in T. rewrite pr_vterm_VTerm. apply andb_true_iff in T as [T _].
    apply one_of_iff in T. destruct T as [<-|[<-|[<-|[<-|[<-|[]]]]]]; reflexivity. }
  destruct p as [[v idx]|f].
  - rewrite c_nprim_NP_vep, c_vep_VEP in C. rewrite pr_nprim_NP_vep, pr_vep_VEP. apply andb_true_iff in C as [C _]. apply andb_true_iff in C as [C _]. destruct (vepv_one v C) as [(a & ->)|O].
    + left. rewrite pr_vepv_VP_sub. rewrite c_vepv_VP_sub in C. exists a. eexists. split; [|exact C]. now rewrite <- !app_assoc.
    + right. apply one_app; [|exact U]. apply one_app; [exact O|]. now destruct idx.
  - rewrite c_nprim_NP_nvf in C. rewrite pr_nprim_NP_nvf. right. left. now apply nodig_app, nvf_nodig.
Qed.

(** ** Other conditions are not conditions on geometries *)
Definition nogeo (t : text) : Prop := forall i, skip i = skip t -> fails (g_geometry m) i.
Definition oneq (t : text) : Prop := forall c r x, t = c :: r -> is_digit c = true -> skip r = "="%char :: x -> exists y, skip x = skip y /\ lead y.
Definition noeq (k : text) : Prop := match skip k with c :: _ => Ascii.eqb c "=" = false | [] => True end.
Lemma lead_nogp t i : lead t -> skip i = skip t -> fails (g_contains m <|> g_intersects m) i.
Proof.
  intros H E. apply fails_alt.
  - apply fails_map. do 4 apply fails_exp1. eapply lead_no_call; [exact H|reflexivity..|exact E].
  - intros r Hr. rewrite E in Hr. apply fails_map. do 4 apply fails_exp1. eapply lead_no_call; [exact H|reflexivity..|exact Hr].
Qed.
Lemma lead_nogeo t : lead t -> oneq t -> nogeo t.
Proof.
  intros H O i E. apply fails_alt.
  - apply fails_map. pose proof (lead_dark t H) as D. rewrite (dark_skip0 _ D) in E. destruct (lead_hd t H) as (c & r & -> & _). destruct (is_digit c) eqn:Dc.
    + assert (F : srun s_char_flag [] (c :: r) = SOk [c] r \/ exists a, srun s_char_flag [] (c :: r) = SFail a) by (cbn; destruct (Ascii.eqb c "0"); [now left|]; destruct (Ascii.eqb c "1"); [now left|right; eauto]).
      destruct F as [F|(a & F)]; [|apply fails_seq1, fails_seq1; eapply fails_lex; [reflexivity|rewrite E; exact F]].
      assert (R : reads (PLex s_char_flag) i [c] (skip r)) by (eapply reads_lex; [reflexivity|rewrite E; exact F]).
      destruct (strip false (L "=") (skip r)) as [[z x]|] eqn:Er.
      * apply strip_cs_iff in Er as [-> Er]. destruct (O c r x eq_refl Dc Er) as (y & Y & LY). eapply fails_seq2; [eapply reads_seq; [exact R|]|].
        -- intros r2 H2. rewrite Er in H2. eapply reads_lit. rewrite H2. reflexivity.
        -- intros r2 H2. eapply lead_nogp; [exact LY|congruence].
      * apply fails_seq1. eapply fails_seq2; [exact R|]. intros r2 H2. apply fails_lit. now rewrite H2.
    + apply fails_seq1, fails_seq1. eapply first_byte; [exact E|]. revert Dc. clear. destruct c as [[] [] [] [] [] [] [] []]; vm_compute; congruence.
  - intros r Hr. apply fails_map, fails_seq1. eapply lead_nogp; [exact H|]. rewrite Hr. exact E.
Qed.
Lemma oneq_nodig t : nodig t -> oneq t.
Proof. intros (c & r & -> & H) c' r' x E D. injection E as <- <-. rewrite D in H. discriminate. Qed.
Lemma oneq_one t k : one t -> noeq k -> oneq (t ++ k).
Proof.
  intros [H|(c & r & -> & _ & H)] K; [now apply oneq_nodig, nodig_app|]. intros c' r' x E D S. cbn [app] in E. injection E as <- <-. exfalso. destruct r as [|d r].
  - unfold noeq in K. cbn [app] in S. rewrite S in K. discriminate.
  - unfold tok in H. apply andb_true_iff in H as [H1 H2]. apply negb_true_iff in H1, H2. cbn [app] in S. rewrite dark_skip0 in S by exact H1. injection S as -> _. discriminate.
Qed.
Lemma oneq_venb v k : c_venb fmt v = true -> noeq k -> oneq (pr_venb fmt v ++ k).
Proof.
  intros C K. destruct (venb_one v C) as [(a & u & E & _)|O]; [|now apply oneq_one]. rewrite E. intros c r x Y D. cbn in Y. injection Y as <- _. discriminate D.
Qed.
Lemma oneq_cmp t r : one t -> lead r -> oneq (t ++ L " = " ++ r).
Proof.
  intros [H|(c & t' & -> & _ & H)] K; [now apply oneq_nodig, nodig_app|]. intros c' r' x E D S. cbn [app] in E. injection E as <- <-. destruct t' as [|d t'].
  - cbn in S. injection S as <-. exists r. split; [reflexivity|exact K].
  - exfalso. unfold tok in H. apply andb_true_iff in H as [H1 H2]. apply negb_true_iff in H1, H2. cbn [app] in S. rewrite dark_skip0 in S by exact H1. injection S as -> _. discriminate.
Qed.
Lemma oneq_pred p k : c_pred fmt p = true -> stops word_char k -> oneq (pr_pred fmt p ++ k).
Proof.
  intros C K. destruct p as [l op r|v n lo hi|v n t|v n|v n p|q].
  - rewrite c_pred_P_cmp in C. rewrite pr_pred_P_cmp, <- !app_assoc. apply andb_true_iff in C as [C Cr]. apply andb_true_iff in C as [Cl Co]. apply one_of_iff in Co. cbn [map In] in Co. repeat (destruct Co as [<-|Co]); [|now apply oneq_venb..|destruct Co].
    destruct (venb_one l Cl) as [(a & u & E & _)|O].
    + rewrite E. intros c y x Y D. cbn in Y. injection Y as <- _. discriminate D.
    + apply (oneq_cmp (pr_venb fmt l) (pr_ve fmt r ++ k)); [exact O|]. now apply lead_all.
  - rewrite c_pred_P_between in C. rewrite pr_pred_P_between, <- !app_assoc. do 4 apply andb_true_iff in C as [C ?]. apply oneq_venb; [exact C|]. apply orb_true_iff in H2 as [N|N]; [destruct n; [reflexivity|discriminate]|].
    apply one_of_nc_iff in N as [N|[]]. destruct n as [|x n]; [discriminate|]. cbn in N. injection N as N _. unfold noeq. cbn. assert (is_space x = false /\ Ascii.eqb x "=" = false) as [-> Z]; [|exact Z].
    revert N. clear. destruct x as [[] [] [] [] [] [] [] []]; vm_compute; intros; try discriminate; auto.
  - rewrite c_pred_P_in in C. rewrite pr_pred_P_in, <- !app_assoc. do 2 apply andb_true_iff in C as [C ?]. apply oneq_venb; [exact C|]. now destruct (is_nil n).
  - rewrite c_pred_P_null in C. rewrite pr_pred_P_null, <- !app_assoc. apply andb_true_iff in C as [C ?]. apply oneq_venb; [exact C|]. now destruct (is_nil n).
  - rewrite c_pred_P_like in C. rewrite pr_pred_P_like, <- !app_assoc. do 3 apply andb_true_iff in C as [C ?]. apply oneq_venb; [exact C|]. now destruct (is_nil n).
  - rewrite pr_pred_P_exists. apply oneq_nodig. eexists _, _. split; reflexivity.
Qed.
Lemma oneq_bfac f k : c_bfac fmt f = true -> stops word_char k -> noeq k -> oneq (pr_bfac fmt f ++ k).
Proof.
  intros C S K. destruct f as [n p]. rewrite c_bfac_BF in C. rewrite pr_bfac_BF, <- app_assoc. apply andb_true_iff in C as [Cn C]. destruct n as [|x n].
  - cbn [nl_sp is_nil app]. destruct p as [p|s|v].
    + rewrite c_bprim_BP_pred in C. rewrite pr_bprim_BP_pred. now apply oneq_pred.
    + rewrite pr_bprim_BP_sc. intros c r y Y D. cbn in Y. injection Y as <- _. discriminate D.
    + rewrite c_bprim_BP_val in C. rewrite pr_bprim_BP_val. do 2 apply andb_true_iff in C as [C ?]. now apply oneq_venb.
  - cbn [is_nil] in Cn. cbn [nl_sp is_nil]. rewrite <- app_assoc. apply oneq_nodig. eapply listed_nodig; [|exact Cn]. reflexivity.
Qed.
Lemma sc_nogeo s k : c_sc fmt s = true -> stops word_char k -> noeq k -> nogeo (pr_sc fmt s ++ k).
Proof.
  intros C S K. apply lead_nogeo; [now apply lead_all|]. destruct s as [f|f op s].
  - rewrite pr_sc_f by exact C. rewrite c_sc_SC_f in C. now apply oneq_bfac.
  - rewrite pr_sc_t by exact C. rewrite c_sc_SC_t in C. do 3 apply andb_true_iff in C as [C ?]. rewrite <- !app_assoc. apply oneq_bfac; [exact C|now apply no_word_char|]. apply one_of_iff in H1. destruct H1 as [<-|[<-|[]]]; reflexivity.
Qed.
Lemma ve_nogeo v k : c_ve fmt v = true -> stops word_char k -> noeq k -> nogeo (pr_ve fmt v ++ k).
Proof.
  intros C S K. destruct v as [v|s].
  - apply lead_nogeo; [now apply lead_all|]. rewrite c_ve_VE_nb in C. rewrite pr_ve_VE_nb. now apply oneq_venb.
  - rewrite c_ve_VE_sc in C. rewrite pr_ve_VE_sc. apply andb_true_iff in C as [C ?]. now apply sc_nogeo.
Qed.
Definition noparen (t : text) : Prop := forall i, skip i = skip t -> fails (lit "(" >> g_geometry m) i.
Lemma noparen_head c t : is_space c || Ascii.eqb c "(" = false -> noparen (c :: t).
Proof.
  intros H i E. apply orb_false_iff in H as [S H]. rewrite (dark_skip0 (c :: t) S) in E. apply fails_seq1, fails_lit. rewrite E. apply strip1_no. intros <-. discriminate H.
Qed.
Lemma noparen_lead t c r : lead t -> t = c :: r -> Ascii.eqb c "(" = false -> noparen t.
Proof. intros H E C. pose proof (lead_dark t H) as D. subst t. apply noparen_head. cbn in D. now rewrite D, C. Qed.
Lemma noparen_in t : nogeo t -> noparen (L "(" ++ t).
Proof. intros H i E. eapply fails_seq2; [eapply rd_open; exact E|]. intros r Hr. now apply H. Qed.
Lemma noparen_venb v k : c_venb fmt v = true -> stops word_char k -> noparen (pr_venb fmt v ++ k).
Proof.
  intros C S. assert (LD : lead (pr_venb fmt v ++ k)) by now apply lead_all. destruct (venb_one v C) as [(a & u & E & A)|O].
  - rewrite E, <- !app_assoc. apply noparen_in. apply ve_nogeo; [exact A|now apply no_word_char|reflexivity].
  - destruct O as [(c & r & E & H)|(c & r & E & H & _)]; rewrite E in *; (eapply noparen_lead; [exact LD|reflexivity|]); [now apply orb_false_iff in H as [_ H]|exact H].
Qed.
Lemma noparen_bfac f k : c_bfac fmt f = true -> stops word_char k -> noparen (pr_bfac fmt f ++ k).
Proof.
  intros C S. assert (LD : lead (pr_bfac fmt f ++ k)) by now apply lead_all. destruct f as [n p]. rewrite c_bfac_BF in C. rewrite pr_bfac_BF, <- app_assoc in *. apply andb_true_iff in C as [Cn C]. destruct n as [|x n].
  - cbn [nl_sp is_nil app] in *. destruct p as [p|s|v].
    + rewrite c_bprim_BP_pred in C. rewrite pr_bprim_BP_pred in *. destruct p as [l op r|v n lo hi|v n t|v n|v n p|q].
      * rewrite c_pred_P_cmp in C. rewrite pr_pred_P_cmp, <- !app_assoc. do 2 apply andb_true_iff in C as [C ?]. apply noparen_venb; [exact C|now apply no_word_char].
      * rewrite c_pred_P_between in C. rewrite pr_pred_P_between, <- !app_assoc. do 4 apply andb_true_iff in C as [C ?]. apply noparen_venb; [exact C|now apply no_word_char].
      * rewrite c_pred_P_in in C. rewrite pr_pred_P_in, <- !app_assoc. do 2 apply andb_true_iff in C as [C ?]. apply noparen_venb; [exact C|now apply no_word_char].
      * rewrite c_pred_P_null in C. rewrite pr_pred_P_null, <- !app_assoc. do 1 apply andb_true_iff in C as [C ?]. apply noparen_venb; [exact C|now apply no_word_char].
      * rewrite c_pred_P_like in C. rewrite pr_pred_P_like, <- !app_assoc. do 3 apply andb_true_iff in C as [C ?]. apply noparen_venb; [exact C|]. destruct (is_nil n); now apply no_word_char.
      * rewrite pr_pred_P_exists. now apply noparen_head.
    + rewrite c_bprim_BP_sc in C. rewrite pr_bprim_BP_sc, <- !app_assoc. apply noparen_in. apply sc_nogeo; [exact C|now apply no_word_char|reflexivity].
    + rewrite c_bprim_BP_val in C. rewrite pr_bprim_BP_val. do 2 apply andb_true_iff in C as [C ?]. now apply noparen_venb.
  - cbn [is_nil] in Cn. cbn [nl_sp is_nil] in *. rewrite <- app_assoc in *. destruct (listed_nodig (x :: n) ["NOT"]%string (L " " ++ pr_bprim fmt p ++ k) eq_refl Cn) as (c & r & E & H). apply orb_false_iff in H as [_ H].
    eapply noparen_lead; [exact LD|exact E|exact H].
Qed.
Lemma sc_noparen s k : c_sc fmt s = true -> stops word_char k -> noparen (pr_sc fmt s ++ k).
Proof.
  intros C S. destruct s as [f|f op s].
  - rewrite pr_sc_f by exact C. rewrite c_sc_SC_f in C. now apply noparen_bfac.
  - rewrite pr_sc_t by exact C. rewrite c_sc_SC_t in C. do 3 apply andb_true_iff in C as [C ?]. rewrite <- !app_assoc. apply noparen_bfac; [exact C|now apply no_word_char].
Qed.

(** ** Conditions on geometries *)
Definition Rgpred (p : gpred) : Prop := forall i k, skip i = skip (pr_gpred fmt p ++ k) -> reads (g_contains m <|> g_intersects m) i p (skip k).
Lemma rd_contains a b : c_soc fmt a = true -> c_soc fmt b = true -> Rgpred (GP_contains a b).
Proof.
  intros A B i k H. rewrite pr_gpred_GP_contains, <- !app_assoc in H. apply reads_alt1. eapply reads_map with (v := (tt, tt, a, tt, b, tt)); [|reflexivity].
  eapply reads_exp; [eapply reads_exp; [eapply reads_exp; [eapply reads_exp; [eapply reads_seq|]|]|]|].
  - eapply (rd_kw m "CONTAINS" (L "CONTAINS")); [reflexivity|reflexivity|]. exact H.
  - intros r Hr. eapply rd_open. exact Hr.
  - intros r Hr. eapply rd_soc; [exact A| |exact Hr]. eexists. left. reflexivity.
  - intros r Hr. eapply rd_comma. exact Hr.
  - intros r Hr. eapply rd_soc; [exact B| |exact Hr]. eexists. right. reflexivity.
  - intros r Hr. eapply rd_close. exact Hr.
Qed.
Lemma rd_intersects e b : Rve m fmt e -> c_soc fmt b = true -> Rgpred (GP_intersects e b).
Proof.
  intros A B i k H. rewrite pr_gpred_GP_intersects, <- !app_assoc in H. apply reads_alt2.
  { apply fails_map. do 4 apply fails_exp1. apply fails_seq1. eapply no_kw; [|exact H]. reflexivity. }
  intros r0 H0. rewrite H in H0. eapply reads_map with (v := (tt, tt, e, tt, b, tt)); [|reflexivity].
  eapply reads_exp; [eapply reads_exp; [eapply reads_exp; [eapply reads_exp; [eapply reads_seq|]|]|]|].
  - eapply (rd_kw m "INTERSECTS" (L "INTERSECTS")); [reflexivity|reflexivity|]. exact H0.
  - intros r Hr. eapply rd_open. exact Hr.
  - intros r Hr. eapply (ve_arg m fmt e A); [|exact Hr]. reflexivity.
  - intros r Hr. eapply rd_comma. exact Hr.
  - intros r Hr. eapply rd_soc; [exact B| |exact Hr]. eexists. right. reflexivity.
  - intros r Hr. eapply rd_close. exact Hr.
Qed.
Lemma gpred_nonempty p : c_gpred fmt p = true -> gpred_empty p = false.
Proof.
  destruct p as [e s|a b]; intros C; [rewrite c_gpred_GP_intersects in C|rewrite c_gpred_GP_contains in C]; apply andb_true_iff in C as [C1 C2]; cbn.
  - now apply (ve_nonempty fmt).
  - now rewrite (soc_nonempty fmt a C1), (soc_nonempty fmt b C2).
Qed.
Lemma gpred_first p k : exists t, pr_gpred fmt p ++ k = "C"%char :: t \/ pr_gpred fmt p ++ k = "I"%char :: t.
Proof. destruct p; [rewrite pr_gpred_GP_intersects|rewrite pr_gpred_GP_contains]; eexists; [right|left]; reflexivity. Qed.
Lemma rd_geom p fl i k : c_gpred fmt p = true -> one_of fl ["0"; "1"]%string = true -> Rgpred p -> skip i = skip (pr_geom fmt (G_right p fl) ++ k) -> reads (g_geometry m) i (G_right p fl) (skip k).
Proof.
  intros C F R H. rewrite pr_geom_G_right, gpred_nonempty, <- !app_assoc in H by exact C. apply reads_alt2.
  - apply fails_map, fails_seq1, fails_seq1. destruct (gpred_first p (L "=" ++ fl ++ k)) as (t & [E|E]); rewrite E in H; (eapply first_byte; [exact H|reflexivity]).
  - intros r Hr. rewrite H in Hr. eapply reads_map with (v := (p, fl)); [|reflexivity]. eapply reads_seq; [apply R; exact Hr|].
    intros r2 H2. apply reads_alt1. eapply reads_map with (v := (tt, fl)); [|reflexivity]. eapply reads_exp; [eapply rd_lit; [|exact H2]; reflexivity|].
    intros r3 H3. eapply reads_lex; [reflexivity|]. apply one_of_iff in F. rewrite H3. destruct F as [<-|[<-|[]]]; reflexivity.
Qed.
End Geom.
