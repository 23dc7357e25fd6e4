(** How canonical values and conditions begin. *)
From Verif Require Import Grammar Print PegProps PegSpec PegEquiv TextLemmas SpecLexical LexProofs LexProofs2 First Calc Look Tight Operand TopProofs SpecCanon AstInd PrintEq CanonBase CanonLex CanonGeo CanonHead.

(** ** The first word *)
Definition lead_words : list string := ["TRUE"; "FALSE"; "NULL"; "CASE"; "NOT"; "EXISTS"; "CURRENT_TIMESTAMP"; "ARRAY"]%string.
Definition lead_funs : list string :=
  ["ACOS"; "ASIN"; "ATAN"; "COS"; "COT"; "SIN"; "TAN"; "ATAN2"; "PI"; "RAND"; "ABS"; "CEILING"; "DEGREES"; "EXP"; "FLOOR"; "LOG"; "LOG10"; "RADIANS";
   "ROUND"; "SQRT"; "TRUNCATE"; "MOD"; "POWER"; "CAST"; "COORD1"; "COORD2"; "DISTANCE"; "DISTINCT"; "LEFT"; "LOWER"; "RIGHT"; "TRIM"; "UPPER";
   "COUNT"; "AVG"; "MAX"; "MIN"; "SUM"; "NULLIF"; "COALESCE"; "ANY"]%string.
(** [sg]: the signs that are possible in front *)
Inductive lead_ (sg : string) (t : text) : Prop :=
| lead_char c r : t = c :: r -> existsb (Ascii.eqb c) (dq :: L "('.0123456789" ++ L sg) = true -> lead_ sg t
| lead_free w r : t = w ++ r -> word w -> stops word_char r -> ~ reserved w -> lead_ sg t
| lead_word w r : t = w ++ r -> word w -> stops word_char r -> In (upper w) (map L lead_words) -> lead_ sg t
| lead_fun w r : t = w ++ L "(" ++ r -> word w -> In (upper w) (map L lead_funs) -> lead_ sg t.
Notation lead0 := (lead_ "").
Notation lead := (lead_ "+-").
Lemma lead_mono t : lead0 t -> lead t.
Proof.
  intros [c r E H|w r E W S H|w r E W S H|w r E W H]; [eapply lead_char|eapply lead_free|eapply lead_word|eapply lead_fun]; eauto.
  revert H. clear. destruct c as [[] [] [] [] [] [] [] []]; vm_compute; congruence.
Qed.
Lemma upper_word u w : word u -> upper w = u -> word w.
Proof.
  intros W E. apply is_word_ok. assert (is_word u = true) as Wu.
  { destruct W as (c & w' & -> & Lc & F). cbn. apply andb_true_iff. split; [now apply is_letter_iff|]. apply forallb_forall. intros x Hx. apply is_idchar_iff. now apply (proj1 (Forall_forall _ _) F). }
  rewrite <- E in Wu. revert Wu. destruct w as [|c w]; [easy|]. cbn. rewrite !andb_true_iff. intros [A B]. split.
  - revert A. clear. destruct c as [[] [] [] [] [] [] [] []]; vm_compute; congruence.
  - clear - B. induction w as [|x w IH]; [easy|]. cbn in *. apply andb_true_iff in B as [B1 B2]. rewrite IH by exact B2. rewrite andb_true_r. revert B1. clear. destruct x as [[] [] [] [] [] [] [] []]; vm_compute; congruence.
Qed.
Lemma listed_word ws w : forallb (fun u => is_word (L u)) ws = true -> In (upper w) (map L ws) -> word w.
Proof. intros F I. apply in_map_iff in I as (u & E & I). apply (upper_word (L u)); [|auto]. apply is_word_ok. now apply (proj1 (forallb_forall _ _) F). Qed.
Lemma listed ws ws' w : forallb (fun u => existsb (text_eqb (L u)) (map L ws')) ws = true -> In (upper w) (map L ws) -> In (upper w) (map L ws').
Proof.
  intros F I. apply in_map_iff in I as (u & E & I). apply (proj1 (forallb_forall _ _) F) in I. apply existsb_exists in I as (x & Ix & Ex). apply text_eqb_iff in Ex. congruence.
Qed.
Lemma call_lead ws w r : forallb (fun u => is_word (L u)) ws = true -> forallb (fun u => existsb (text_eqb (L u)) (map L lead_funs)) ws = true -> one_of_nc w ws = true -> lead0 (w ++ L "(" ++ r).
Proof. intros A B I. apply one_of_nc_iff in I. eapply lead_fun; [reflexivity|eapply listed_word; eauto|eapply listed; eauto]. Qed.
Lemma kw_lead u r : In (L u) (map L lead_words) -> is_word (L u) = true -> stops word_char r -> upper (L u) = L u -> lead0 (L u ++ r).
Proof. intros I W S U. eapply lead_word; [reflexivity|now apply is_word_ok|exact S|now rewrite U]. Qed.
Lemma fun_lead u r : In (L u) (map L lead_funs) -> is_word (L u) = true -> upper (L u) = L u -> lead0 (L u ++ L "(" ++ r).
Proof. intros I W U. eapply lead_fun; [reflexivity|now apply is_word_ok|now rewrite U]. Qed.
Lemma no_word_char c r : is_idchar c = false -> stops word_char (c :: r).
Proof. intros H X. apply is_idchar_iff in X. congruence. Qed.
Lemma name_lead n r : name n -> stops word_char r -> lead0 (n ++ r).
Proof.
  intros [[W R]|D] S; [eapply lead_free; eauto|]. destruct (delimited_starts _ D) as (b & ->). eapply lead_char; [reflexivity|reflexivity].
Qed.
Lemma colref_lead (f : text -> Prop) c r : (forall x, f x -> name x) -> cnames f c -> stops word_char r -> lead0 (pr_colref c ++ r).
Proof.
  intros F C S. destruct (colref_first c r) as (k' & E & [[-> _]|(z & ->)]); rewrite E; apply name_lead; auto; try (now apply no_word_char);
    destruct c; cbn in C |- *; apply F; tauto.
Qed.

Section Lead.
Variable fmt : text -> text.
Notation c_ve := (SpecCanon.c_ve fmt). Notation c_venb := (SpecCanon.c_venb fmt). Notation c_factor := (SpecCanon.c_factor fmt). Notation c_nprim := (SpecCanon.c_nprim fmt).
Notation c_nvf := (SpecCanon.c_nvf fmt). Notation c_vep := (SpecCanon.c_vep fmt). Notation c_vepv := (SpecCanon.c_vepv fmt). Notation c_sc := (SpecCanon.c_sc fmt).
Notation c_bfac := (SpecCanon.c_bfac fmt). Notation c_bprim := (SpecCanon.c_bprim fmt). Notation c_pred := (SpecCanon.c_pred fmt).
Definition leads {A : Set} (sg : string) (c : A -> bool) (pr : A -> text) (x : A) : Prop := c x = true -> forall k, stops word_char k -> lead_ sg (pr x ++ k).
Ltac wsp := first [apply no_word_char; reflexivity].
Lemma nvf_lead f : leads "" c_nvf (pr_nvf fmt) f.
Proof.
  intros C k S. destruct f.
  - rewrite c_nvf_NV_trig1 in C. rewrite pr_nvf_NV_trig1, <- !app_assoc. ands. eapply call_lead; [| |eassumption]; reflexivity.
  - rewrite c_nvf_NV_trig2 in C. rewrite pr_nvf_NV_trig2, <- !app_assoc. ands. eapply call_lead; [| |eassumption]; reflexivity.
  - rewrite c_nvf_NV_math0 in C. rewrite pr_nvf_NV_math0, <- !app_assoc. change (L "()" ++ k) with (L "(" ++ L ")" ++ k). eapply call_lead; [| |eassumption]; reflexivity.
  - rewrite c_nvf_NV_math1 in C. rewrite pr_nvf_NV_math1, <- !app_assoc. ands. eapply call_lead; [| |eassumption]; reflexivity.
  - rewrite c_nvf_NV_math2 in C. rewrite pr_nvf_NV_math2, <- !app_assoc. ands. eapply call_lead; [| |eassumption]; reflexivity.
  - rewrite pr_nvf_NV_cast, <- !app_assoc. change (L "CAST(" ++ ?r) with (L "CAST" ++ L "(" ++ r). apply fun_lead; [|reflexivity|reflexivity]. apply (mem_iff (L "CAST") lead_funs). reflexivity.
  - rewrite c_nvf_NV_geo1 in C. rewrite pr_nvf_NV_geo1. ands. match goal with H : one_of_nc f ?ws = true |- _ => rewrite (one_of_nc_nonempty f ws eq_refl H) end. rewrite <- !app_assoc. eapply call_lead; [| |eassumption]; reflexivity.
  - rewrite c_nvf_NV_geo2 in C. rewrite pr_nvf_NV_geo2. ands. match goal with H : one_of_nc f ?ws = true |- _ => rewrite (one_of_nc_nonempty f ws eq_refl H) end. rewrite <- !app_assoc. eapply call_lead; [| |eassumption]; reflexivity.
  - rewrite c_nvf_NV_udf in C. rewrite pr_nvf_NV_udf, <- !app_assoc. apply andb_true_iff in C as [C _]. apply orb_true_iff in C as [C|C]; [|eapply call_lead; [| |eassumption]; reflexivity]. ands. apply free_word_ok in H as [W R].
    eapply lead_free; [reflexivity|exact W|wsp|exact R].
  - rewrite c_nvf_NV_str in C. rewrite pr_nvf_NV_str. apply one_of_nc_iff in C. eapply lead_word; [reflexivity|eapply listed_word; [|exact C]; reflexivity|exact S|eapply listed; [|exact C]; reflexivity].
Qed.
Lemma str_lead s k : is_number s || is_quoted sq s || one_of_nc s ["TRUE"; "FALSE"; "NULL"; "NULL::CHAR"; "NULL::INT"; "NULL::FLOAT"]%string = true -> stops word_char k -> lead0 (s ++ k).
Proof.
  rewrite !orb_true_iff. intros [[C|C]|C] S.
  - apply is_number_ok in C. destruct (number_starts _ C) as (c & t & -> & D). eapply lead_char; [reflexivity|]. destruct D as [D| ->]; [|reflexivity].
    revert D. clear. destruct c as [[] [] [] [] [] [] [] []]; vm_compute; congruence.
  - apply is_quoted_ok in C as (b & -> & _). eapply lead_char; [reflexivity|reflexivity].
  - apply one_of_nc_iff in C.
    assert (Z : forall u, upper s = L "NULL" ++ u -> (u = [] \/ exists z, u = ":"%char :: z) -> lead0 (s ++ k)).
    { intros u E U. destruct s as [|a [|b [|c [|d s]]]]; try discriminate. cbn in E. injection E as E1 E2 E3 E4 E5. change ((a :: b :: c :: d :: s) ++ k) with ([a; b; c; d] ++ s ++ k).
      assert (UE : upper [a; b; c; d] = L "NULL") by (cbn; now rewrite E1, E2, E3, E4). eapply lead_word; [reflexivity|eapply upper_word; [|exact UE]; now apply is_word_ok| |rewrite UE; right; right; now left].
      destruct U as [-> |(z & ->)]; [destruct s; [exact S|discriminate]|]. destruct s as [|e s]; [discriminate|]. injection E5 as E5 _. apply no_word_char. revert E5. clear. destruct e as [[] [] [] [] [] [] [] []]; vm_compute; congruence. }
    destruct C as [C|[C|[C|[C|[C|[C|[]]]]]]]; symmetry in C.
    + eapply lead_word; [reflexivity|eapply upper_word; [|exact C]; now apply is_word_ok|exact S|rewrite C; now left].
    + eapply lead_word; [reflexivity|eapply upper_word; [|exact C]; now apply is_word_ok|exact S|rewrite C; right; now left].
    + apply (Z []); auto.
    + apply (Z (L "::CHAR")); [exact C|right; now exists (L ":CHAR")].
    + apply (Z (L "::INT")); [exact C|right; now exists (L ":INT")].
    + apply (Z (L "::FLOAT")); [exact C|right; now exists (L ":FLOAT")].
Qed.
Ltac par := eapply lead_char; [reflexivity|reflexivity].
Theorem lead_all :
  (forall v, leads "+-" c_ve (pr_ve fmt) v) /\ (forall v, leads "+-" c_venb (pr_venb fmt) v) /\ (forall v, leads "+-" c_sc (pr_sc fmt) v) /\ (forall v, leads "+-" c_bfac (pr_bfac fmt) v) /\ (forall v, leads "" c_vepv (pr_vepv fmt) v) /\ (forall v, leads "" c_nprim (pr_nprim fmt) v).
Proof.
  edestruct (ast_ind (leads "+-" c_ve (pr_ve fmt)) (leads "+-" c_venb (pr_venb fmt)) (fun _ => True) (leads "+-" c_factor (pr_factor fmt)) (leads "" c_nprim (pr_nprim fmt))
    (leads "" c_nvf (pr_nvf fmt)) (leads "" c_vep (pr_vep fmt)) (leads "" c_vepv (pr_vepv fmt)) (fun _ => True) (fun _ => True) (fun _ => True)
    (leads "+-" c_sc (pr_sc fmt)) (leads "+-" c_bfac (pr_bfac fmt)) (leads "+-" c_bprim (pr_bprim fmt)) (leads "+-" c_pred (pr_pred fmt)) (fun _ => True) (fun _ => True)
    (fun _ => True) (fun _ => True) (fun _ => True) (fun _ => True) (fun _ => True) (fun _ => True) (fun _ => True) (fun _ => True) (fun _ => True) (fun _ => True)
    (fun _ => True) (fun _ => True) (fun _ => True) (fun _ => True) (fun _ => True) (fun _ => True) (fun _ => True)).
  all: try (intros; exact I). all: try (intros; apply nvf_lead).
  - intros v H C. rewrite c_ve_VE_nb in C. rewrite pr_ve_VE_nb. apply H. exact C.
  - intros s H C. rewrite c_ve_VE_sc in C. rewrite pr_ve_VE_sc. ands. apply H. assumption.
  - intros f ts H _ C k S. rewrite c_venb_VENB in C. rewrite pr_venb_VENB. ands. rewrite <- app_assoc. apply H; [assumption|].
    destruct ts as [|[op f2] ts]; [exact S|]. cbn [map concat]. rewrite pr_vterm_VTerm, <- !app_assoc. cbn [forallb] in H2. ands. rewrite c_vterm_VTerm in H2. ands.
    apply one_of_iff in H2. destruct H2 as [<-|[<-|[<-|[<-|[<-|[]]]]]]; now apply no_word_char.
  - intros s p H C k S. rewrite c_factor_Factor in C. rewrite pr_factor_Factor. ands. rewrite <- app_assoc. apply one_of_iff in H0. destruct H0 as [<-|[<-|[<-|[]]]]; [apply lead_mono, H; assumption|par|par].
  - intros v H C. rewrite c_nprim_NP_vep in C. rewrite pr_nprim_NP_vep. now apply H.
  - intros v l H _ C k S. rewrite c_vep_VEP in C. rewrite pr_vep_VEP. ands. rewrite <- app_assoc. apply H; [assumption|]. destruct l; [exact S|]. now apply no_word_char.
  - intros l _ C k S. rewrite pr_vepv_VP_array. eapply (lead_word _ _ (L "ARRAY")); [cbn; reflexivity|now apply is_word_ok|now apply no_word_char|apply (mem_iff (L "ARRAY") lead_words); reflexivity].
  - intros s C k S. rewrite c_vepv_VP_str in C. rewrite pr_vepv_VP_str. now apply str_lead.
  - intros c C k S. rewrite c_vepv_VP_col in C. rewrite pr_vepv_VP_col. eapply (colref_lead name); [auto|apply (c_colref_ok is_value_name name); [apply value_name_ok|exact C]|exact S].
  - intros s C k S. rewrite c_vepv_VP_setstr in C. rewrite pr_vepv_VP_setstr. apply one_of_nc_iff in C as [C|[]]. symmetry in C.
    destruct s as [|a [|b [|c [|d [|e [|f s]]]]]]; try discriminate. cbn in C. injection C as E1 E2 E3 E4 E5 E6 _.
    assert (f = "("%char) as -> by (revert E6; clear; destruct f as [[] [] [] [] [] [] [] []]; vm_compute; congruence).
    change ((a :: b :: c :: d :: e :: "("%char :: s) ++ k) with ([a; b; c; d; e] ++ L "(" ++ s ++ k).
    assert (UE : upper [a; b; c; d; e] = L "COUNT") by (cbn; now rewrite E1, E2, E3, E4, E5). eapply lead_fun; [reflexivity|eapply upper_word; [|exact UE]; now apply is_word_ok|rewrite UE; apply (mem_iff (L "COUNT") lead_funs); reflexivity].
  - intros ty q a _ C k S. rewrite c_vepv_VP_set in C. rewrite pr_vepv_VP_set. ands. rewrite <- !app_assoc. eapply call_lead; [| |eassumption]; reflexivity.
  - intros a b _ _ C k S. rewrite pr_vepv_VP_nullif. change ((L "NULLIF(" ++ ?r) ++ k) with (L "NULLIF" ++ L "(" ++ r ++ k). apply fun_lead; [|reflexivity|reflexivity]. apply (mem_iff (L "NULLIF") lead_funs). reflexivity.
  - intros l _ C k S. rewrite pr_vepv_VP_coalesce. change ((L "COALESCE(" ++ ?r) ++ k) with (L "COALESCE" ++ L "(" ++ r ++ k). apply fun_lead; [|reflexivity|reflexivity]. apply (mem_iff (L "COALESCE") lead_funs). reflexivity.
  - intros x w e _ _ _ C k S. rewrite pr_vepv_VP_case. eapply (lead_word _ _ (L "CASE")); [cbn; reflexivity|now apply is_word_ok|now apply no_word_char|apply (mem_iff (L "CASE") lead_words); reflexivity].
  - intros w e _ _ C k S. rewrite pr_vepv_VP_scase. eapply (lead_word _ _ (L "CASE")); [cbn; reflexivity|now apply is_word_ok|now apply no_word_char|apply (mem_iff (L "CASE") lead_words); reflexivity].
  - intros a _ C k S. rewrite pr_vepv_VP_any. change ((L "ANY(" ++ ?r) ++ k) with (L "ANY" ++ L "(" ++ r ++ k). apply fun_lead; [|reflexivity|reflexivity]. apply (mem_iff (L "ANY") lead_funs). reflexivity.
  - intros a _ C k S. rewrite pr_vepv_VP_sub. par.
  - intros f H C k S. rewrite pr_sc_f by exact C. apply H; [|exact S]. now rewrite c_sc_SC_f in C.
  - intros f op s H _ C k S. rewrite pr_sc_t by exact C. rewrite <- !app_assoc. rewrite c_sc_SC_t in C. ands. apply H; [assumption|now apply no_word_char].
  - intros n p H C k S. rewrite c_bfac_BF in C. rewrite pr_bfac_BF. ands. destruct n as [|c n]; [apply H; assumption|]. unfold nl_sp. cbn [is_nil]. rewrite <- !app_assoc.
    cbn [is_nil] in H0. apply one_of_nc_iff in H0. eapply lead_word; [reflexivity|eapply listed_word; [|exact H0]; reflexivity|now apply no_word_char|eapply listed; [|exact H0]; reflexivity].
  - intros p H C. rewrite c_bprim_BP_pred in C. rewrite pr_bprim_BP_pred. now apply H.
  - intros s _ C k S. rewrite pr_bprim_BP_sc. par.
  - intros v H C. rewrite c_bprim_BP_val in C. rewrite pr_bprim_BP_val. ands. now apply H.
  - intros l op r H _ C k S. rewrite c_pred_P_cmp in C. rewrite pr_pred_P_cmp. ands. rewrite <- app_assoc. apply H; [assumption|now apply no_word_char].
  - intros v n lo hi H _ _ C k S. rewrite c_pred_P_between in C. rewrite pr_pred_P_between. ands. rewrite <- app_assoc. apply H; [assumption|now apply no_word_char].
  - intros v n t H _ C k S. rewrite c_pred_P_in in C. rewrite pr_pred_P_in. ands. rewrite <- app_assoc. apply H; [assumption|now apply no_word_char].
  - intros v n H C k S. rewrite c_pred_P_null in C. rewrite pr_pred_P_null. ands. rewrite <- app_assoc. apply H; [assumption|now apply no_word_char].
  - intros v n p H _ C k S. rewrite c_pred_P_like in C. rewrite pr_pred_P_like. ands. rewrite <- app_assoc. apply H; [assumption|]. destruct n; now apply no_word_char.
  - intros q _ C k S. rewrite pr_pred_P_exists. eapply (lead_word _ _ (L "EXISTS")); [cbn; reflexivity|now apply is_word_ok|now apply no_word_char|apply (mem_iff (L "EXISTS") lead_words); reflexivity].
  - tauto.
Qed.
End Lead.

(** ** What does not match at such a beginning *)
Lemma lead_hd t : lead t -> exists c r, t = c :: r /\ (is_letter c = true \/ existsb (Ascii.eqb c) (dq :: L "('.0123456789" ++ L "+-") = true).
Proof. intros [c r -> H|w r -> W _ _|w r -> W _ _|w r -> W _]; [eauto|..]; destruct (word_starts _ W) as (c & w' & -> & H); cbn [app]; eauto. Qed.
Lemma lead_dark t : lead t -> dark t.
Proof.
  intros H. destruct (lead_hd t H) as (c & r & -> & [C|C]); cbn; [now apply idchar_space, letter_idchar|]. revert C. clear. destruct c as [[] [] [] [] [] [] [] []]; vm_compute; congruence.
Qed.
Lemma lead_strip u t x r : lead t -> is_word (L u) = true -> mem (L u) (sql_words ++ adql_words) = true -> mem (L u) lead_words = false -> upper (L u) = L u ->
  strip true (L u) t = Some (x, r) -> exists c r', r = c :: r' /\ (is_idchar c = true \/ c = "("%char /\ mem (L u) lead_funs = true).
Proof.
  intros H W R N U E. apply strip_nc_iff in E as (E & Ux). rewrite U in Ux. apply is_word_ok in W.
  assert (AU : all_id x = true). { rewrite <- all_id_upper, Ux. apply all_id_iff. now apply word_chars. }
  assert (Z : forall w k, word w -> t = w ++ k -> stops word_char k -> (r = k /\ upper w = L u) \/ exists c r', r = c :: r' /\ is_idchar c = true).
  { intros w k Ww -> S. destruct (word_prefix w k x r E S AU) as (w' & -> & ->). destruct w' as [|c w']; [left; rewrite app_nil_r in *; auto|].
    right. exists c, (w' ++ k). split; [reflexivity|]. apply word_chars, Forall_app in Ww as [_ Ww]. inversion Ww. now apply is_idchar_iff. }
  destruct H as [c z -> C|w k -> Ww S NR|w k -> Ww S I|w k -> Ww I].
  - exfalso. destruct x as [|x0 x]; [destruct W as (? & ? & EE & _); rewrite <- Ux in EE; discriminate|]. cbn in E. injection E as -> _.
    cbn in AU. apply andb_true_iff in AU as [A _]. destruct W as (c & ? & EE & Lc & _). rewrite EE in Ux. cbn in Ux. injection Ux as Ux _. subst c. apply is_letter_iff in Lc.
    revert C Lc. clear. destruct x0 as [[] [] [] [] [] [] [] []]; vm_compute; congruence.
  - destruct (Z w k Ww eq_refl S) as [[-> Uw]|(c & r' & -> & Hc)]; [|eauto 6]. exfalso. apply NR. unfold reserved. rewrite Uw. now apply mem_iff.
  - destruct (Z w k Ww eq_refl S) as [[-> Uw]|(c & r' & -> & Hc)]; [|eauto 6]. exfalso. rewrite Uw in I. apply mem_iff in I. congruence.
  - destruct (Z w _ Ww eq_refl (no_word_char "("%char k eq_refl)) as [[-> Uw]|(c & r' & -> & Hc)]; [|eauto 6]. exists "("%char, k. split; [reflexivity|]. right. split; [reflexivity|]. rewrite Uw in I. now apply mem_iff.
Qed.
Lemma lead_no_kw_space u t acc : lead t -> is_word (L u) = true -> mem (L u) (sql_words ++ adql_words) = true -> mem (L u) lead_words = false -> upper (L u) = L u ->
  srun (SSeq (SStr true (L u)) ahead_space) acc t = SFail (match strip true (L u) t with Some (x, _) => acc ++ x | None => acc end) /\ exists a, srun (kw_soft u) acc t = SFail a.
Proof.
  intros H A B C D. unfold kw_soft. cbn [srun]. destruct (strip true (L u) t) as [[x r]|] eqn:E; [|eauto].
  destruct (lead_strip u t x r H A B C D E) as (c & r' & -> & Hc). assert (is_space c = false) as S by (destruct Hc as [Hc|[-> _]]; [now apply idchar_space|reflexivity]).
  unfold ahead_space. cbn [srun]. rewrite S. eauto.
Qed.
Section LeadNo.
Variable m : text -> option text.
Notation fails := (fails m).
Notation reads := (reads m).
Lemma lead_no_char s t i : lead t -> match L s with c :: _ => is_letter c || existsb (Ascii.eqb c) (dq :: L "('.0123456789" ++ L "+-") = false | [] => False end -> skip i = skip t -> fails (lit s) i.
Proof.
  intros H C E. apply fails_lit. rewrite E, dark_skip0 by now apply lead_dark. destruct (lead_hd t H) as (c & r & -> & D). destruct (L s) as [|x l]; [easy|]. cbn [strip].
  assert (Ascii.eqb x c = false) as X. { apply Ascii.eqb_neq. intros ->. apply orb_false_iff in C as [C1 C2]. destruct D; congruence. }
  unfold eq_ch. now rewrite X.
Qed.
Lemma lead_no_soft u t i : lead t -> is_word (L u) = true -> mem (L u) (sql_words ++ adql_words) = true -> mem (L u) lead_words = false -> upper (L u) = L u -> skip i = skip t -> fails (PLex (kw_soft u)) i.
Proof.
  intros H A B C D E. destruct (lead_no_kw_space u t [] H A B C D) as [_ [a Ha]]. eapply fails_lex; [reflexivity|]. rewrite E, dark_skip0 by now apply lead_dark. exact Ha.
Qed.
Lemma lead_no_call u t i : lead t -> is_word (L u) = true -> mem (L u) (sql_words ++ adql_words) = true -> mem (L u) lead_words = false -> upper (L u) = L u -> mem (L u) lead_funs = false ->
  skip i = skip t -> fails (kw u >> lit "(") i.
Proof.
  intros H A B C D F E. rewrite (dark_skip0 t) in E by now apply lead_dark. destruct (strip true (L u) t) as [[x r]|] eqn:S; [|apply fails_seq1, fails_lit; now rewrite E].
  destruct (lead_strip u t x r H A B C D S) as (c & r' & -> & [Hc|[_ Hc]]); [|congruence]. eapply fails_seq2; [eapply reads_lit; rewrite E; exact S|]. intros r2 Hr2.
  apply (idchar_lit m c _ r'); [exact Hc| |reflexivity]. rewrite Hr2. cbn. now rewrite idchar_space.
Qed.
(** no ALL or DISTINCT *)
Lemma lead_no_quant t i : lead t -> skip i = skip t -> reads (POptLex s_set_quantifier) i [] (skip t).
Proof.
  intros H E. rewrite <- E. apply reads_olex_none; [reflexivity|]. rewrite E, dark_skip0 by now apply lead_dark. unfold s_set_quantifier. cbn [srun].
  rewrite strs_run. destruct (first_str ["DISTINCT"; "ALL"]%string t) as [[u r]|] eqn:F; [|reflexivity].
  apply first_str_in in F as (w & I & -> & U).
  assert (Z : exists c r', r = c :: r' /\ (is_idchar c = true \/ c = "("%char /\ mem (L w) lead_funs = true)).
  { destruct I as [<-|[<-|[]]]; (eapply lead_strip; [exact H|reflexivity|reflexivity|reflexivity|reflexivity|]; apply strip_nc_iff; split; [reflexivity|exact U]). }
  destruct Z as (c & r' & -> & Hc). assert (is_space c = false) as S by (destruct Hc as [Hc|[-> _]]; [now apply idchar_space|reflexivity]).
  unfold ahead_space. cbn [srun]. rewrite S. reflexivity.
Qed.
End LeadNo.
