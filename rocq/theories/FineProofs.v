(** When all the parts of a query are [fine], its normal form is canonical. *)
From Verif Require Import Chars Ast Print SpecLexical SpecCanon SpecNorm SpecNodes SpecFine AstInd PrintEq CanonBase TextLemmas LexProofs NormProofs.

Lemma nd_VE_nb v : nodes_ve (VE_nb v) = N_ve (VE_nb v) :: nodes_venb v.
Proof. reflexivity. Qed.
Lemma nd_VE_sc s : nodes_ve (VE_sc s) = N_ve (VE_sc s) :: nodes_sc s.
Proof. reflexivity. Qed.
Lemma nd_VENB f ts : nodes_venb (VENB f ts) = N_venb (VENB f ts) :: nodes_factor f ++ flat_map nodes_vterm ts.
Proof. reflexivity. Qed.
Lemma nd_VTerm x0 f : nodes_vterm (VTerm x0 f) = N_vterm (VTerm x0 f) :: nodes_factor f.
Proof. reflexivity. Qed.
Lemma nd_Factor x0 p : nodes_factor (Factor x0 p) = N_factor (Factor x0 p) :: nodes_nprim p.
Proof. reflexivity. Qed.
Lemma nd_NP_vep p : nodes_nprim (NP_vep p) = N_nprim (NP_vep p) :: nodes_vep p.
Proof. reflexivity. Qed.
Lemma nd_NP_nvf f : nodes_nprim (NP_nvf f) = N_nprim (NP_nvf f) :: nodes_nvf f.
Proof. reflexivity. Qed.
Lemma nd_NV_trig1 x0 a : nodes_nvf (NV_trig1 x0 a) = N_nvf (NV_trig1 x0 a) :: nodes_ve a.
Proof. reflexivity. Qed.
Lemma nd_NV_trig2 x0 a b : nodes_nvf (NV_trig2 x0 a b) = N_nvf (NV_trig2 x0 a b) :: nodes_ve a ++ nodes_ve b.
Proof. reflexivity. Qed.
Lemma nd_NV_math0 x0 : nodes_nvf (NV_math0 x0) = N_nvf (NV_math0 x0) :: [].
Proof. reflexivity. Qed.
Lemma nd_NV_math1 x0 a : nodes_nvf (NV_math1 x0 a) = N_nvf (NV_math1 x0 a) :: nodes_ve a.
Proof. reflexivity. Qed.
Lemma nd_NV_math2 x0 a b : nodes_nvf (NV_math2 x0 a b) = N_nvf (NV_math2 x0 a b) :: nodes_ve a ++ nodes_ve b.
Proof. reflexivity. Qed.
Lemma nd_NV_cast a x1 x2 : nodes_nvf (NV_cast a x1 x2) = N_nvf (NV_cast a x1 x2) :: nodes_ve a.
Proof. reflexivity. Qed.
Lemma nd_NV_geo1 x0 a : nodes_nvf (NV_geo1 x0 a) = N_nvf (NV_geo1 x0 a) :: [N_poc a].
Proof. reflexivity. Qed.
Lemma nd_NV_geo2 x0 a b : nodes_nvf (NV_geo2 x0 a b) = N_nvf (NV_geo2 x0 a b) :: [N_poc a; N_poc b].
Proof. reflexivity. Qed.
Lemma nd_NV_udf x0 args : nodes_nvf (NV_udf x0 args) = N_nvf (NV_udf x0 args) :: flat_map nodes_ve args.
Proof. reflexivity. Qed.
Lemma nd_NV_str x0 : nodes_nvf (NV_str x0) = N_nvf (NV_str x0) :: [].
Proof. reflexivity. Qed.
Lemma nd_VEP v idx : nodes_vep (VEP v idx) = N_vep (VEP v idx) :: nodes_vepv v ++ flat_map nodes_ve idx.
Proof. reflexivity. Qed.
Lemma nd_VP_array l : nodes_vepv (VP_array l) = N_vepv (VP_array l) :: flat_map nodes_ve l.
Proof. reflexivity. Qed.
Lemma nd_VP_str x0 : nodes_vepv (VP_str x0) = N_vepv (VP_str x0) :: [].
Proof. reflexivity. Qed.
Lemma nd_VP_col x0 : nodes_vepv (VP_col x0) = N_vepv (VP_col x0) :: [].
Proof. reflexivity. Qed.
Lemma nd_VP_setstr x0 : nodes_vepv (VP_setstr x0) = N_vepv (VP_setstr x0) :: [].
Proof. reflexivity. Qed.
Lemma nd_VP_set x0 x1 a : nodes_vepv (VP_set x0 x1 a) = N_vepv (VP_set x0 x1 a) :: nodes_ve a.
Proof. reflexivity. Qed.
Lemma nd_VP_nullif a b : nodes_vepv (VP_nullif a b) = N_vepv (VP_nullif a b) :: nodes_ve a ++ nodes_ve b.
Proof. reflexivity. Qed.
Lemma nd_VP_coalesce l : nodes_vepv (VP_coalesce l) = N_vepv (VP_coalesce l) :: flat_map nodes_ve l.
Proof. reflexivity. Qed.
Lemma nd_VP_case x w e : nodes_vepv (VP_case x w e) = N_vepv (VP_case x w e) :: nodes_ve x ++ flat_map nodes_swhen w ++ onodes nodes_result e.
Proof. reflexivity. Qed.
Lemma nd_VP_scase w e : nodes_vepv (VP_scase w e) = N_vepv (VP_scase w e) :: flat_map nodes_qwhen w ++ onodes nodes_result e.
Proof. reflexivity. Qed.
Lemma nd_VP_any a : nodes_vepv (VP_any a) = N_vepv (VP_any a) :: nodes_ve a.
Proof. reflexivity. Qed.
Lemma nd_VP_sub a : nodes_vepv (VP_sub a) = N_vepv (VP_sub a) :: nodes_ve a.
Proof. reflexivity. Qed.
Lemma nd_SWhen a r : nodes_swhen (SWhen a r) = N_swhen (SWhen a r) :: nodes_ve a ++ nodes_result r.
Proof. reflexivity. Qed.
Lemma nd_QWhen c r : nodes_qwhen (QWhen c r) = N_qwhen (QWhen c r) :: nodes_sc c ++ nodes_result r.
Proof. reflexivity. Qed.
Lemma nd_Res_str x0 : nodes_result (Res_str x0) = N_result (Res_str x0) :: [].
Proof. reflexivity. Qed.
Lemma nd_Res_ve a : nodes_result (Res_ve a) = N_result (Res_ve a) :: nodes_ve a.
Proof. reflexivity. Qed.
Lemma nd_SC_f f : nodes_sc (SC_f f) = N_sc (SC_f f) :: nodes_bfac f.
Proof. reflexivity. Qed.
Lemma nd_SC_t f x1 s' : nodes_sc (SC_t f x1 s') = N_sc (SC_t f x1 s') :: nodes_bfac f ++ nodes_sc s'.
Proof. reflexivity. Qed.
Lemma nd_BF x0 p : nodes_bfac (BF x0 p) = N_bfac (BF x0 p) :: nodes_bprim p.
Proof. reflexivity. Qed.
Lemma nd_BP_pred p : nodes_bprim (BP_pred p) = N_bprim (BP_pred p) :: nodes_pred p.
Proof. reflexivity. Qed.
Lemma nd_BP_sc s : nodes_bprim (BP_sc s) = N_bprim (BP_sc s) :: nodes_sc s.
Proof. reflexivity. Qed.
Lemma nd_BP_val v : nodes_bprim (BP_val v) = N_bprim (BP_val v) :: nodes_venb v.
Proof. reflexivity. Qed.
Lemma nd_P_cmp l x1 r : nodes_pred (P_cmp l x1 r) = N_pred (P_cmp l x1 r) :: nodes_venb l ++ nodes_ve r.
Proof. reflexivity. Qed.
Lemma nd_P_between v x1 lo hi : nodes_pred (P_between v x1 lo hi) = N_pred (P_between v x1 lo hi) :: nodes_venb v ++ nodes_ve lo ++ nodes_ve hi.
Proof. reflexivity. Qed.
Lemma nd_P_in v x1 t : nodes_pred (P_in v x1 t) = N_pred (P_in v x1 t) :: nodes_venb v ++ nodes_intarget t.
Proof. reflexivity. Qed.
Lemma nd_P_null v x1 : nodes_pred (P_null v x1) = N_pred (P_null v x1) :: nodes_venb v.
Proof. reflexivity. Qed.
Lemma nd_P_like v x1 p : nodes_pred (P_like v x1 p) = N_pred (P_like v x1 p) :: nodes_venb v ++ nodes_ve p.
Proof. reflexivity. Qed.
Lemma nd_P_exists q : nodes_pred (P_exists q) = N_pred (P_exists q) :: nodes_subq q.
Proof. reflexivity. Qed.
Lemma nd_In_sub q : nodes_intarget (In_sub q) = N_intarget (In_sub q) :: nodes_subq q.
Proof. reflexivity. Qed.
Lemma nd_In_list l : nodes_intarget (In_list l) = N_intarget (In_list l) :: flat_map nodes_ve l.
Proof. reflexivity. Qed.
Lemma nd_SQ_jt j : nodes_subq (SQ_jt j) = N_subq (SQ_jt j) :: nodes_jt j.
Proof. reflexivity. Qed.
Lemma nd_SQ_q q : nodes_subq (SQ_q q) = N_subq (SQ_q q) :: nodes_qspec q.
Proof. reflexivity. Qed.
Lemma nd_JT_q q : nodes_jt (JT_q q) = N_jt (JT_q q) :: nodes_qjoin q.
Proof. reflexivity. Qed.
Lemma nd_JT_p j : nodes_jt (JT_p j) = N_jt (JT_p j) :: nodes_jt j.
Proof. reflexivity. Qed.
Lemma nd_QJ h ss : nodes_qjoin (QJ h ss) =  nodes_qjhead h ++ flat_map nodes_jsuf ss.
Proof. reflexivity. Qed.
Lemma nd_QH_tc x0 x1 : nodes_qjhead (QH_tc x0 x1) = N_qjhead (QH_tc x0 x1) :: [].
Proof. reflexivity. Qed.
Lemma nd_QH_jt j : nodes_qjhead (QH_jt j) = N_qjhead (QH_jt j) :: nodes_jt j.
Proof. reflexivity. Qed.
Lemma nd_JS x0 x1 t sp : nodes_jsuf (JS x0 x1 t sp) = N_jsuf (JS x0 x1 t sp) :: nodes_tref t ++ onodes nodes_jspec sp.
Proof. reflexivity. Qed.
Lemma nd_JSp_using x0 : nodes_jspec (JSp_using x0) = N_jspec (JSp_using x0) :: [].
Proof. reflexivity. Qed.
Lemma nd_JSp_on s : nodes_jspec (JSp_on s) = N_jspec (JSp_on s) :: nodes_sc s.
Proof. reflexivity. Qed.
Lemma nd_TR_tc x0 x1 : nodes_tref (TR_tc x0 x1) = N_tref (TR_tc x0 x1) :: [].
Proof. reflexivity. Qed.
Lemma nd_TR_jt j : nodes_tref (TR_jt j) = N_tref (TR_jt j) :: nodes_jt j.
Proof. reflexivity. Qed.
Lemma nd_TR_dc q x1 : nodes_tref (TR_dc q x1) = N_tref (TR_dc q x1) :: nodes_subq q.
Proof. reflexivity. Qed.
Lemma nd_TR_tvf x0 x1 : nodes_tref (TR_tvf x0 x1) = N_tref (TR_tvf x0 x1) :: [].
Proof. reflexivity. Qed.
Lemma nd_QS w i ad g h o : nodes_qspec (QS w i ad g h o) = N_qspec (QS w i ad g h o) :: onodes nodes_with w ++ nodes_sfw i ++ flat_map nodes_addon ad ++ flat_map nodes_gterm g ++
      onodes nodes_sc h ++ map N_sort o.
Proof. reflexivity. Qed.
Lemma nd_With x0 x1 q : nodes_with (With x0 x1 q) = N_with (With x0 x1 q) :: nodes_subq q.
Proof. reflexivity. Qed.
Lemma nd_Addon x0 s : nodes_addon (Addon x0 s) = N_addon (Addon x0 s) :: nodes_sfw s.
Proof. reflexivity. Qed.
Lemma nd_SFW s ts w : nodes_sfw (SFW s ts w) = N_sfw (SFW s ts w) :: nodes_select s ++ flat_map nodes_tref ts ++ nodes_where w.
Proof. reflexivity. Qed.
Lemma nd_Where g s : nodes_where (Where g s) = N_where (Where g s) :: onodes nodes_geom g ++ onodes nodes_sc s.
Proof. reflexivity. Qed.
Lemma nd_G_left x0 p : nodes_geom (G_left x0 p) = N_geom (G_left x0 p) :: nodes_gpred p.
Proof. reflexivity. Qed.
Lemma nd_G_right p x1 : nodes_geom (G_right p x1) = N_geom (G_right p x1) :: nodes_gpred p.
Proof. reflexivity. Qed.
Lemma nd_GP_intersects e s : nodes_gpred (GP_intersects e s) = N_gpred (GP_intersects e s) :: nodes_ve e ++ [N_soc s].
Proof. reflexivity. Qed.
Lemma nd_GP_contains a b : nodes_gpred (GP_contains a b) = N_gpred (GP_contains a b) :: [N_soc a; N_soc b].
Proof. reflexivity. Qed.
Lemma nd_Select x0 x1 c : nodes_select (Select x0 x1 c) = N_select (Select x0 x1 c) :: nodes_columns c.
Proof. reflexivity. Qed.
Lemma nd_C_star x0 : nodes_columns (C_star x0) = N_columns (C_star x0) :: [].
Proof. reflexivity. Qed.
Lemma nd_C_list l : nodes_columns (C_list l) = N_columns (C_list l) :: flat_map nodes_colv l.
Proof. reflexivity. Qed.
Lemma nd_CV_as e x1 : nodes_colv (CV_as e x1) = N_colv (CV_as e x1) :: nodes_ve e.
Proof. reflexivity. Qed.
Lemma nd_CV_star x0 : nodes_colv (CV_star x0) = N_colv (CV_star x0) :: [].
Proof. reflexivity. Qed.
Lemma nd_CV_ve e : nodes_colv (CV_ve e) = N_colv (CV_ve e) :: nodes_ve e.
Proof. reflexivity. Qed.
Lemma nd_GT_ve e : nodes_gterm (GT_ve e) = N_gterm (GT_ve e) :: nodes_ve e.
Proof. reflexivity. Qed.
Lemma nd_GT_col x0 : nodes_gterm (GT_col x0) = N_gterm (GT_col x0) :: [].
Proof. reflexivity. Qed.
Global Hint Rewrite nd_VE_nb nd_VE_sc nd_VENB nd_VTerm nd_Factor nd_NP_vep nd_NP_nvf nd_NV_trig1 nd_NV_trig2 nd_NV_math0 nd_NV_math1 nd_NV_math2 nd_NV_cast nd_NV_geo1 nd_NV_geo2 nd_NV_udf nd_NV_str nd_VEP nd_VP_array nd_VP_str nd_VP_col nd_VP_setstr nd_VP_set nd_VP_nullif nd_VP_coalesce nd_VP_case nd_VP_scase nd_VP_any nd_VP_sub nd_SWhen nd_QWhen nd_Res_str nd_Res_ve nd_SC_f nd_SC_t nd_BF nd_BP_pred nd_BP_sc nd_BP_val nd_P_cmp nd_P_between nd_P_in nd_P_null nd_P_like nd_P_exists nd_In_sub nd_In_list nd_SQ_jt nd_SQ_q nd_JT_q nd_JT_p nd_QJ nd_QH_tc nd_QH_jt nd_JS nd_JSp_using nd_JSp_on nd_TR_tc nd_TR_jt nd_TR_dc nd_TR_tvf nd_QS nd_With nd_Addon nd_SFW nd_Where nd_G_left nd_G_right nd_GP_intersects nd_GP_contains nd_Select nd_C_star nd_C_list nd_CV_as nd_CV_star nd_CV_ve nd_GT_ve nd_GT_col : nd_eq.

(** ** What [normal] leaves alone *)
Section Kept.
Variable fmt : text -> text.
Lemma is_value_n : forall s, is_value (n_sc fmt s) = is_value s.
Proof.
  fix IH 1. intros [[n p]|[n p] op s]; destruct p as [p|s2|v]; cbn [is_value n_sc n_bfac n_bprim]; rewrite ?IH; try reflexivity; destruct p; reflexivity.
Qed.
Lemma no_value_n s : no_value (n_sc fmt s) = no_value s.
Proof.
  assert (H : forall f, no_value_f (n_bfac fmt f) = no_value_f f).
  { intros [n [p|s2|v]]; cbn [no_value_f n_bfac n_bprim]; [|now rewrite is_value_n|reflexivity]. now destruct p. }
  destruct s as [f|f op s]; cbn [no_value n_sc]; apply H.
Qed.
Lemma open_ve_n v : open_ve (n_ve fmt v) = open_ve v.
Proof. now destruct v. Qed.
Lemma open_f_n f : open_f (n_bfac fmt f) = open_f f.
Proof. destruct f as [n [p|s|v]]; cbn [n_bfac n_bprim open_f]; try reflexivity. destruct p; cbn [n_pred]; try reflexivity; apply open_ve_n. Qed.
Lemma bare_n : forall s, bare (n_sc fmt s) = bare s.
Proof.
  assert (L1 : forall v, (forall s, v = VE_sc s -> bare (n_sc fmt s) = bare s) -> bare_ve (n_ve fmt v) = bare_ve v).
  { intros [v|s] H; [reflexivity|]. exact (H s eq_refl). }
  fix IH 1. intros [[n p]|f op s].
  - destruct p as [p|s|v]; [|exact (is_value_n s)|reflexivity].
    destruct p as [l op r|v0 n0 lo hi|v0 n0 t|v0 n0|v0 n0 p|q]; try reflexivity.
    + destruct r as [r|s]; [reflexivity|]. exact (IH s).
    + destruct hi as [r|s]; [reflexivity|]. exact (IH s).
  - exact (IH s).
Qed.
Lemma takes_joins_n t : takes_joins (n_tref fmt t) = takes_joins t.
Proof. now destruct t. Qed.
Lemma takes_spec_n t : takes_spec (n_tref fmt t) = takes_spec t.
Proof.
  destruct t as [n a|j|q a|f l]; try reflexivity. destruct j as [[h ss]|j]; [|reflexivity].
  change (match rev (map (n_jsuf fmt) ss) with JS _ _ _ None :: _ => true | _ => false end = match rev ss with JS _ _ _ None :: _ => true | _ => false end).
  rewrite <- map_rev. destruct (rev ss) as [|[nt ty t [sp|]] l]; reflexivity.
Qed.
Lemma joins_in_turn_n s1 s2 : joins_in_turn (n_jsuf fmt s1) (n_jsuf fmt s2) = joins_in_turn s1 s2.
Proof.
  destruct s1 as [n1 ty1 t1 [[l|s]|]], s2 as [n2 ty2 t2 sp2]; cbn [n_jsuf n_jspec joins_in_turn]; rewrite ?bare_n, ?takes_joins_n; reflexivity.
Qed.
Lemma in_turn_n ss : in_turn (map (n_jsuf fmt) ss) = in_turn ss.
Proof.
  induction ss as [|s1 ss IH]; [reflexivity|]. destruct ss as [|s2 ss]; [reflexivity|].
  change (joins_in_turn (n_jsuf fmt s1) (n_jsuf fmt s2) && in_turn (map (n_jsuf fmt) (s2 :: ss)) = joins_in_turn s1 s2 && in_turn (s2 :: ss)).
  now rewrite IH, joins_in_turn_n.
Qed.
Lemma sign_of_n f : sign_of (n_factor fmt f) = sign_of f.
Proof. now destruct f. Qed.
Lemma is_string_n f : is_string (n_factor fmt f) = is_string f.
Proof. destruct f as [s [[v idx]|g]]; [|reflexivity]. destruct v; try reflexivity; destruct idx; reflexivity. Qed.
Lemma no_comments_n ts : forall f, no_comments (n_factor fmt f) (map (n_vterm fmt) ts) = no_comments f ts.
Proof.
  induction ts as [|[op f2] ts IH]; intro f; [reflexivity|].
  cbn [map n_vterm no_comments]. now rewrite is_string_n, sign_of_n, IH.
Qed.

(** ** Putting the parts together *)
Hypothesis idem : forall d, fmt (fmt d) = fmt d.
Definition G {A : Set} (nd : A -> list node) (c : A -> bool) (nm : A -> A) (x : A) : Prop :=
  Forall (fun n => fine fmt n = true) (nd x) -> c (nm x) = true.
Definition Gg {A : Set} (nd : A -> list node) (c : bool -> A -> bool) (nm : A -> A) (plain : A -> bool) (x : A) : Prop :=
  Forall (fun n => fine fmt n = true) (nd x) -> forall geo, geo = true \/ plain x = true -> c geo (nm x) = true.
Lemma G_list {A : Set} (nd : A -> list node) (c : A -> bool) (nm : A -> A) l :
  Forall (G nd c nm) l -> Forall (fun n => fine fmt n = true) (flat_map nd l) -> forallb c (map nm l) = true.
Proof.
  induction 1 as [|x l H _ IH]; cbn [flat_map map forallb]; intro F; [reflexivity|].
  apply Forall_app in F as [F1 F2]. now rewrite (H F1), (IH F2).
Qed.
Lemma G_opt {A : Set} (nd : A -> list node) (c : A -> bool) (nm : A -> A) o :
  optP (G nd c nm) o -> Forall (fun n => fine fmt n = true) (onodes nd o) -> match match o with Some x => Some (nm x) | None => None end with Some x => c x | None => true end = true.
Proof. destruct o as [x|]; cbn; auto. Qed.
Definition G_qjoin (q : qjoin) : Prop :=
  Forall (fun n => fine fmt n = true) (nodes_qjoin q) -> (match q with QJ _ ss => negb (is_nil ss) && in_turn ss end) = true -> c_qjoin fmt (n_qjoin fmt q) = true.
Definition G_with (w : withc) : Prop := G nodes_with (c_with fmt) (n_with fmt) w.
Lemma n_not_one w n : is_nil (L w) = false -> one_of (n_not w n) [""%string; w] = true.
Proof.
  unfold n_not. intro E. destruct n as [|a n]; [reflexivity|]. cbn [is_nil]. unfold one_of. cbn [existsb]. 
  destruct (text_eqb (L w) (L w)) eqn:X; [now rewrite orb_true_r|]. exfalso. assert (text_eqb (L w) (L w) = true) by now apply text_eqb_iff. congruence.
Qed.
Ltac open_F F :=
  autorewrite with nd_eq in F; unfold onodes in F;
  try (apply Forall_cons_iff in F as [?F0 F]; cbn [fine] in F0);
  repeat match goal with
  | X : Forall _ (_ ++ _) |- _ => apply Forall_app in X as [? ?]
  | X : Forall _ (_ :: _) |- _ => apply Forall_cons_iff in X as [? ?]
  | X : Forall _ [] |- _ => clear X
  end;
  repeat match goal with X : _ && _ = true |- _ => apply andb_true_iff in X as [? ?] end.
Ltac close_b :=
  repeat match goal with |- _ && _ = true => apply andb_true_iff; split end.
Theorem fine_all :
  (forall v, G nodes_ve (c_ve fmt) (n_ve fmt) v) /\ (forall v, G nodes_venb (c_venb fmt) (n_venb fmt) v) /\ (forall v, G nodes_sc (c_sc fmt) (n_sc fmt) v) /\
  (forall v, G nodes_jt (c_jt fmt) (n_jt fmt) v) /\ (forall q, Gg nodes_qspec (c_qspec fmt) (n_qspec fmt) plain_query q) /\
  (forall v, G nodes_tref (c_tref fmt) (n_tref fmt) v).
Proof.
  destruct (normal_same_all fmt idem) as (Sve & Svenb & Sbp & Sjt & _).
  edestruct (ast_ind (G nodes_ve (c_ve fmt) (n_ve fmt)) (G nodes_venb (c_venb fmt) (n_venb fmt)) (G nodes_vterm (c_vterm fmt) (n_vterm fmt)) (G nodes_factor (c_factor fmt) (n_factor fmt))
    (G nodes_nprim (c_nprim fmt) (n_nprim fmt)) (G nodes_nvf (c_nvf fmt) (n_nvf fmt)) (G nodes_vep (c_vep fmt) (n_vep fmt)) (G nodes_vepv (c_vepv fmt) (n_vepv fmt))
    (G nodes_swhen (c_swhen fmt) (n_swhen fmt)) (G nodes_qwhen (c_qwhen fmt) (n_qwhen fmt)) (G nodes_result (c_result fmt) (n_result fmt)) (G nodes_sc (c_sc fmt) (n_sc fmt)) (G nodes_bfac (c_bfac fmt) (n_bfac fmt))
    (G nodes_bprim (c_bprim fmt) (n_bprim fmt)) (G nodes_pred (c_pred fmt) (n_pred fmt)) (G nodes_intarget (c_intarget fmt) (n_intarget fmt)) (G nodes_subq (c_subq fmt) (n_subq fmt))
    (G nodes_jt (c_jt fmt) (n_jt fmt)) G_qjoin (G nodes_qjhead (c_qjhead fmt) (n_qjhead fmt)) (G nodes_jsuf (c_jsuf fmt) (n_jsuf fmt)) (G nodes_jspec (c_jspec fmt) (n_jspec fmt))
    (G nodes_tref (c_tref fmt) (n_tref fmt)) (Gg nodes_qspec (c_qspec fmt) (n_qspec fmt) plain_query) (G nodes_with (c_with fmt) (n_with fmt))
    (Gg nodes_addon (c_addon fmt) (n_addon fmt) (fun a => match a with Addon _ s => plain_sfw s end)) (Gg nodes_sfw (c_sfw fmt) (n_sfw fmt) plain_sfw)
    (Gg nodes_where (c_where fmt) (n_where fmt) plain_where) (G nodes_geom (c_geom fmt) (n_geom fmt)) (G nodes_gpred (c_gpred fmt) (n_gpred fmt)) (G nodes_select (c_select fmt) (n_select fmt)) (G nodes_columns (c_columns fmt) (n_columns fmt))
    (G nodes_colv (c_colv fmt) (n_colv fmt)) (G nodes_gterm (c_gterm fmt) (n_gterm fmt))).
  all: try solve [intros; intro F; open_F F; autorewrite with n_eq c_eq; rewrite ?no_value_n, ?open_ve_n, ?open_f_n, ?is_nil_map, ?no_comments_n; close_b; eauto; try discriminate; eauto using G_list].
  - intros v idx Hv Hi F. open_F F. autorewrite with n_eq c_eq. close_b; eauto using G_list. rewrite is_nil_map. destruct idx as [|i idx]; [reflexivity|].
    cbn [is_nil orb] in *. destruct v; try reflexivity. assumption.
  - intros x w e Hx Hw He F. open_F F. autorewrite with n_eq c_eq. rewrite is_nil_map. close_b; eauto using G_list. destruct e as [r|]; cbn in *; auto.
  - intros w e Hw He F. open_F F. autorewrite with n_eq c_eq. rewrite is_nil_map. close_b; eauto using G_list. destruct e as [r|]; cbn in *; auto.
  - intros n p Hp F. open_F F. autorewrite with n_eq c_eq. rewrite (proj1 (Sbp p)). close_b; auto.
  - intros v Hv F. open_F F. autorewrite with n_eq c_eq. rewrite (proj1 (Svenb v)). close_b; auto.
  - intros v n t Hv Ht F. open_F F. autorewrite with n_eq c_eq. close_b; auto. now apply n_not_one.
  - intros v n Hv F. open_F F. autorewrite with n_eq c_eq. close_b; auto. now apply n_not_one.
  - intros v n p Hv Hp F. open_F F. autorewrite with n_eq c_eq. rewrite open_ve_n. close_b; auto. now apply n_not_one.
  - intros l Hl F. autorewrite with nd_eq in F. apply Forall_cons_iff in F as [F0 F]. cbn [fine] in F0. autorewrite with n_eq c_eq. rewrite is_nil_map.
    destruct l as [|x l]; [discriminate|]. unfold not_query in F0. apply andb_true_iff in F0 as [N1 N2]. close_b; eauto using G_list.
    cbn [map]. rewrite (proj1 (Sve x)). close_b; auto.
  - intros j Hj F. open_F F. unfold not_query in F0. apply andb_true_iff in F0 as [N1 N2]. autorewrite with n_eq c_eq. rewrite (proj1 (Sjt j)). close_b; auto.
  - intros h ss Hh Hs F E. open_F F. autorewrite with n_eq c_eq. rewrite is_nil_map, in_turn_n. close_b; eauto using G_list.
  - intros j Hj F. open_F F. destruct j as [q|j]; [discriminate|]. autorewrite with n_eq c_eq. apply Hj in F. autorewrite with n_eq c_eq in F. exact F.
  - intros nt ty t sp Ht Hs F. open_F F. autorewrite with n_eq c_eq. close_b; auto. destruct sp as [sp|]; [|reflexivity]. rewrite takes_spec_n. cbn in Hs. close_b; auto.
  - intros q a Hq F. open_F F. destruct q as [j|q]; [discriminate|]. autorewrite with n_eq c_eq. close_b; auto.
  - intros w i ad g h o Hw Hi Ha Hg Hh F geo P. open_F F. autorewrite with n_eq c_eq.
    assert (P1 : geo = true \/ plain_sfw i = true).
    { destruct P as [P|P]; [now left|]. cbn in P. apply andb_true_iff in P as [P _]. now right. }
    assert (P2 : geo = true \/ forallb (fun a => match a with Addon _ s => plain_sfw s end) ad = true).
    { destruct P as [P|P]; [now left|]. cbn in P. apply andb_true_iff in P as [_ P]. now right. }
    close_b; eauto using G_list.
    + destruct w; cbn in *; auto.
    + clear - Ha H1 P2. induction Ha as [|a ad H _ IH]; [reflexivity|]. cbn [flat_map] in H1. apply Forall_app in H1 as [F1 F2]. cbn [map forallb] in *.
      assert (X : geo = true \/ match a with Addon _ s => plain_sfw s end = true) by (destruct P2 as [P|P]; [now left|apply andb_true_iff in P as [P _]; now right]).
      assert (Y : geo = true \/ forallb (fun a => match a with Addon _ s => plain_sfw s end) ad = true) by (destruct P2 as [P|P]; [now left|apply andb_true_iff in P as [_ P]; now right]).
      now rewrite (H F1 geo X), (IH F2 Y).
    + destruct h; cbn in *; auto.
    + match goal with X : Forall _ (map N_sort o) |- _ => clear - X; induction o as [|[k d] o IH]; [reflexivity|]; cbn [map] in X; apply Forall_cons_iff in X as [X0 X]; cbn [forallb]; rewrite (IH X), andb_true_r; exact X0 end.
  - intros op s Hs F geo P. open_F F. autorewrite with n_eq c_eq. close_b; auto.
  - intros s ts w Hs Ht Hw F geo P. open_F F. autorewrite with n_eq c_eq. rewrite is_nil_map. close_b; eauto using G_list.
  - intros g s Hg Hs F geo P. open_F F. autorewrite with n_eq c_eq. close_b.
    + destruct g as [g|]; [|reflexivity]. destruct P as [P|P]; [|discriminate]. rewrite P. cbn in *. auto.
    + destruct s; cbn in *; auto.
  - intuition.
Qed.
Theorem fine_canonical q : Forall (fun n => fine fmt n = true) (nodes_qspec q) -> canonical fmt (normal fmt q) = true.
Proof. intro F. unfold canonical, normal. destruct fine_all as (_ & _ & _ & _ & H & _). apply H; auto. Qed.
End Kept.
