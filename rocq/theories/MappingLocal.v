(** Only the names of uploaded tables that are written in the text matter (C40). *)
From Verif Require Import Query Spec SpecLexical SpecUploads PegProps TextLemmas LexProofs2.

Section Maps.
Variables m m' : text -> option text.

Definition good (i : text) : Prop := forall n, names_upload i n -> m n = m' n.
Lemma good_suffix i r : suffix r i -> good i -> good r.
Proof. intros [p ->] G n (a & b & -> & I). apply G. exists (p ++ a), b. rewrite <- app_assoc. auto. Qed.
Lemma good_skip i : good i -> good (skip i). Proof. apply good_suffix, skip_suffix. Qed.

Definition sloc (e e' : se) : Prop := forall acc i, good i -> srun e acc i = srun e' acc i.
Lemma sloc_refl e : sloc e e. Proof. now intros acc i _. Qed.
Lemma sloc_seq a a' b b' : sloc a a' -> sloc b b' -> sloc (SSeq a b) (SSeq a' b').
Proof.
  intros Ha Hb acc i G. cbn [srun]. rewrite <- (Ha acc i G). destruct (srun a acc i) as [x r| | |] eqn:E; auto.
  apply Hb. exact (good_suffix i r (srun_suffix _ _ _ _ _ E) G).
Qed.
Lemma sloc_alt a a' b b' : sloc a a' -> sloc b b' -> sloc (SAlt a b) (SAlt a' b').
Proof. intros Ha Hb acc i G. cbn [srun]. rewrite <- (Ha acc i G). destruct (srun a acc i); auto. Qed.
Lemma sloc_tap : sloc (s_tap_upload m) (s_tap_upload m').
Proof.
  intros acc i G. unfold s_tap_upload. cbn [srun]. destruct (strip _ _ _) as [[t r]|] eqn:S; auto.
  destruct (srun s_identifier [] r) as [s r'|s|x|] eqn:E; auto.
  apply identifier_inv in E as (-> & I). rewrite (G s); [reflexivity|].
  apply strip_cs_iff in S as [-> ->]. exists [], r'. auto.
Qed.
Lemma sloc_table : sloc (s_table_name m) (s_table_name m').
Proof. apply sloc_alt; [apply sloc_tap|apply sloc_refl]. Qed.
Lemma sloc_qstar : sloc (s_qualifier_star m) (s_qualifier_star m').
Proof. apply sloc_seq; [apply sloc_table|apply sloc_refl]. Qed.

Section Level.
Variable n : nat.
Notation R := (run (g_body m) n). Notation R' := (run (g_body m') n).
Definition ploc {A : Set} (e e' : PE A) : Prop := forall i, good i -> R _ e i = R' _ e' i.
Lemma next {A : Set} (e : PE A) i v r : R _ e i = Ok v r -> good i -> good r.
Proof. intros E. exact (good_suffix i r (run_suffix _ _ _ _ _ _ _ E)). Qed.

Lemma ploc_lit nc s : ploc (PLit nc s) (PLit nc s). Proof. intros i G. now rewrite !run_Lit. Qed.
Lemma ploc_lex e e' : sloc e e' -> ploc (PLex e) (PLex e').
Proof. intros H i G. rewrite !run_Lex. unfold lex. now rewrite (H [] (skip i) (good_skip i G)). Qed.
Lemma ploc_optlex e e' : sloc e e' -> ploc (POptLex e) (POptLex e').
Proof. intros H i G. rewrite !run_OptLex. now rewrite (H [] (skip i) (good_skip i G)). Qed.
Lemma ploc_space : ploc PSpace PSpace. Proof. intros i G. now rewrite !run_Space. Qed.
Lemma ploc_dbl : ploc PDbl PDbl. Proof. intros i G. now rewrite !run_Dbl. Qed.
Lemma ploc_top : ploc PTop PTop. Proof. intros i G. now rewrite !run_Top. Qed.
Lemma ploc_ret {A : Set} (v : A) : ploc (PRet v) (PRet v). Proof. intros i G. now rewrite !run_Ret. Qed.
Lemma ploc_seq {A B : Set} (a a' : PE A) (b b' : PE B) : ploc a a' -> ploc b b' -> ploc (PSeq a b) (PSeq a' b').
Proof.
  intros Ha Hb i G. rewrite !run_Seq. rewrite <- (Ha i G). destruct (R _ a i) as [v r| | |] eqn:E; auto. now rewrite (Hb r (next _ _ _ _ E G)).
Qed.
Lemma ploc_exp {A B : Set} (a a' : PE A) (b b' : PE B) : ploc a a' -> ploc b b' -> ploc (PExp a b) (PExp a' b').
Proof.
  intros Ha Hb i G. rewrite !run_Exp. rewrite <- (Ha i G). destruct (R _ a i) as [v r| | |] eqn:E; auto. now rewrite (Hb r (next _ _ _ _ E G)).
Qed.
Lemma ploc_alt {A : Set} (a a' b b' : PE A) : ploc a a' -> ploc b b' -> ploc (PAlt a b) (PAlt a' b').
Proof. intros Ha Hb i G. rewrite !run_Alt. rewrite <- (Ha i G). pose proof (run_ok (g_body m) n A a i) as K. destruct (R _ a i) as [v r|r|x|]; try reflexivity. apply Hb. exact (good_suffix i r K G). Qed.
Lemma ploc_opt {A : Set} (a a' : PE A) : ploc a a' -> ploc (POpt a) (POpt a').
Proof. intros Ha i G. rewrite !run_Opt. now rewrite (Ha i G). Qed.
Lemma ploc_map {A B : Set} (f : A -> B) (a a' : PE A) : ploc a a' -> ploc (PMap f a) (PMap f a').
Proof. intros Ha i G. rewrite !run_Map. now rewrite (Ha i G). Qed.
Lemma pstar_loc {A : Set} (a a' : PE A) k : ploc a a' -> forall i, good i -> pstar (R _ a) k i = pstar (R' _ a') k i.
Proof.
  intros Ha. induction k as [|k IH]; intros i G; cbn [pstar]; rewrite <- (Ha i G); [reflexivity|].
  destruct (R _ a i) as [v r| | |] eqn:E; auto. now rewrite (IH r (next _ _ _ _ E G)).
Qed.
Lemma plist_loc {A : Set} (a a' : PE A) (s s' : PE unit) k : ploc a a' -> ploc s s' -> forall i, good i -> plist (R _ a) (R _ s) k i = plist (R' _ a') (R' _ s') k i.
Proof.
  intros Ha Hs. induction k as [|k IH]; intros i G; cbn [plist]; rewrite <- (Hs i G); (destruct (R _ s i) as [v r| | |] eqn:E; [|auto..]);
    pose proof (next _ _ _ _ E G) as G1; rewrite <- (Ha r G1); (destruct (R _ a r) as [v1 r1| | |] eqn:E1; [|auto..]); [reflexivity|].
  now rewrite (IH r1 (next _ _ _ _ E1 G1)).
Qed.
Lemma ploc_star {A : Set} (a a' : PE A) : ploc a a' -> ploc (PStar a) (PStar a').
Proof. intros Ha i G. rewrite !run_Star. now apply pstar_loc. Qed.
Lemma ploc_plus {A : Set} (a a' : PE A) : ploc a a' -> ploc (PPlus a) (PPlus a').
Proof.
  intros Ha i G. rewrite !run_Plus. rewrite <- (Ha i G). destruct (R _ a i) as [v r| | |] eqn:E; auto.
  now rewrite (pstar_loc a a' (length r) Ha r (next _ _ _ _ E G)).
Qed.
Lemma ploc_list {A : Set} (a a' : PE A) s s' : ploc a a' -> ploc s s' -> ploc (PList a s) (PList a' s').
Proof.
  intros Ha Hs i G. rewrite !run_List. rewrite <- (Ha i G). destruct (R _ a i) as [v r| | |] eqn:E; auto.
  now rewrite (plist_loc a a' s s' (length r) Ha Hs r (next _ _ _ _ E G)).
Qed.
End Level.

Ltac ploc_step :=
  lazymatch goal with
  | |- ploc _ (PLit _ _) _ => apply ploc_lit
  | |- ploc _ (PLex _) _ => apply ploc_lex; first [apply sloc_refl | apply sloc_tap | apply sloc_table | apply sloc_qstar]
  | |- ploc _ (POptLex _) _ => apply ploc_optlex; apply sloc_refl
  | |- ploc _ PSpace _ => apply ploc_space
  | |- ploc _ PDbl _ => apply ploc_dbl
  | |- ploc _ PTop _ => apply ploc_top
  | |- ploc _ (PRet _) _ => apply ploc_ret
  | |- ploc _ (PSeq _ _) _ => apply ploc_seq
  | |- ploc _ (PExp _ _) _ => apply ploc_exp
  | |- ploc _ (PAlt _ _) _ => apply ploc_alt
  | |- ploc _ (POpt _) _ => apply ploc_opt
  | |- ploc _ (PStar _) _ => apply ploc_star
  | |- ploc _ (PPlus _) _ => apply ploc_plus
  | |- ploc _ (PList _ _) _ => apply ploc_list
  | |- ploc _ (PMap _ _) _ => apply ploc_map
  | |- ploc _ (PRule ?q) _ => match goal with H : _ |- _ => exact (H q) end
  | |- ploc _ (?e ?x ?y) _ => unfold e
  | |- ploc _ (?e ?x) _ => unfold e
  | |- ploc _ ?e _ => unfold e
  end.
Ltac loc := cbn [g_body]; repeat ploc_step.
Lemma rules_loc n : (forall q, ploc n (PRule q) (PRule q)) -> forall r, ploc n (g_body m r) (g_body m' r).
Proof. intros H r. destruct r; loc. Qed.
Lemma rule_loc n : forall q, ploc n (PRule q) (PRule q).
Proof.
  induction n as [|n IH]; intros q i G; [reflexivity|]. rewrite !run_Rule. apply rules_loc; [exact IH|exact G].
Qed.
Lemma query_loc n : ploc n (g_query m) (g_query m').
Proof. pose proof (rule_loc n) as H. loc. Qed.
End Maps.


Lemma same_mapping tm tm' t : (forall n, names_upload t n -> lookup tm n = lookup tm' n) -> parse_it tm t = parse_it tm' t.
Proof. intros G. unfold parse_it, grun. now rewrite (query_loc _ _ (fuel_for t) t G). Qed.
