(** What an expression does on an input can often be told from the first byte behind the white
    space.  [pclass e c] is a static approximation of that. *)
From Verif Require Import Grammar PegProps PegSpec PegEquiv.

Inductive cls : Set :=
| C_fail      (* fails *)
| C_empty     (* succeeds without consuming anything but white space *)
| C_any.      (* unknown *)

(** [starts l c]: the literal [l] may match an input with first byte [c]. *)
Definition starts (nc : bool) (l : text) (c : option ascii) : cls :=
  match l, c with
  | [], _ => C_empty
  | _ :: _, None => C_fail
  | a :: _, Some b => if eq_ch nc a b then C_any else C_fail
  end.
Fixpoint sclass (e : se) (c : option ascii) : cls :=
  match e with
  | SChr f => match c with Some b => if f b then C_any else C_fail | None => C_fail end
  | SLit nc s | SStr nc s => starts nc s c
  | SSeq a b => match sclass a c with C_fail => C_fail | C_empty => sclass b c | C_any => C_any end
  | SAlt a b => match sclass a c with C_fail => sclass b c | x => x end
  | SStar a => match sclass a c with C_fail => C_empty | _ => C_any end
  | SPlus a => match sclass a c with C_fail => C_fail | _ => C_any end
  | SOpt a => match sclass a c with C_fail | C_empty => C_empty | C_any => C_any end
  | SHold a => sclass a c
  | SAnd a => sclass a c
  | SNot a => match sclass a c with C_fail => C_empty | C_empty => C_fail | C_any => C_any end
  | SDiff a b => match sclass b c with C_fail => sclass a c | C_empty => C_fail | C_any => C_any end
  | SExp a b => match sclass a c with C_fail => C_fail | C_empty => match sclass b c with C_empty => C_empty | _ => C_any end | C_any => C_any end
  | SMap _ a => match sclass a c with C_fail => C_fail | _ => C_any end
  end.
Definition hd_of (i : text) : option ascii := match i with [] => None | c :: _ => Some c end.
Lemma starts_ok nc l i : match starts nc l (hd_of i) with
  | C_fail => strip nc l i = None | C_empty => strip nc l i = Some ([], i) | C_any => True end.
Proof. destruct l as [|a l]; [reflexivity|]. destruct i as [|b i]; [reflexivity|]. cbn. destruct (eq_ch nc a b); auto. Qed.
Lemma sclass_ok e : forall acc i, match sclass e (hd_of i) with
  | C_fail => exists a, sev e acc i (SFail a) | C_empty => exists a, sev e acc i (SOk a i) | C_any => True end.
Proof.
  induction e; intros acc i; cbn [sclass].
  - destruct i as [|c i]; cbn [hd_of]; [eexists; apply sev_chr_end|]. destruct (f c) eqn:E; auto. eexists. now apply sev_chr_no.
  - pose proof (starts_ok nc s i). destruct (starts nc s (hd_of i)); auto; eexists; econstructor; eauto.
  - pose proof (starts_ok nc s i). destruct (starts nc s (hd_of i)); auto; eexists; econstructor; eauto.
  - specialize (IHe1 acc i). destruct (sclass e1 (hd_of i)); auto; destruct IHe1 as (a & H); [eexists; apply sev_seq_no; eauto|].
    specialize (IHe2 a i). destruct (sclass e2 (hd_of i)); auto; destruct IHe2 as (a' & H'); eexists; eapply sev_seq_ok; eauto.
  - specialize (IHe1 acc i). destruct (sclass e1 (hd_of i)); auto; destruct IHe1 as (a & H); [|eexists; apply sev_alt_1; eauto].
    specialize (IHe2 a i). destruct (sclass e2 (hd_of i)); auto; destruct IHe2 as (a' & H'); eexists; eapply sev_alt_2; eauto.
  - specialize (IHe acc i). destruct (sclass e (hd_of i)); auto. destruct IHe as (a & H). eexists. apply sev_star_stop; eauto.
  - specialize (IHe acc i). destruct (sclass e (hd_of i)); auto. destruct IHe as (a & H). eexists. apply sev_plus_no; eauto.
  - specialize (IHe acc i). destruct (sclass e (hd_of i)); auto; destruct IHe as (a & H); eexists; [apply sev_opt_no|apply sev_opt_ok]; eauto.
  - specialize (IHe acc i). destruct (sclass e (hd_of i)); auto; destruct IHe as (a & H); eexists; [eapply sev_hold_no|apply sev_hold_ok]; eauto.
  - specialize (IHe [] i). destruct (sclass e (hd_of i)); auto; destruct IHe as (a & H); eexists; [eapply sev_and_no|eapply sev_and_ok]; eauto.
  - specialize (IHe [] i). destruct (sclass e (hd_of i)); auto; destruct IHe as (a & H); eexists; [eapply sev_not_ok|eapply sev_not_no]; eauto.
  - specialize (IHe2 [] i). destruct (sclass e2 (hd_of i)); auto; destruct IHe2 as (a & H); [|eexists; eapply sev_diff_no; eauto].
    specialize (IHe1 acc i). destruct (sclass e1 (hd_of i)); auto; destruct IHe1 as (a' & H'); eexists; eapply sev_diff_ok; eauto.
  - specialize (IHe1 acc i). destruct (sclass e1 (hd_of i)); auto; destruct IHe1 as (a & H); [eexists; apply sev_exp_no; eauto|].
    specialize (IHe2 a i). destruct (sclass e2 (hd_of i)); auto; destruct IHe2 as (a' & H'). eexists; eapply sev_exp_ok; eauto.
  - specialize (IHe [] i). destruct (sclass e (hd_of i)); auto. destruct IHe as (a & H). eexists. eapply sev_map_no; eauto.
Qed.

Definition dbl_class (c : option ascii) : cls :=
  match c with
  | None => C_fail
  | Some b => if is_digit b || existsb (Ascii.eqb b) (L "+-.nNiI") then C_any else C_fail
  end.
Lemma span_none f i : match hd_of i with Some c => f c | None => false end = false -> span f i = ([], i).
Proof. destruct i; cbn; [reflexivity|]. now intros ->. Qed.
Lemma dbl_class_ok i : dbl_class (hd_of i) = C_fail -> dbl i = None.
Proof.
  destruct i as [|c i]; [reflexivity|]. cbn [hd_of dbl_class]. destruct (_ || _) eqn:E; [discriminate|]. intros _.
  apply orb_false_iff in E as [D E]. cbn [existsb L list_ascii_of_string] in E. repeat (apply orb_false_iff in E as [? E]).
  unfold dbl. rewrite H, H0. cbn [orb]. unfold dbl_unsigned. rewrite span_none by exact D.
  assert (strip true (L "nan") (c :: i) = None) as ->.
  { assert (eq_nc "n" c = false) as En; [|cbn [L list_ascii_of_string strip eq_ch]; now rewrite En].
    clear - H2 H3. revert H2 H3. destruct c as [[] [] [] [] [] [] [] []]; cbn; congruence. }
  assert (strip true (L "inf") (c :: i) = None) as ->.
  { assert (eq_nc "i" c = false) as En; [|cbn [L list_ascii_of_string strip eq_ch]; now rewrite En].
    clear - H4 H5. revert H4 H5. destruct c as [[] [] [] [] [] [] [] []]; cbn; congruence. }
  cbn. apply Ascii.eqb_neq in H1. clear - H1. destruct c as [[] [] [] [] [] [] [] []]; try reflexivity. now destruct H1.
Qed.
Definition top_class (c : option ascii) : cls :=
  match c with Some b => if is_digit b then C_any else C_fail | None => C_fail end.
Lemma top_class_ok i : top_class (hd_of i) = C_fail -> ulong i = None.
Proof.
  intros H. unfold ulong. rewrite span_none; [reflexivity|]. destruct i as [|c i]; [reflexivity|]. cbn in *. destruct (is_digit c); congruence.
Qed.

Section Class.
Variable tab : rule -> option ascii -> cls.
Fixpoint pclass {A : Set} (e : PE A) (c : option ascii) : cls :=
  match e with
  | PLit nc s => starts nc s c
  | PLex e => match sclass e c with C_fail => C_fail | C_empty => C_empty | C_any => C_any end
  | POptLex e => match sclass e c with C_fail | C_empty => C_empty | C_any => C_any end
  | PSpace => C_any
  | PDbl => dbl_class c
  | PTop => top_class c
  | PRet _ => C_empty
  | PSeq a b => match pclass a c with C_fail => C_fail | C_empty => pclass b c | C_any => C_any end
  | PExp a b => match pclass a c with C_fail => C_fail | C_empty => match pclass b c with C_empty => C_empty | _ => C_any end | C_any => C_any end
  | PAlt a b => match pclass a c with C_fail => pclass b c | x => x end
  | POpt a => match pclass a c with C_fail | C_empty => C_empty | C_any => C_any end
  | PStar a => match pclass a c with C_fail => C_empty | _ => C_any end
  | PPlus a => match pclass a c with C_fail => C_fail | _ => C_any end
  | PList a _ => match pclass a c with C_fail => C_fail | _ => C_any end
  | PMap _ a => pclass a c
  | PRule r => tab r c
  end.
End Class.
Section Sound.
Variable m : text -> option text.
Notation EV := (ev (g_body m) _).
Definition sound1 {A : Set} (e : PE A) (i : text) (x : cls) : Prop :=
  match x with
  | C_fail => exists r, EV e i (Fail r) /\ skip r = skip i
  | C_empty => exists v r, EV e i (Ok v r) /\ skip r = skip i
  | C_any => True
  end.
Lemma pclass_ok tab (Htab : forall r i, sound1 (PRule r) i (tab r (hd_of (skip i)))) (A : Set) (e : PE A) :
  forall i, sound1 e i (pclass tab e (hd_of (skip i))).
Proof.
  induction e; intros i; cbn [pclass].
  - pose proof (starts_ok nc s (skip i)). destruct (starts nc s _); cbn; auto.
    + eexists; split; [now apply ev_lit_no|apply skip_skip].
    + do 2 eexists; split; [eapply ev_lit_ok; eauto|apply skip_skip].
  - pose proof (sclass_ok e [] (skip i)). destruct (sclass e _); cbn; auto; destruct H as (a & H).
    + eexists; split; [eapply ev_lex_no; eauto|apply skip_skip].
    + do 2 eexists; split; [eapply ev_lex_ok; eauto|apply skip_skip].
  - pose proof (sclass_ok e [] (skip i)). destruct (sclass e _); cbn; auto; destruct H as (a & H).
    + do 2 eexists; split; [eapply ev_olex_no; eauto|apply skip_skip].
    + do 2 eexists; split; [eapply ev_olex_ok; eauto|apply skip_skip].
  - exact I.
  - pose proof (dbl_class_ok (skip i)). destruct (dbl_class _) eqn:E; cbn; auto.
    + eexists; split; [apply ev_dbl_no; auto|apply skip_skip].
    + exfalso. unfold dbl_class in E. destruct (hd_of _); [|discriminate]. destruct (_ || _); discriminate.
  - pose proof (top_class_ok (skip i)). destruct (top_class _) eqn:E; cbn; auto.
    + eexists; split; [apply ev_top_no; auto|apply skip_skip].
    + exfalso. unfold top_class in E. destruct (hd_of _); [|discriminate]. destruct (is_digit _); discriminate.
  - cbn. do 2 eexists. split; [apply ev_ret|reflexivity].
  - specialize (IHe1 i). destruct (pclass tab e1 _); cbn in *; auto.
    + destruct IHe1 as (r & H & S). eexists. split; [eapply ev_seq_no; eauto|reflexivity].
    + destruct IHe1 as (v & r & H & S). specialize (IHe2 r). rewrite S in IHe2. destruct (pclass tab e2 _); cbn in *; auto.
      * destruct IHe2 as (r' & H' & S'). eexists. split; [eapply ev_seq_no2; eauto|reflexivity].
      * destruct IHe2 as (v' & r' & H' & S'). do 2 eexists. split; [eapply ev_seq_ok; eauto|congruence].
  - specialize (IHe1 i). destruct (pclass tab e1 _); cbn in *; auto.
    + destruct IHe1 as (r & H & S). eexists. split; [eapply ev_exp_no; eauto|reflexivity].
    + destruct IHe1 as (v & r & H & S). specialize (IHe2 r). rewrite S in IHe2. destruct (pclass tab e2 _); cbn in *; auto.
      destruct IHe2 as (v' & r' & H' & S'). do 2 eexists. split; [eapply ev_exp_ok; eauto|congruence].
  - specialize (IHe1 i). destruct (pclass tab e1 _); cbn in *; auto.
    + destruct IHe1 as (r & H & S). specialize (IHe2 r). rewrite S in IHe2. destruct (pclass tab e2 _); cbn in *; auto.
      * destruct IHe2 as (r' & H' & S'). eexists. split; [eapply ev_alt_2; eauto|congruence].
      * destruct IHe2 as (v' & r' & H' & S'). do 2 eexists. split; [eapply ev_alt_2; eauto|congruence].
    + destruct IHe1 as (v & r & H & S). do 2 eexists. split; [eapply ev_alt_1; eauto|auto].
  - specialize (IHe i). destruct (pclass tab e _); cbn in *; auto.
    + destruct IHe as (r & H & S). do 2 eexists. split; [eapply ev_opt_no; eauto|auto].
    + destruct IHe as (v & r & H & S). do 2 eexists. split; [eapply ev_opt_ok; eauto|auto].
  - specialize (IHe i). destruct (pclass tab e _); cbn in *; auto.
    destruct IHe as (r & H & S). do 2 eexists. split; [eapply ev_star_stop; eauto|auto].
  - specialize (IHe i). destruct (pclass tab e _); cbn in *; auto.
    destruct IHe as (r & H & S). eexists. split; [eapply ev_plus_no; eauto|auto].
  - specialize (IHe1 i). destruct (pclass tab e1 _); cbn in *; auto.
    destruct IHe1 as (r & H & S). eexists. split; [eapply ev_list_no; eauto|auto].
  - specialize (IHe i). destruct (pclass tab e _); cbn in *; auto.
    + destruct IHe as (r & H & S). eexists. split; [eapply ev_map_no; eauto|auto].
    + destruct IHe as (v & r & H & S). do 2 eexists. split; [eapply ev_map_ok; eauto|auto].
  - apply Htab.
Qed.
(** The table for the recursive rules, by iteration. *)
Fixpoint rclass (n : nat) (r : rule) (c : option ascii) : cls :=
  match n with O => C_any | S n' => pclass (rclass n') (g_body m r) c end.
Lemma rclass_ok n : forall r i, sound1 (PRule r) i (rclass n r (hd_of (skip i))).
Proof.
  induction n as [|n IH]; intros r i; [exact I|]. cbn [rclass]. pose proof (pclass_ok _ IH _ (g_body m r) i) as H.
  destruct (pclass _ _ _); cbn in *; auto.
  - destruct H as (x & H & S). eexists. split; [eapply ev_rule; eauto|auto].
  - destruct H as (v & x & H & S). do 2 eexists. split; [eapply ev_rule; eauto|auto].
Qed.
Definition gclass {A : Set} (e : PE A) (c : option ascii) : cls := pclass (rclass 6) e c.
Lemma gclass_ok (A : Set) (e : PE A) i : sound1 e i (gclass e (hd_of (skip i))).
Proof. apply pclass_ok, rclass_ok. Qed.
Lemma first_fail (A : Set) (e : PE A) i : gclass e (hd_of (skip i)) = C_fail -> exists r, EV e i (Fail r) /\ skip r = skip i.
Proof. intros H. pose proof (gclass_ok A e i) as G. now rewrite H in G. Qed.
End Sound.
