(** Letter case does not matter: numbers and the token level (C12). *)
From Verif Require Import Query PegProps TextLemmas SpecCase CaseLex.

(** * Numbers *)
Lemma dbl_exp_ueq i i' : ueq i i' -> ueq (fst (dbl_exp i)) (fst (dbl_exp i')) /\ ueq (snd (dbl_exp i)) (snd (dbl_exp i')).
Proof.
  intros H. unfold dbl_exp. destruct i as [|c i]; [apply ueq_nil in H; subst; split; reflexivity|].
  destruct (ueq_cons _ _ _ H) as (d & i2 & -> & U & H').
  assert (C : cinv (fun c => Ascii.eqb c "e" || Ascii.eqb c "E")) by cinv. rewrite <- (C _ _ U). clear C.
  destruct (Ascii.eqb c "e" || Ascii.eqb c "E"); [|split; [reflexivity|exact H]].
  set (sg := fun j : text => match j with
    | s :: i' => if Ascii.eqb s "+" || Ascii.eqb s "-" then ([s], i') else ([], j)
    | [] => ([], j) end).
  change (match i with s :: i' => if Ascii.eqb s "+" || Ascii.eqb s "-" then ([s], i') else ([], i) | [] => ([], i) end) with (sg i).
  change (match i2 with s :: i' => if Ascii.eqb s "+" || Ascii.eqb s "-" then ([s], i') else ([], i2) | [] => ([], i2) end) with (sg i2).
  assert (S : ueq (fst (sg i)) (fst (sg i2)) /\ ueq (snd (sg i)) (snd (sg i2))).
  { unfold sg. destruct i as [|s i]; [apply ueq_nil in H'; subst; split; reflexivity|].
    destruct (ueq_cons _ _ _ H') as (s' & i3 & -> & Us & H3).
    assert (C : cinv (fun c => Ascii.eqb c "+" || Ascii.eqb c "-")) by cinv. rewrite <- (C _ _ Us).
    destruct (Ascii.eqb s "+" || Ascii.eqb s "-"); cbn [fst snd]; split; auto; try reflexivity. now apply ueq_cons_i. }
  destruct (sg i) as [a r], (sg i2) as [a' r']. cbn [fst snd] in S. destruct S as [Sa Sr].
  destruct (span_ueq is_digit _ _ cinv_digit Sr) as [D1 D2].
  destruct (span is_digit r) as [ds r3], (span is_digit r') as [ds' r3']. cbn [fst snd] in *.
  rewrite <- (ueq_is_nil _ _ D1). destruct (is_nil ds); cbn [fst snd]; [split; [reflexivity|exact H]|].
  split; [|exact D2]. apply ueq_cons_i; [exact U|]. now apply ueq_app.
Qed.

Definition special (i : text) : option (text * text) :=
  match strip true (L "nan") i with
  | Some (m, c :: r) =>
      if Ascii.eqb c "(" then
        let (body, r') := span (fun c => negb (Ascii.eqb c ")")) r in
        match r' with
        | _ :: r'' => Some (m ++ "("%char :: body ++ [")"%char], r'')
        | [] => None
        end
      else Some (m, c :: r)
  | Some (m, r) => Some (m, r)
  | None =>
      match strip true (L "inf") i with
      | Some (m, r) =>
          match strip true (L "inity") r with
          | Some (m', r') => Some (m ++ m', r')
          | None => Some (m, r)
          end
      | None => None
      end
  end.
Definition dbl_u (i : text) : option (text * text) :=
  let (ds, i1) := span is_digit i in
  match (if is_nil ds then special i else None) with
  | Some x => Some x
  | None =>
      match i1 with
      | c :: i2 =>
          if Ascii.eqb c "." then
            let (fs, i3) := span is_digit i2 in
            if is_nil ds && is_nil fs then None
            else let (ex, i4) := dbl_exp i3 in Some (ds ++ "."%char :: fs ++ ex, i4)
          else if is_nil ds then None else let (ex, i4) := dbl_exp i1 in Some (ds ++ ex, i4)
      | [] => if is_nil ds then None else let (ex, i4) := dbl_exp i1 in Some (ds ++ ex, i4)
      end
  end.
Lemma dbl_u_eq i : dbl_unsigned i = dbl_u i.
Proof.
  unfold dbl_unsigned, dbl_u. destruct (span is_digit i) as [ds i1].
  match goal with |- match (if is_nil ds then ?s else None) with _ => _ end = _ => assert (E : s = special i) end.
  { unfold special. destruct (strip true (L "nan") i) as [[mm [|c r]]|]; auto.
    destruct c as [[] [] [] [] [] [] [] []]; reflexivity. }
  rewrite E. destruct (if is_nil ds then special i else None); auto.
  destruct i1 as [|c i2]; auto. destruct c as [[] [] [] [] [] [] [] []]; reflexivity.
Qed.
Lemma special_ueq i i' : ueq i i' -> opt_ueq (special i) (special i').
Proof.
  intros H. unfold special. pose proof (strip_nc_ueq (L "nan") _ _ H) as N.
  destruct (strip true (L "nan") i) as [[mm r]|], (strip true (L "nan") i') as [[mm' r']|]; cbn in N; try contradiction.
  - destruct N as [N1 N2]. destruct r as [|c r]; [apply ueq_nil in N2; subst; split; [exact N1|reflexivity]|].
    destruct (ueq_cons _ _ _ N2) as (d & r2 & -> & U & N3).
    rewrite <- (cinv_chr "(" eq_refl _ _ U). destruct (Ascii.eqb c "("); [|split; [exact N1|exact N2]].
    assert (C : cinv (fun c => negb (Ascii.eqb c ")"))) by cinv.
    destruct (span_ueq _ _ _ C N3) as [S1 S2]. destruct (span _ r) as [b q], (span _ r2) as [b' q']. cbn [fst snd] in *.
    destruct q as [|x q]; [apply ueq_nil in S2; subst; exact I|].
    destruct (ueq_cons _ _ _ S2) as (y & q2 & -> & Ux & S3). split; [|exact S3].
    apply ueq_app; [exact N1|]. apply ueq_cons_i; [reflexivity|]. apply ueq_app; [exact S1|reflexivity].
  - pose proof (strip_nc_ueq (L "inf") _ _ H) as F.
    destruct (strip true (L "inf") i) as [[mm r]|], (strip true (L "inf") i') as [[mm' r']|]; cbn in F; try contradiction; [|exact I].
    destruct F as [F1 F2]. pose proof (strip_nc_ueq (L "inity") _ _ F2) as G.
    destruct (strip true (L "inity") r) as [[mm2 r2]|], (strip true (L "inity") r') as [[mm2' r2']|]; cbn in G; try contradiction.
    + destruct G. split; [now apply ueq_app|assumption].
    + now split.
Qed.
Lemma dbl_unsigned_ueq i i' : ueq i i' -> opt_ueq (dbl_unsigned i) (dbl_unsigned i').
Proof.
  intros H. rewrite !dbl_u_eq. unfold dbl_u. destruct (span_ueq is_digit _ _ cinv_digit H) as [D1 D2].
  destruct (span is_digit i) as [ds i1], (span is_digit i') as [ds' i1']. cbn [fst snd] in *.
  rewrite <- (ueq_is_nil _ _ D1).
  assert (S : opt_ueq (if is_nil ds then special i else None) (if is_nil ds then special i' else None)).
  { destruct (is_nil ds); [now apply special_ueq|exact I]. }
  destruct (if is_nil ds then special i else None) as [[a r]|], (if is_nil ds then special i' else None) as [[a' r']|];
    cbn in S; try contradiction; [exact S|]. clear S.
  assert (T : forall j j', ueq j j' -> opt_ueq (if is_nil ds then None else let (ex, i4) := dbl_exp j in Some (ds ++ ex, i4))
                                       (if is_nil ds then None else let (ex, i4) := dbl_exp j' in Some (ds' ++ ex, i4))).
  { intros j j' Hj. destruct (is_nil ds); [exact I|]. destruct (dbl_exp_ueq _ _ Hj) as [E1 E2].
    destruct (dbl_exp j), (dbl_exp j'). split; [now apply ueq_app|assumption]. }
  destruct i1 as [|c i2]; [apply ueq_nil in D2; subst; now apply T|].
  destruct (ueq_cons _ _ _ D2) as (d & i3 & -> & U & D3). rewrite <- (cinv_chr "." eq_refl _ _ U).
  destruct (Ascii.eqb c "."); [|now apply T].
  destruct (span_ueq is_digit _ _ cinv_digit D3) as [F1 F2].
  destruct (span is_digit i2) as [fs j], (span is_digit i3) as [fs' j']. cbn [fst snd] in *. rewrite <- (ueq_is_nil _ _ F1).
  destruct (is_nil ds && is_nil fs); [exact I|]. destruct (dbl_exp_ueq _ _ F2) as [E1 E2]. destruct (dbl_exp j), (dbl_exp j').
  split; [|exact E2]. apply ueq_app; [exact D1|]. apply ueq_cons_i; [reflexivity|]. now apply ueq_app.
Qed.
Lemma dbl_ueq i i' : ueq i i' -> opt_ueq (dbl i) (dbl i').
Proof.
  intros H. unfold dbl. destruct i as [|c i]; [apply ueq_nil in H; subst; exact I|].
  destruct (ueq_cons _ _ _ H) as (d & i2 & -> & U & H').
  assert (C : cinv (fun c => Ascii.eqb c "+" || Ascii.eqb c "-")) by cinv. rewrite <- (C _ _ U).
  destruct (Ascii.eqb c "+" || Ascii.eqb c "-"); [|now apply dbl_unsigned_ueq].
  pose proof (dbl_unsigned_ueq _ _ H') as D.
  destruct (dbl_unsigned i) as [[a r]|], (dbl_unsigned i2) as [[a' r']|]; cbn in D; try contradiction; [|exact I].
  destruct D. split; [now apply ueq_cons_i|assumption].
Qed.
Lemma digits_ueq a b : forallb is_digit a = true -> ueq a b -> a = b.
Proof.
  revert b. induction a as [|c a IH]; intros b Ha H; [symmetry; now apply ueq_nil|].
  destruct (ueq_cons _ _ _ H) as (d & b' & -> & U & H'). cbn [forallb] in Ha. apply andb_prop in Ha as [Hc Ha].
  rewrite (IH _ Ha H'). f_equal. symmetry. apply caseless_eq; [|now symmetry].
  unfold caseless, is_letter, is_upper, is_lower. unfold is_digit in Hc. apply andb_prop in Hc as [H1 H2].
  apply N.leb_le in H1, H2. apply negb_true_iff, orb_false_iff. split; apply andb_false_iff; left; apply N.leb_gt; lia.
Qed.
Lemma ulong_ueq i i' : ueq i i' ->
  match ulong i, ulong i' with
  | Some (v, r), Some (v', r') => v = v' /\ ueq r r'
  | None, None => True
  | _, _ => False
  end.
Proof.
  intros H. unfold ulong. destruct (span_ueq is_digit _ _ cinv_digit H) as [D1 D2].
  destruct (span is_digit i) as [ds r] eqn:E, (span is_digit i') as [ds' r']. cbn [fst snd] in *.
  apply span_all in E. rewrite <- (digits_ueq _ _ E D1). destruct (is_nil ds); [exact I|].
  destruct (dec_value ds <? ull_mod)%N; [now split|exact I].
Qed.

(** * Related values *)
Class Like (A : Set) := like : A -> A -> Prop.
#[global] Instance like_unit : Like unit := fun _ _ => True.
#[global] Instance like_N : Like N := eq.
#[global] Instance like_bool : Like bool := eq.
#[global] Instance like_frame : Like frame := eq.
#[global] Instance like_text : Like text := ueq.
#[global] Instance like_prod {A B : Set} `{Like A} `{Like B} : Like (A * B) :=
  fun x y => like (fst x) (fst y) /\ like (snd x) (snd y).
#[global] Instance like_opt {A : Set} `{Like A} : Like (option A) :=
  fun x y => match x, y with Some a, Some b => like a b | None, None => True | _, _ => False end.
#[global] Instance like_list {A : Set} `{Like A} : Like (list A) := Forall2 like.

Definition out_like {A : Set} `{Like A} (o o' : out A) : Prop :=
  match o, o' with
  | Ok v r, Ok v' r' => like v v' /\ ueq r r'
  | Fail r, Fail r' => ueq r r'
  | Throw x, Throw x' => exn_like x x'
  | OOF, OOF => True
  | _, _ => False
  end.

Section Maps.
Variable m : text -> option text.
Section Level.
Variable n : nat.
Notation R := (run (g_body m) n).
Definition psim {A : Set} `{Like A} (e : PE A) : Prop := forall i i', ks i i' -> out_like (R _ e i) (R _ e i').

Ltac pcase H :=
  match type of H with out_like ?a ?b =>
    let E := fresh "E" in let E' := fresh "E'" in
    destruct a as [? ?|?|?|] eqn:E, b as [? ?|?|?|] eqn:E'; cbn in H; try contradiction end.
Lemma run_suffix_fail {A : Set} (e : PE A) i r : R _ e i = Fail r -> suffix r i.
Proof. intros H. pose proof (run_ok (g_body m) n A e i) as K. now rewrite H in K. Qed.
Lemma next_ok {A : Set} (e : PE A) i i' v r v' r' : ks i i' -> R _ e i = Ok v r -> R _ e i' = Ok v' r' -> ueq r r' -> ks r r'.
Proof. intros K E E'. apply (ks_next i i'); auto; eapply run_suffix; eauto. Qed.
Lemma next_fail {A : Set} (e : PE A) i i' r r' : ks i i' -> R _ e i = Fail r -> R _ e i' = Fail r' -> ueq r r' -> ks r r'.
Proof. intros K E E'. apply (ks_next i i'); auto; eapply run_suffix_fail; eauto. Qed.

Lemma psim_lit_nc s : psim (PLit true s).
Proof.
  intros i i' K. rewrite !run_Lit. pose proof (strip_nc_ueq s _ _ (ks_ueq _ _ (ks_skip _ _ K))) as H.
  destruct (strip true s (skip i)) as [[? ?]|], (strip true s (skip i')) as [[? ?]|]; cbn in H; try contradiction.
  - split; [exact I|apply H].
  - exact (ks_ueq _ _ (ks_skip _ _ K)).
Qed.
Lemma psim_lit_cs s : forallb caseless s = true -> psim (PLit false s).
Proof.
  intros Hs i i' K. rewrite !run_Lit. pose proof (strip_cs_ueq s _ _ Hs (ks_ueq _ _ (ks_skip _ _ K))) as H.
  destruct (strip false s (skip i)) as [[? ?]|], (strip false s (skip i')) as [[? ?]|]; cbn in H; try contradiction.
  - split; [exact I|apply H].
  - exact (ks_ueq _ _ (ks_skip _ _ K)).
Qed.
Lemma psim_lex e : slike e -> psim (PLex e).
Proof.
  intros H i i' K. rewrite !run_Lex. unfold lex. specialize (H [] [] _ _ (ueq_refl []) (ks_skip _ _ K)).
  destruct (srun e [] (skip i)) as [? ?|?|?|], (srun e [] (skip i')) as [? ?|?|?|]; cbn in H; try contradiction; auto.
  exact (ks_ueq _ _ (ks_skip _ _ K)).
Qed.
Lemma psim_optlex e : slike e -> psim (POptLex e).
Proof.
  intros H i i' K. rewrite !run_OptLex. specialize (H [] [] _ _ (ueq_refl []) (ks_skip _ _ K)).
  destruct (srun e [] (skip i)) as [? ?|?|?|], (srun e [] (skip i')) as [? ?|?|?|]; cbn in H; try contradiction; auto.
  split; [exact H|exact (ks_ueq _ _ (ks_skip _ _ K))].
Qed.
Lemma psim_space : psim PSpace.
Proof.
  intros i i' (U & _). rewrite !run_Space. destruct i as [|c i]; [apply ueq_nil in U; subst; reflexivity|].
  destruct (ueq_cons _ _ _ U) as (d & i2 & -> & Uc & U'). rewrite <- (cinv_space _ _ Uc). destruct (is_space c); [split; [exact I|exact U]|exact U].
Qed.
Lemma psim_dbl : psim PDbl.
Proof.
  intros i i' K. rewrite !run_Dbl. pose proof (ks_ueq _ _ (ks_skip _ _ K)) as U. pose proof (dbl_ueq _ _ U) as H.
  destruct (dbl (skip i)) as [[? ?]|], (dbl (skip i')) as [[? ?]|]; cbn in H; try contradiction; [exact H|exact U].
Qed.
Lemma psim_top : psim PTop.
Proof.
  intros i i' K. rewrite !run_Top. pose proof (ks_ueq _ _ (ks_skip _ _ K)) as U. pose proof (ulong_ueq _ _ U) as H.
  destruct (ulong (skip i)) as [[v r]|], (ulong (skip i')) as [[v' r']|]; try contradiction; [|exact U].
  destruct H as [<- H]. destruct r as [|c r]; [apply ueq_nil in H; subst; reflexivity|].
  destruct (ueq_cons _ _ _ H) as (d & i2 & -> & Uc & U'). rewrite <- (cinv_space _ _ Uc). destruct (is_space c); [split; [reflexivity|exact H]|exact H].
Qed.
Lemma psim_ret {A : Set} `{Like A} (v : A) : like v v -> psim (PRet v).
Proof. intros Hv i i' K. rewrite !run_Ret. split; [exact Hv|apply K]. Qed.
Lemma psim_seq {A B : Set} `{Like A} `{Like B} (a : PE A) (b : PE B) : psim a -> psim b -> psim (PSeq a b).
Proof.
  intros Ha Hb i i' K. rewrite !run_Seq. pose proof (Ha _ _ K) as H1. pcase H1; auto; try exact (ks_ueq _ _ K).
  destruct H1 as [V U]. pose proof (Hb _ _ (next_ok _ _ _ _ _ _ _ K E E' U)) as H2. pcase H2; auto; try exact (ks_ueq _ _ K).
  destruct H2 as [V2 U2]. split; [split; assumption|exact U2].
Qed.
Lemma psim_exp {A B : Set} `{Like A} `{Like B} (a : PE A) (b : PE B) : psim a -> psim b -> psim (PExp a b).
Proof.
  intros Ha Hb i i' K. rewrite !run_Exp. pose proof (Ha _ _ K) as H1. pcase H1; auto; try exact (ks_ueq _ _ K).
  destruct H1 as [V U]. pose proof (Hb _ _ (next_ok _ _ _ _ _ _ _ K E E' U)) as H2. pcase H2; auto; try exact (ks_ueq _ _ K).
  destruct H2 as [V2 U2]. split; [split; assumption|exact U2].
Qed.
Lemma psim_alt {A : Set} `{Like A} (a b : PE A) : psim a -> psim b -> psim (PAlt a b).
Proof.
  intros Ha Hb i i' K. rewrite !run_Alt. pose proof (Ha _ _ K) as H1. pcase H1; auto. apply Hb. eapply next_fail; eauto.
Qed.
Lemma psim_opt {A : Set} `{Like A} (a : PE A) : psim a -> psim (POpt a).
Proof. intros Ha i i' K. rewrite !run_Opt. pose proof (Ha _ _ K) as H1. pcase H1; auto. split; [exact I|exact H1]. Qed.
Lemma psim_map {A B : Set} `{Like A} `{Like B} (f : A -> B) (a : PE A) :
  (forall x y, like x y -> like (f x) (f y)) -> psim a -> psim (PMap f a).
Proof. intros Hf Ha i i' K. rewrite !run_Map. pose proof (Ha _ _ K) as H1. pcase H1; auto. destruct H1. split; auto. Qed.
Lemma pstar_like {A : Set} `{Like A} (a : PE A) k : psim a -> forall i i', ks i i' -> out_like (pstar (R _ a) k i) (pstar (R _ a) k i').
Proof.
  intros Ha. induction k as [|k IH]; intros i i' K; cbn [pstar]; pose proof (Ha _ _ K) as H1; pcase H1; try exact I; try (exact H1); try (split; [constructor|exact H1]).
  destruct H1 as [V U]. pose proof (IH _ _ (next_ok _ _ _ _ _ _ _ K E E' U)) as H2. pcase H2; try exact I; try exact H2.
  destruct H2 as [V2 U2]. split; [now constructor|exact U2].
Qed.
Lemma plist_like {A : Set} `{Like A} (a : PE A) (s : PE unit) k : psim a -> psim s -> forall i i', ks i i' ->
  out_like (plist (R _ a) (R _ s) k i) (plist (R _ a) (R _ s) k i').
Proof.
  intros Ha Hs. induction k as [|k IH]; intros i i' K; cbn [plist]; pose proof (Hs _ _ K) as H1; pcase H1; try exact I; try (exact H1);
    try (split; [constructor|exact (ks_ueq _ _ K)]); destruct H1 as [V U]; pose proof (next_ok _ _ _ _ _ _ _ K E E' U) as K1;
    pose proof (Ha _ _ K1) as H2; pcase H2; try exact I; try exact H2; try (split; [constructor|exact (ks_ueq _ _ K)]).
  destruct H2 as [V2 U2]. pose proof (IH _ _ (next_ok _ _ _ _ _ _ _ K1 E0 E'0 U2)) as H3. pcase H3; try exact I; try exact H3.
  destruct H3 as [V3 U3]. split; [now constructor|exact U3].
Qed.
Lemma psim_star {A : Set} `{Like A} (a : PE A) : psim a -> psim (PStar a).
Proof. intros Ha i i' K. rewrite !run_Star, <- (ueq_len _ _ (ks_ueq _ _ K)). now apply pstar_like. Qed.
Lemma psim_plus {A : Set} `{Like A} (a : PE A) : psim a -> psim (PPlus a).
Proof.
  intros Ha i i' K. rewrite !run_Plus. pose proof (Ha _ _ K) as H1. pcase H1; auto; try exact (ks_ueq _ _ K).
  destruct H1 as [V U]. rewrite <- (ueq_len _ _ U). pose proof (pstar_like _ (length rest) Ha _ _ (next_ok _ _ _ _ _ _ _ K E E' U)) as H2.
  pcase H2; auto. destruct H2 as [V2 U2]. split; [now constructor|exact U2].
Qed.
Lemma psim_list {A : Set} `{Like A} (a : PE A) (s : PE unit) : psim a -> psim s -> psim (PList a s).
Proof.
  intros Ha Hs i i' K. rewrite !run_List. pose proof (Ha _ _ K) as H1. pcase H1; auto; try exact (ks_ueq _ _ K).
  destruct H1 as [V U]. rewrite <- (ueq_len _ _ U). pose proof (plist_like _ _ (length rest) Ha Hs _ _ (next_ok _ _ _ _ _ _ _ K E E' U)) as H2.
  pcase H2; auto. destruct H2 as [V2 U2]. split; [now constructor|exact U2].
Qed.
End Level.
End Maps.
