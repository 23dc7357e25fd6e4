(** White space in front of a text does not matter to an expression that starts by skipping it. *)
From Verif Require Import Grammar PegProps PegSpec PegEquiv Totality.

(** [moved e]: the position behind a success may depend on the white space in front. *)
Fixpoint moved {A : Set} (e : PE A) : bool :=
  match e with
  | PLit _ _ | PLex _ | POptLex _ | PDbl | PTop | PRule _ => false
  | PSpace | PRet _ | POpt _ | PStar _ => true
  | PSeq a b | PExp a b => moved a && moved b
  | PAlt a b => moved a || moved b
  | PPlus a | PList a _ => moved a
  | PMap _ a => moved a
  end.
(** [skips e]: [e] starts by skipping white space. *)
Fixpoint skips {A : Set} (e : PE A) : bool :=
  match e with
  | PSpace => false
  | PLit _ _ | PLex _ | POptLex _ | PDbl | PTop | PRule _ | PRet _ => true
  | PSeq a b | PExp a b => skips a && (negb (moved a) || skips b)
  | PAlt a b => skips a && skips b
  | POpt a | PMap _ a => skips a
  | PStar a | PPlus a | PList a _ => skips a && negb (moved a)
  end.

Section Inv.
Variable m : text -> option text.
Notation EV := (ev (g_body m) _).

Definition same_ex (x y : exn) : Prop :=
  match x, y with ExExpect r, ExExpect r' => skip r = skip r' | ExTable a, ExTable b => a = b | _, _ => False end.
Definition same {A : Set} (b : bool) (o o' : out A) : Prop :=
  match o, o' with
  | Ok v r, Ok v' r' => v = v' /\ skip r = skip r' /\ (b = false -> r = r')
  | Fail r, Fail r' => skip r = skip r'
  | Throw x, Throw y => same_ex x y
  | _, _ => False
  end.
Lemma same_ex_refl x : same_ex x x.
Proof. destruct x; reflexivity. Qed.
Lemma bodies_skip r : skips (g_body m r) = true /\ moved (g_body m r) = false.
Proof. destruct r; split; reflexivity. Qed.

Lemma same_refl {A : Set} b (o : out A) : o <> OOF -> same b o o.
Proof. destruct o; cbn; auto using same_ex_refl. Qed.
Lemma next_step (A B : Set) (a : PE A) (b : PE B) i i' ob : EV b i ob -> ob <> OOF ->
  (forall j, skip i = skip j -> skips b = true -> exists o', EV b j o' /\ same (moved b) ob o') ->
  skip i = skip i' -> (moved a = false -> i = i') -> negb (moved a) || skips b = true -> exists o', EV b i' o' /\ same (moved a && moved b) ob o'.
Proof.
  intros E N IH S X C. destruct (moved a) eqn:M; cbn [negb orb andb] in *.
  - destruct (IH i' S C) as (o' & E' & S'). eauto.
  - rewrite <- (X eq_refl). exists ob. split; [exact E|now apply same_refl].
Qed.

Lemma skip_inv (A : Set) (e : PE A) i o : EV e i o -> forall j, skip i = skip j -> skips e = true -> exists o', EV e j o' /\ same (moved e) o o'.
Proof.
  revert A e i o.
  apply (ev_ind2 _ _ (g_body m) (fun A e i o _ => forall j, skip i = skip j -> skips e = true -> exists o', EV e j o' /\ same (moved e) o o') (fun A a s i o _ => True)); try exact (fun _ => I); intros; try exact I; cbn [skips] in *; try discriminate.
  - eexists. split; [eapply ev_lit_ok; rewrite <- H; eassumption|]. cbn. auto.
  - eexists. split; [eapply ev_lit_no; rewrite <- H; eassumption|]. cbn. now rewrite !skip_skip.
  - eexists. split; [eapply ev_lex_ok; rewrite <- H; eassumption|]. cbn. auto.
  - eexists. split; [eapply ev_lex_no; rewrite <- H; eassumption|]. cbn. now rewrite !skip_skip.
  - eexists. split; [eapply ev_lex_th; rewrite <- H; eassumption|]. apply same_ex_refl.
  - eexists. split; [eapply ev_olex_ok; rewrite <- H; eassumption|]. cbn. auto.
  - eexists. split; [eapply ev_olex_no; rewrite <- H; eassumption|]. cbn. now rewrite H.
  - eexists. split; [eapply ev_olex_th; rewrite <- H; eassumption|]. apply same_ex_refl.
  - eexists. split; [eapply ev_dbl_ok; rewrite <- H; eassumption|]. cbn. auto.
  - eexists. split; [eapply ev_dbl_no; rewrite <- H; eassumption|]. cbn. now rewrite !skip_skip.
  - eexists. split; [eapply ev_top_ok; [rewrite <- H|]; eassumption|]. cbn. auto.
  - eexists. split; [eapply ev_top_unmet; [rewrite <- H|]; eassumption|]. apply same_ex_refl.
  - eexists. split; [eapply ev_top_end; rewrite <- H; eassumption|]. apply same_ex_refl.
  - eexists. split; [eapply ev_top_no; rewrite <- H; eassumption|]. cbn. now rewrite !skip_skip.
  - eexists. split; [eapply ev_ret|]. cbn. repeat split; auto. discriminate.
  - apply andb_true_iff in H2 as [C1 C2]. destruct (H _ H1 C1) as ([v' r'| | |] & E & S); cbn in S; try contradiction. destruct S as (<- & S & X).
    destruct (next_step _ _ a b _ _ _ e0 ltac:(discriminate) H0 S X C2) as ([v2 r2| | |] & E2 & S2); cbn in S2; try contradiction. destruct S2 as (<- & S2 & X2).
    eexists. split; [eapply ev_seq_ok; eassumption|]. cbn. auto.
  - apply andb_true_iff in H2 as [C1 C2]. destruct (H _ H1 C1) as ([v' r'| | |] & E & S); cbn in S; try contradiction. destruct S as (<- & S & X).
    destruct (next_step _ _ a b _ _ _ e0 ltac:(discriminate) H0 S X C2) as ([v2 r2| | |] & E2 & S2); cbn in S2; try contradiction.
    eexists. split; [eapply ev_seq_no2; eassumption|]. exact H1.
  - apply andb_true_iff in H2 as [C1 C2]. destruct (H _ H1 C1) as ([v' r'| | |] & E & S); cbn in S; try contradiction. destruct S as (<- & S & X).
    destruct (next_step _ _ a b _ _ _ e0 ltac:(discriminate) H0 S X C2) as ([v2 r2| | |] & E2 & S2); cbn in S2; try contradiction.
    eexists. split; [eapply ev_seq_th2; eassumption|]. exact S2.
  - apply andb_true_iff in H1 as [C1 C2]. destruct (H _ H0 C1) as ([v' r'| | |] & E & S); cbn in S; try contradiction. eexists. split; [eapply ev_seq_no; eassumption|]. exact H0.
  - apply andb_true_iff in H1 as [C1 C2]. destruct (H _ H0 C1) as ([v' r'| | |] & E & S); cbn in S; try contradiction. eexists. split; [eapply ev_seq_th; eassumption|]. exact S.
  - apply andb_true_iff in H2 as [C1 C2]. destruct (H _ H1 C1) as ([v' r'| | |] & E & S); cbn in S; try contradiction. destruct S as (<- & S & X).
    destruct (next_step _ _ a b _ _ _ e0 ltac:(discriminate) H0 S X C2) as ([v2 r2| | |] & E2 & S2); cbn in S2; try contradiction. destruct S2 as (<- & S2 & X2).
    eexists. split; [eapply ev_exp_ok; eassumption|]. cbn. auto.
  - apply andb_true_iff in H2 as [C1 C2]. destruct (H _ H1 C1) as ([v' r'| | |] & E & S); cbn in S; try contradiction. destruct S as (<- & S & X).
    destruct (next_step _ _ a b _ _ _ e0 ltac:(discriminate) H0 S X C2) as ([v2 r2| | |] & E2 & S2); cbn in S2; try contradiction.
    eexists. split; [eapply ev_exp_unmet; eassumption|]. exact S2.
  - apply andb_true_iff in H2 as [C1 C2]. destruct (H _ H1 C1) as ([v' r'| | |] & E & S); cbn in S; try contradiction. destruct S as (<- & S & X).
    destruct (next_step _ _ a b _ _ _ e0 ltac:(discriminate) H0 S X C2) as ([v2 r2| | |] & E2 & S2); cbn in S2; try contradiction.
    eexists. split; [eapply ev_exp_th2; eassumption|]. exact S2.
  - apply andb_true_iff in H1 as [C1 C2]. destruct (H _ H0 C1) as ([v' r'| | |] & E & S); cbn in S; try contradiction. eexists. split; [eapply ev_exp_no; eassumption|]. exact H0.
  - apply andb_true_iff in H1 as [C1 C2]. destruct (H _ H0 C1) as ([v' r'| | |] & E & S); cbn in S; try contradiction. eexists. split; [eapply ev_exp_th; eassumption|]. exact S.
  - apply andb_true_iff in H1 as [C1 C2]. destruct (H _ H0 C1) as ([v' r'| | |] & E & S); cbn in S; try contradiction. destruct S as (<- & S & X).
    eexists. split; [eapply ev_alt_1; eassumption|]. cbn. repeat split; auto. intros M. apply orb_false_iff in M as [M _]. auto.
  - apply andb_true_iff in H2 as [C1 C2]. destruct (H _ H1 C1) as ([v' r'| | |] & E & S); cbn in S; try contradiction.
    destruct (H0 _ S C2) as (o' & E2 & S2). exists o'. split; [eapply ev_alt_2; eassumption|]. destruct o, o'; cbn in *; try contradiction; auto. destruct S2 as (<- & S2 & X). repeat split; auto. intros M. apply orb_false_iff in M as [_ M]. auto.
  - apply andb_true_iff in H1 as [C1 C2]. destruct (H _ H0 C1) as ([v' r'| | |] & E & S); cbn in S; try contradiction. eexists. split; [eapply ev_alt_th; eassumption|]. exact S.
  - destruct (H _ H0 H1) as ([v' r'| | |] & E & S); cbn in S; try contradiction. destruct S as (<- & S & X). eexists. split; [eapply ev_opt_ok; eassumption|]. cbn. repeat split; auto. discriminate.
  - destruct (H _ H0 H1) as ([v' r'| | |] & E & S); cbn in S; try contradiction. eexists. split; [eapply ev_opt_no; eassumption|]. cbn. repeat split; auto. discriminate.
  - destruct (H _ H0 H1) as ([v' r'| | |] & E & S); cbn in S; try contradiction. eexists. split; [eapply ev_opt_th; eassumption|]. exact S.
  - apply andb_true_iff in H1 as [C1 C2]. destruct (H _ H0 C1) as ([v' r'| | |] & E & S); cbn in S; try contradiction. eexists. split; [eapply ev_star_stop; eassumption|]. cbn. repeat split; auto. discriminate.
  - apply andb_true_iff in H1 as [C1 C2]. destruct (H _ H0 C1) as ([v' r'| | |] & E & S); cbn in S; try contradiction. eexists. split; [eapply ev_star_th; eassumption|]. exact S.
  - apply andb_true_iff in H2 as [C1 C2]. apply negb_true_iff in C2. destruct (H _ H1 C1) as ([v' r'| | |] & E & S); cbn in S; try contradiction. destruct S as (<- & S & X). rewrite <- (X C2) in E.
    eexists. split; [eapply ev_star_more; eassumption|]. cbn. auto.
  - apply andb_true_iff in H2 as [C1 C2]. apply negb_true_iff in C2. destruct (H _ H1 C1) as ([v' r'| | |] & E & S); cbn in S; try contradiction. destruct S as (<- & S & X). rewrite <- (X C2) in E.
    eexists. split; [eapply ev_star_th2; eassumption|]. apply same_ex_refl.
  - apply andb_true_iff in H2 as [C1 C2]. apply negb_true_iff in C2. destruct (H _ H1 C1) as ([v' r'| | |] & E & S); cbn in S; try contradiction. destruct S as (<- & S & X). rewrite <- (X C2) in E.
    eexists. split; [eapply ev_plus_ok; eassumption|]. cbn. auto.
  - apply andb_true_iff in H2 as [C1 C2]. apply negb_true_iff in C2. destruct (H _ H1 C1) as ([v' r'| | |] & E & S); cbn in S; try contradiction. destruct S as (<- & S & X). rewrite <- (X C2) in E.
    eexists. split; [eapply ev_plus_th2; eassumption|]. apply same_ex_refl.
  - apply andb_true_iff in H1 as [C1 C2]. destruct (H _ H0 C1) as ([v' r'| | |] & E & S); cbn in S; try contradiction. eexists. split; [eapply ev_plus_no; eassumption|]. exact H0.
  - apply andb_true_iff in H1 as [C1 C2]. destruct (H _ H0 C1) as ([v' r'| | |] & E & S); cbn in S; try contradiction. eexists. split; [eapply ev_plus_th; eassumption|]. exact S.
  - apply andb_true_iff in H1 as [C1 C2]. destruct (H _ H0 C1) as ([v' r'| | |] & E & S); cbn in S; try contradiction. eexists. split; [eapply ev_list_no; eassumption|]. exact H0.
  - apply andb_true_iff in H1 as [C1 C2]. destruct (H _ H0 C1) as ([v' r'| | |] & E & S); cbn in S; try contradiction. eexists. split; [eapply ev_list_th; eassumption|]. exact S.
  - apply andb_true_iff in H2 as [C1 C2]. apply negb_true_iff in C2. destruct (H _ H1 C1) as ([v' r'| | |] & E & S); cbn in S; try contradiction. destruct S as (<- & S & X). rewrite <- (X C2) in E.
    eexists. split; [eapply ev_list_ok; eassumption|]. cbn. auto.
  - apply andb_true_iff in H2 as [C1 C2]. apply negb_true_iff in C2. destruct (H _ H1 C1) as ([v' r'| | |] & E & S); cbn in S; try contradiction. destruct S as (<- & S & X). rewrite <- (X C2) in E.
    eexists. split; [eapply ev_list_th2; eassumption|]. apply same_ex_refl.
  - destruct (H _ H0 H1) as ([v' r'| | |] & E & S); cbn in S; try contradiction. destruct S as (<- & S & X). eexists. split; [eapply ev_map_ok; eassumption|]. cbn. auto.
  - destruct (H _ H0 H1) as ([v' r'| | |] & E & S); cbn in S; try contradiction. eexists. split; [eapply ev_map_no; eassumption|]. exact S.
  - destruct (H _ H0 H1) as ([v' r'| | |] & E & S); cbn in S; try contradiction. eexists. split; [eapply ev_map_th; eassumption|]. exact S.
  - destruct (bodies_skip r) as [B1 B2]. destruct (H _ H0 B1) as (o' & E & S). exists o'. split; [now apply ev_rule|]. now rewrite B2 in S.
Qed.

(** Consequences for what is read. *)
Lemma ok_inv (A : Set) (e : PE A) i j v r : skips e = true -> moved e = false -> skip i = skip j -> EV e i (Ok v r) -> EV e j (Ok v r).
Proof.
  intros C M S E. destruct (skip_inv _ _ _ _ E _ S C) as ([v' r'| | |] & E' & S'); cbn in S'; try contradiction. destruct S' as (<- & _ & X). now rewrite (X M).
Qed.
Lemma fail_inv (A : Set) (e : PE A) i j r : skips e = true -> skip i = skip j -> EV e i (Fail r) -> exists r', EV e j (Fail r') /\ skip r = skip r'.
Proof.
  intros C S E. destruct (skip_inv _ _ _ _ E _ S C) as ([v' r'| | |] & E' & S'); cbn in S'; try contradiction. eauto.
Qed.
Lemma throw_inv (A : Set) (e : PE A) i j x : skips e = true -> skip i = skip j -> EV e i (Throw x) -> exists y, EV e j (Throw y).
Proof.
  intros C S E. destruct (skip_inv _ _ _ _ E _ S C) as ([v' r'| | |] & E' & S'); cbn in S'; try contradiction. eauto.
Qed.
End Inv.
