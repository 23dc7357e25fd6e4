(** White space between words does not matter: character level (C37). *)
From Verif Require Import Query PegProps PegSpec PegEquiv TextLemmas LexProofs Spec SpecWhite.

(** * Bytes *)
Definition quotes : list ascii := ["'"%char; dq].
Definition plain (c : ascii) : bool := negb (is_space c) && negb (Ascii.eqb c "'") && negb (Ascii.eqb c dq).
Definition all_bytes : list ascii := map ascii_of_nat (seq 0 256).
Lemma all_bytes_in c : In c all_bytes.
Proof. apply in_map_iff. exists (nat_of_ascii c). split; [apply ascii_nat_embedding|]. apply in_seq. pose proof (nat_ascii_bounded c). lia. Qed.
Lemma plain_nc a c : plain a = true -> eq_nc a c = true -> plain c = true.
Proof.
  intros P E. assert (H : forallb (fun a => forallb (fun c => implb (plain a && eq_nc a c) (plain c)) all_bytes) all_bytes = true) by (vm_compute; reflexivity).
  rewrite forallb_forall in H. specialize (H a (all_bytes_in a)). rewrite forallb_forall in H. specialize (H c (all_bytes_in c)). now rewrite P, E in H.
Qed.
Lemma plain_eq nc a c : plain a = true -> eq_ch nc a c = true -> plain c = true.
Proof. destruct nc; cbn [eq_ch]; [apply plain_nc|]. intros P E. apply Ascii.eqb_eq in E. now subst. Qed.
Lemma plain_iff c : plain c = true <-> is_space c = false /\ c <> "'"%char /\ c <> dq.
Proof.
  unfold plain. rewrite !andb_true_iff, !negb_true_iff. split.
  - intros [[S A] B]. repeat split; auto; intros ->; discriminate.
  - intros (S & A & B). repeat split; auto; now apply Ascii.eqb_neq.
Qed.
Lemma space_plain c : is_space c = true -> plain c = false.
Proof. unfold plain. now intros ->. Qed.
Lemma quote_plain q : q = "'"%char \/ q = dq -> plain q = false.
Proof. now intros [-> | ->]. Qed.

(** * The relation, from the front *)
(** what two related texts look like *)
Inductive view : text -> text -> Prop :=
| v_same t : view t t
| v_char c i j : plain c = true -> ~ starts "NAN(" (c :: i) -> kept (c :: i) (c :: j) -> spaced i j -> view (c :: i) (c :: j)
| v_white c d i j : is_space c = true -> is_space d = true -> view (c :: i) (d :: j)
| v_quote q b i j : q = "'"%char \/ q = dq -> ~ In q b -> (q = "'"%char -> behind_string i j) -> spaced i j -> view (q :: b ++ q :: i) (q :: b ++ q :: j).
Lemma spaced_view i j : spaced i j -> view i j.
Proof.
  intros H. inversion H as [t|c i' j' S A B N1 N2 R|w w' i' j' W W' N N' D D' R|q b i' j' Q B K R]; subst.
  - constructor.
  - constructor; auto. now apply plain_iff.
  - destruct w as [|c w]; [contradiction|]. destruct w' as [|d w']; [contradiction|]. inversion W; inversion W'; subst. cbn [app]. now apply v_white.
  - now constructor.
Qed.
Lemma skip_white w i : white w -> dark i -> skip (w ++ i) = i.
Proof. intros W D. induction W as [|c w C _ IH]; cbn [app skip]; [|now rewrite C]. destruct i as [|c i]; [reflexivity|]. cbn in *. now rewrite D. Qed.
Lemma spaced_skip i j : spaced i j -> spaced (skip i) (skip j).
Proof.
  intros H. inversion H as [t|c i' j' S A B N1 N2 R|w w' i' j' W W' N N' D D' R|q b i' j' Q B K R]; subst.
  - constructor.
  - cbn [skip]. now rewrite S.
  - now rewrite !skip_white.
  - cbn [skip]. assert (is_space q = false) as -> by (destruct Q as [-> | ->]; reflexivity). exact H.
Qed.

(** Inside of quotes *)
Definition outq (q : ascii) (i j : text) : Prop := spaced i j /\ (q = "'"%char -> behind_string i j).
Definition inq (q : ascii) (i j : text) : Prop := i = j \/ exists b i' j', ~ In q b /\ i = b ++ q :: i' /\ j = b ++ q :: j' /\ outq q i' j'.

(** * Expressions *)
Definition xsim (x x' : exn) : Prop :=
  match x, x' with
  | ExExpect _, ExExpect _ => True
  | ExTable n, ExTable n' => n = n'
  | _, _ => False
  end.
Definition rel := text -> text -> Prop.
Definition osim (R : rel) (o o' : sout) : Prop :=
  match o, o' with
  | SOk a r, SOk a' r' => a = a' /\ R r r'
  | SFail a, SFail a' => a = a'
  | SThrow x, SThrow x' => xsim x x'
  | _, _ => False
  end.
Definition sgood (R R' : rel) (e : se) : Prop := forall acc i j o, R i j -> sev e acc i o -> exists o', sev e acc j o' /\ osim R' o o'.
Lemma xsim_refl x : xsim x x.
Proof. now destruct x. Qed.
Ltac go H := match type of H with sgood ?R _ ?e => match goal with X : R ?i ?j, Y : sev e _ ?i _ |- _ =>
  let o := fresh "o" in let S := fresh "S" in let E := fresh "E" in destruct (H _ _ _ _ X Y) as (o & S & E); clear Y end end.
Ltac use H := go H; match goal with E : osim _ _ ?o |- _ => destruct o; cbn [osim] in E; try contradiction;
  match type of E with _ = _ /\ _ => destruct E as [<- E] | _ = _ => subst | _ => idtac end end.
Section Comb.
Variables R R1 R2 : rel.
Lemma sg_seq a b : sgood R R1 a -> sgood R1 R2 b -> sgood R R2 (SSeq a b).
Proof.
  intros Ha Hb acc i j o K H. inversion H; subst.
  - use Ha. go Hb. eexists. split; [econstructor; eauto|eassumption].
  - use Ha. eexists. split; [eapply sev_seq_no; eauto|reflexivity].
  - use Ha. eexists. split; [eapply sev_seq_th; eauto|exact E].
Qed.
Lemma sg_alt a b : sgood R R1 a -> sgood R R1 b -> sgood R R1 (SAlt a b).
Proof.
  intros Ha Hb acc i j o K H. inversion H; subst.
  - use Ha. eexists. split; [eapply sev_alt_1; eauto|now split].
  - use Ha. go Hb. eexists. split; [eapply sev_alt_2; eauto|eassumption].
  - use Ha. eexists. split; [eapply sev_alt_th; eauto|exact E].
Qed.
Lemma sg_star a : sgood R R a -> sgood R R (SStar a).
Proof.
  intros Ha acc i j o K H. remember (SStar a) as e. revert a Heqe Ha j K. induction H; intros a' [= <-] Ha j K.
  - use Ha. eexists. split; [eapply sev_star_stop; eauto|now split].
  - use Ha. destruct (IHsev2 _ eq_refl Ha _ E) as (o' & S' & E'). exists o'. split; [eapply sev_star_more; eauto|exact E'].
  - use Ha. eexists. split; [eapply sev_star_th; eauto|exact E].
Qed.
Lemma sg_plus a : sgood R R a -> sgood R R (SPlus a).
Proof.
  intros Ha acc i j o K H. inversion H; subst.
  - use Ha. pose proof (sg_star a Ha) as Hs. go Hs. eexists. split; [eapply sev_plus_ok; eauto|eassumption].
  - use Ha. eexists. split; [eapply sev_plus_no; eauto|reflexivity].
  - use Ha. eexists. split; [eapply sev_plus_th; eauto|exact E].
Qed.
Lemma sg_opt a : sgood R R a -> sgood R R (SOpt a).
Proof.
  intros Ha acc i j o K H. inversion H; subst; use Ha.
  - eexists. split; [eapply sev_opt_ok; eauto|now split].
  - eexists. split; [eapply sev_opt_no; eauto|now split].
  - eexists. split; [eapply sev_opt_th; eauto|exact E].
Qed.
Lemma sg_hold a : sgood R R1 a -> sgood R R1 (SHold a).
Proof.
  intros Ha acc i j o K H. inversion H; subst; use Ha.
  - eexists. split; [eapply sev_hold_ok; eauto|now split].
  - eexists. split; [eapply sev_hold_no; eauto|reflexivity].
  - eexists. split; [eapply sev_hold_th; eauto|exact E].
Qed.
Lemma sg_and a : sgood R R1 a -> sgood R R (SAnd a).
Proof.
  intros Ha acc i j o K H. inversion H; subst; use Ha.
  - eexists. split; [eapply sev_and_ok; eauto|now split].
  - eexists. split; [eapply sev_and_no; eauto|reflexivity].
  - eexists. split; [eapply sev_and_th; eauto|exact E].
Qed.
Lemma sg_not a : sgood R R1 a -> sgood R R (SNot a).
Proof.
  intros Ha acc i j o K H. inversion H; subst; use Ha.
  - eexists. split; [eapply sev_not_ok; eauto|now split].
  - eexists. split; [eapply sev_not_no; eauto|reflexivity].
  - eexists. split; [eapply sev_not_th; eauto|exact E].
Qed.
Lemma sg_diff a b : sgood R R1 a -> sgood R R2 b -> sgood R R1 (SDiff a b).
Proof.
  intros Ha Hb acc i j o K H. inversion H; subst.
  - use Hb. go Ha. eexists. split; [eapply sev_diff_ok; eauto|eassumption].
  - use Hb. eexists. split; [eapply sev_diff_no; eauto|reflexivity].
  - use Hb. eexists. split; [eapply sev_diff_th; eauto|exact E].
Qed.
Lemma sg_exp a b : sgood R R1 a -> sgood R1 R2 b -> sgood R R2 (SExp a b).
Proof.
  intros Ha Hb acc i j o K H. inversion H; subst; use Ha.
  - use Hb. eexists. split; [eapply sev_exp_ok; eauto|now split].
  - use Hb. eexists. split; [eapply sev_exp_unmet; eauto|exact I].
  - use Hb. eexists. split; [eapply sev_exp_th2; eauto|exact E0].
  - eexists. split; [eapply sev_exp_no; eauto|reflexivity].
  - eexists. split; [eapply sev_exp_th; eauto|exact E].
Qed.
Lemma sg_map m a : sgood R R1 a -> sgood R R1 (SMap m a).
Proof.
  intros Ha acc i j o K H. inversion H; subst; use Ha.
  - eexists. split; [eapply sev_map_ok; eauto|now split].
  - eexists. split; [eapply sev_map_none; eauto|reflexivity].
  - eexists. split; [eapply sev_map_no; eauto|reflexivity].
  - eexists. split; [eapply sev_map_th; eauto|exact E].
Qed.
Lemma sg_weak (R' R1' : rel) e : (forall i j, R' i j -> R i j) -> (forall i j, R1 i j -> R1' i j) -> sgood R R1 e -> sgood R' R1' e.
Proof.
  intros A B H acc i j o K S. destruct (H acc i j o (A _ _ K) S) as (o' & S' & E). exists o'. split; [exact S'|]. destruct o, o'; cbn in *; auto. destruct E; auto.
Qed.
End Comb.

(** * Single bytes and words outside of quotes *)
Lemma osim_refl (R : rel) o : (forall i, R i i) -> o <> SLoop -> osim R o o.
Proof. intros Rf N. destruct o; cbn; auto using xsim_refl; contradiction. Qed.
Lemma sev_noloop e acc i o : sev e acc i o -> o <> SLoop.
Proof. induction 1; try discriminate; auto. Qed.
Lemma same (R : rel) e acc i o : (forall i, R i i) -> sev e acc i o -> exists o', sev e acc i o' /\ osim R o o'.
Proof. intros Rf S. exists o. split; [exact S|]. apply osim_refl; [exact Rf|]. eapply sev_noloop; eauto. Qed.
Lemma inq_refl q i : inq q i i. Proof. now left. Qed.

Lemma sg_chr f : (forall c, f c = true -> plain c = true) -> sgood spaced spaced (SChr f).
Proof.
  intros F acc i j o K H. assert (NF : forall c, plain c = false -> f c = false) by (intros c P; destruct (f c) eqn:E; [apply F in E; congruence|reflexivity]).
  destruct (spaced_view _ _ K) as [t|c i j P N K' R|c d i j C D|q b i j Q B K' R].
  - eapply same; [apply sp_same|exact H].
  - inversion H; subst; eexists; (split; [econstructor; eauto; fail|]); cbn; auto.
  - inversion H; subst; [rewrite (NF c) in *; [discriminate|now apply space_plain]|]. eexists. split; [apply sev_chr_no; now apply NF, space_plain|reflexivity].
  - inversion H; subst; [rewrite (NF q) in *; [discriminate|now apply quote_plain]|]. eexists. split; [apply sev_chr_no; now apply NF, quote_plain|reflexivity].
Qed.
Definition strip_sim (R : rel) (o o' : option (text * text)) : Prop :=
  match o, o' with Some (m, r), Some (m', r') => m = m' /\ R r r' | None, None => True | _, _ => False end.
Lemma strip_refl (R : rel) o : (forall i, R i i) -> strip_sim R o o.
Proof. intros Rf. destruct o as [[m r]|]; cbn; auto. Qed.
Lemma strip_spaced nc s : forallb plain s = true -> forall i j, spaced i j -> strip_sim spaced (strip nc s i) (strip nc s j).
Proof.
  induction s as [|a s IH]; intros P i j K; [cbn; auto|]. cbn [forallb] in P. apply andb_true_iff in P as [Pa P]. specialize (IH P).
  assert (NE : forall c, plain c = false -> eq_ch nc a c = false) by (intros c Q; destruct (eq_ch nc a c) eqn:E; [apply plain_eq in E; congruence|reflexivity]).
  destruct (spaced_view _ _ K) as [t|c i j C N K' R|c d i j C D|q b i j Q B K' R].
  - apply strip_refl, sp_same.
  - cbn [strip]. destruct (eq_ch nc a c); [|exact I]. specialize (IH _ _ R). destruct (strip nc s i) as [[? ?]|], (strip nc s j) as [[? ?]|]; cbn in *; try contradiction; auto. now destruct IH as [-> IH].
  - cbn [strip]. rewrite !NE; auto using space_plain. exact I.
  - cbn [strip]. rewrite !NE; auto using quote_plain. exact I.
Qed.
Lemma sg_strip (R R' : rel) nc s : (forall i j, R i j -> strip_sim R' (strip nc s i) (strip nc s j)) -> sgood R R' (SLit nc s) /\ sgood R R' (SStr nc s).
Proof.
  intros St. split; intros acc i j o K H; pose proof (St _ _ K) as X; inversion H; subst;
    match goal with E : strip _ _ _ = _ |- _ => rewrite E in X end; cbn in X; destruct (strip nc s j) as [[m' r']|] eqn:Ej; try contradiction.
  - destruct X as [-> X]. eexists. split; [eapply sev_lit_ok; eauto|now split].
  - eexists. split; [eapply sev_lit_no; eauto|reflexivity].
  - destruct X as [-> X]. eexists. split; [eapply sev_str_ok; eauto|now split].
  - eexists. split; [eapply sev_str_no; eauto|reflexivity].
Qed.
Lemma sg_lit nc s : forallb plain s = true -> sgood spaced spaced (SLit nc s).
Proof. intros P. exact (proj1 (sg_strip _ _ nc s (strip_spaced nc s P))). Qed.
Lemma sg_str nc s : forallb plain s = true -> sgood spaced spaced (SStr nc s).
Proof. intros P. exact (proj2 (sg_strip _ _ nc s (strip_spaced nc s P))). Qed.
Lemma sg_alts (R R' : rel) l : (forall e, In e l -> sgood R R' e) -> sgood R R' (alts l).
Proof.
  induction l as [|e l IH]; intros H; cbn [alts].
  - intros acc i j o _ S. exists (SFail acc). inversion S; subst; try discriminate; split; try reflexivity; destruct j; now constructor.
  - apply sg_alt; [apply H; now left|]. apply IH. intros e' I. apply H. now right.
Qed.
Lemma sg_lits ws : forallb (fun w => forallb plain (L w)) ws = true -> sgood spaced spaced (lits_nc ws).
Proof. intros P. apply sg_alts. intros e I. apply in_map_iff in I as (w & <- & I). apply sg_lit. now apply (proj1 (forallb_forall _ _) P). Qed.
Lemma sg_strs ws : forallb (fun w => forallb plain (L w)) ws = true -> sgood spaced spaced (strs_nc ws).
Proof. intros P. apply sg_alts. intros e I. apply in_map_iff in I as (w & <- & I). apply sg_str. now apply (proj1 (forallb_forall _ _) P). Qed.
Lemma sg_strs_cs ws : forallb (fun w => forallb plain (L w)) ws = true -> sgood spaced spaced (strs_cs ws).
Proof. intros P. apply sg_alts. intros e I. apply in_map_iff in I as (w & <- & I). apply sg_str. now apply (proj1 (forallb_forall _ _) P). Qed.
(** looking one byte ahead *)
Lemma sg_ahead f : (forall c d, is_space c = true -> is_space d = true -> f c = f d) -> sgood spaced spaced (SAnd (SChr f)).
Proof.
  intros F acc i j o K H. destruct (spaced_view _ _ K) as [t|c i j P N K' R|c d i j C D|q b i j Q B K' R].
  - eapply same; [apply sp_same|exact H].
  - inversion H; subst; match goal with X : sev (SChr f) _ _ _ |- _ => inversion X; subst end.
    + eexists. split; [eapply sev_and_ok; now constructor|now split].
    + eexists. split; [eapply sev_and_no; now constructor|reflexivity].
  - pose proof (F c d C D) as E. inversion H; subst; match goal with X : sev (SChr f) _ _ _ |- _ => inversion X; subst end.
    + eexists. split; [eapply sev_and_ok; constructor; congruence|now split].
    + eexists. split; [eapply sev_and_no; constructor; congruence|reflexivity].
  - inversion H; subst; match goal with X : sev (SChr f) _ _ _ |- _ => inversion X; subst end.
    + eexists. split; [eapply sev_and_ok; now constructor|now split].
    + eexists. split; [eapply sev_and_no; now constructor|reflexivity].
Qed.

(** * Quotes *)
Lemma chr_inv f acc c i o : sev (SChr f) acc (c :: i) o -> f c = true /\ o = SOk (acc ++ [c]) i \/ f c = false /\ o = SFail acc.
Proof. intros H. inversion H; subst; auto. Qed.
Definition isq (q : ascii) : Prop := q = "'"%char \/ q = dq.
Lemma outq_refl q i : outq q i i.
Proof. split; [constructor|]. intros _. split; auto. Qed.
Lemma outq_spaced q i j : outq q i j -> spaced i j.
Proof. now intros []. Qed.
Lemma chr_in q : isq q -> sgood spaced (inq q) (chr q).
Proof.
  intros Q acc i j o K H. assert (NE : forall c, plain c = true -> Ascii.eqb c q = false) by (intros c P; apply Ascii.eqb_neq; intros ->; rewrite (quote_plain q Q) in P; discriminate).
  assert (NS : forall c, is_space c = true -> Ascii.eqb c q = false) by (intros c P; apply Ascii.eqb_neq; intros ->; destruct Q as [-> | ->]; discriminate).
  destruct (spaced_view _ _ K) as [t|c i j P N K' R|c d i j C D|q' b i j Q' B K' R].
  - eapply same; [apply inq_refl|exact H].
  - inversion H; subst; [rewrite NE in *; [discriminate|exact P]|]. eexists. split; [apply sev_chr_no; now apply NE|reflexivity].
  - inversion H; subst; [rewrite NS in *; [discriminate|exact C]|]. eexists. split; [apply sev_chr_no; now apply NS|reflexivity].
  - destruct (chr_inv _ _ _ _ _ H) as [[E ->]|[E ->]].
    + cbv beta in E. apply Ascii.eqb_eq in E. subst q'. eexists. split; [apply sev_chr_ok; now apply Ascii.eqb_eq|]. cbn [osim]. split; [reflexivity|]. right. exists b, i, j. exact (conj B (conj eq_refl (conj eq_refl (conj R K')))).
    + eexists. split; [apply sev_chr_no; exact E|reflexivity].
Qed.
Lemma chr_out q : sgood (inq q) (outq q) (chr q).
Proof.
  intros acc i j o [-> |(b & i' & j' & B & -> & -> & R)] H; [eapply same; [apply outq_refl|exact H]|].
  destruct b as [|c b]; cbn [app] in *.
  - destruct (chr_inv _ _ _ _ _ H) as [[E ->]|[E ->]]; [|rewrite Ascii.eqb_refl in E; discriminate].
    eexists. split; [apply sev_chr_ok; exact E|]. now split.
  - destruct (chr_inv _ _ _ _ _ H) as [[E ->]|[E ->]]; [apply Ascii.eqb_eq in E; subst; destruct B; now left|].
    eexists. split; [apply sev_chr_no; exact E|reflexivity].
Qed.
Lemma inq_cons q c b i j : ~ In q (c :: b) -> outq q i j -> inq q (b ++ q :: i) (b ++ q :: j).
Proof. intros B K. right. exists b, i, j. refine (conj _ (conj eq_refl (conj eq_refl K))). intros I. apply B. now right. Qed.
Lemma chr_inside q f : f q = false -> sgood (inq q) (inq q) (SChr f).
Proof.
  intros F acc i j o [-> |(b & i' & j' & B & -> & -> & R)] H; [eapply same; [apply inq_refl|exact H]|].
  destruct b as [|c b]; cbn [app] in *; destruct (chr_inv _ _ _ _ _ H) as [[E ->]|[E ->]].
  - congruence.
  - eexists. split; [now apply sev_chr_no|reflexivity].
  - eexists. split; [now apply sev_chr_ok|]. split; [reflexivity|]. eapply inq_cons; eauto.
  - eexists. split; [now apply sev_chr_no|reflexivity].
Qed.
Lemma strip_quote q i j : isq q -> spaced i j -> strip_sim (inq q) (strip false [q] i) (strip false [q] j).
Proof.
  intros Q K. destruct (spaced_view _ _ K) as [t|c i j P N K' R|c d i j C D|q' b i j Q' B K' R]; cbn [strip eq_ch].
  - apply strip_refl, inq_refl.
  - assert (Ascii.eqb q c = false) as -> by (apply Ascii.eqb_neq; intros ->; rewrite (quote_plain c Q) in P; discriminate). exact I.
  - assert (Ascii.eqb q c = false) as -> by (apply Ascii.eqb_neq; intros ->; destruct Q as [-> | ->]; discriminate).
    assert (Ascii.eqb q d = false) as -> by (apply Ascii.eqb_neq; intros ->; destruct Q as [-> | ->]; discriminate). exact I.
  - destruct (Ascii.eqb q q') eqn:E; [|exact I]. apply Ascii.eqb_eq in E. subst q'. split; [reflexivity|]. right. exists b, i, j. exact (conj B (conj eq_refl (conj eq_refl (conj R K')))).
Qed.
Lemma strip_cons nc a s i : strip nc (a :: s) i = match strip nc [a] i with Some (m, r) => match strip nc s r with Some (m', r') => Some (m ++ m', r') | None => None end | None => None end.
Proof. destruct i as [|c i]; [reflexivity|]. cbn [strip]. destruct (eq_ch nc a c); [|reflexivity]. destruct (strip nc s i) as [[? ?]|]; reflexivity. Qed.
Lemma strip_seq (R R1 R2 : rel) nc a s :
  (forall i j, R i j -> strip_sim R1 (strip nc [a] i) (strip nc [a] j)) -> (forall i j, R1 i j -> strip_sim R2 (strip nc s i) (strip nc s j)) ->
  forall i j, R i j -> strip_sim R2 (strip nc (a :: s) i) (strip nc (a :: s) j).
Proof.
  intros A B i j K. rewrite (strip_cons nc a s i), (strip_cons nc a s j). specialize (A _ _ K).
  destruct (strip nc [a] i) as [[m r]|], (strip nc [a] j) as [[m' r']|]; cbn in A; try contradiction; [|exact I]. destruct A as [-> A]. specialize (B _ _ A).
  destruct (strip nc s r) as [[u v]|], (strip nc s r') as [[u' v']|]; cbn in B; try contradiction; [|exact I]. destruct B as [-> B]. now split.
Qed.
Lemma strip_unquote q nc i j : isq q -> inq q i j -> strip_sim (outq q) (strip nc [q] i) (strip nc [q] j).
Proof.
  intros Q [-> |(b & i' & j' & B & -> & -> & R)]; [apply strip_refl, outq_refl|]. destruct b as [|c b]; cbn [app strip].
  - destruct (eq_ch nc q q); [|exact I]. now split.
  - destruct (eq_ch nc q c) eqn:E; [|exact I]. exfalso. apply B. left. destruct nc; cbn [eq_ch] in E; [|now apply Ascii.eqb_eq in E].
    assert (Hb : forallb (fun c => implb (eq_nc "'" c) (Ascii.eqb c "'") && implb (eq_nc dq c) (Ascii.eqb c dq)) all_bytes = true) by (vm_compute; reflexivity).
    rewrite forallb_forall in Hb. specialize (Hb c (all_bytes_in c)). apply andb_true_iff in Hb as [H1 H2].
    destruct Q as [-> | ->]; rewrite E in *; cbn [implb] in *; now apply Ascii.eqb_eq.
Qed.
Lemma part_inside q : isq q -> sgood (inq q) (inq q) (SAlt (SChr (fun c => negb (Ascii.eqb c q))) (SStr false [q; q])).
Proof.
  intros Q. apply sg_alt; [apply chr_inside; now rewrite Ascii.eqb_refl|]. apply sg_strip. intros i j K.
  apply (strip_seq (inq q) spaced (inq q)); [|intros a b Kab; now apply strip_quote|exact K]. intros a b Kab.
  pose proof (strip_unquote q false a b Q Kab) as X. destruct (strip false [q] a) as [[? ?]|], (strip false [q] b) as [[? ?]|]; cbn in *; try contradiction; auto.
  destruct X as [-> [X _]]. now split.
Qed.

(** * Lexemes *)
Lemma cls (f : ascii -> bool) : forallb (fun c => implb (f c) (plain c)) all_bytes = true -> forall c, f c = true -> plain c = true.
Proof. intros H c F. rewrite forallb_forall in H. specialize (H c (all_bytes_in c)). now rewrite F in H. Qed.
Lemma cls_sp (f : ascii -> bool) b : forallb (fun c => implb (is_space c) (Bool.eqb (f c) b)) all_bytes = true -> forall c d, is_space c = true -> is_space d = true -> f c = f d.
Proof.
  intros H c d C D. rewrite forallb_forall in H. pose proof (H c (all_bytes_in c)) as Hc. pose proof (H d (all_bytes_in d)) as Hd. rewrite C in Hc. rewrite D in Hd. cbn [implb] in *.
  apply eqb_prop in Hc, Hd. congruence.
Qed.
Notation sg0 := (sgood spaced spaced).
Lemma sg_class f : forallb (fun c => implb (f c) (plain c)) all_bytes = true -> sg0 (SChr f).
Proof. intros H. apply sg_chr. now apply cls. Qed.
Lemma sg_look f b : forallb (fun c => implb (is_space c) (Bool.eqb (f c) b)) all_bytes = true -> sg0 (SAnd (SChr f)).
Proof. intros H. apply sg_ahead. now apply cls_sp with b. Qed.
Lemma sg_sp : sg0 ahead_space. Proof. apply sg_look with true. vm_compute. reflexivity. Qed.
Lemma sg_nonid : sg0 ahead_nonid. Proof. apply sg_look with true. vm_compute. reflexivity. Qed.
Ltac byte := apply sg_class; vm_compute; reflexivity.
Lemma sg_letter : sg0 (SChr is_letter). Proof. byte. Qed.
Lemma sg_idchar : sg0 (SChr is_idchar). Proof. byte. Qed.
Lemma sg_digit : sg0 (SChr is_digit). Proof. byte. Qed.
Lemma sg_dot : sg0 (chr "."). Proof. byte. Qed.
Lemma sg_keyword : sg0 s_keyword.
Proof.
  unfold s_keyword. eapply sg_seq; [apply sg_alt; apply sg_lits; vm_compute; reflexivity|]. eapply sg_and, sg_not, sg_idchar.
Qed.
Lemma sg_regular : sg0 s_regular_identifier.
Proof. unfold s_regular_identifier, s_all_identifiers. eapply sg_diff; [|apply sg_keyword]. eapply sg_seq; [apply sg_letter|apply sg_star, sg_idchar]. Qed.
Lemma sg_out q e : sgood spaced (outq q) e -> sg0 e.
Proof. apply sg_weak; [auto|]. intros i j. apply outq_spaced. Qed.
Lemma sg_delimited : sg0 s_delimited_identifier.
Proof.
  apply (sg_out dq). unfold s_delimited_identifier. change dquote with dq. eapply sg_seq; [apply chr_in; now right|]. eapply sg_seq; [|apply chr_out].
  apply sg_plus. unfold s_delimited_identifier_part. change dquote with dq. apply part_inside. now right.
Qed.
Lemma sg_identifier : sg0 s_identifier.
Proof. apply sg_alt; [apply sg_regular|apply sg_delimited]. Qed.
Lemma sg_tap m : sg0 (s_tap_upload m).
Proof. unfold s_tap_upload. eapply sg_exp; [apply sg_lit; vm_compute; reflexivity|]. apply sg_map, sg_identifier. Qed.
Lemma sg_table m : sg0 (s_table_name m).
Proof.
  unfold s_table_name. apply sg_alt; [apply sg_tap|]; apply sg_alt; [|apply sg_alt; [|apply sg_identifier]]; apply sg_hold;
    repeat (eapply sg_seq; [first [apply sg_identifier|apply sg_dot]|]); apply sg_identifier.
Qed.
Lemma sg_qstar m : sg0 (s_qualifier_star m).
Proof. eapply sg_seq; [apply sg_table|]. apply sg_str. vm_compute. reflexivity. Qed.
Lemma sg_unsigned : sg0 s_unsigned_integer. Proof. apply sg_plus, sg_digit. Qed.
Lemma sg_exact : sg0 s_exact_numeric.
Proof. apply sg_alt; [eapply sg_seq; [apply sg_unsigned|]; apply sg_opt|]; (eapply sg_seq; [apply sg_dot|apply sg_unsigned]). Qed.
Lemma sg_sign : sg0 s_sign. Proof. apply sg_alt; byte. Qed.
Lemma sg_numeric : sg0 s_unsigned_numeric.
Proof.
  apply sg_alt; [|apply sg_exact]. apply sg_hold. eapply sg_seq; [apply sg_exact|]. eapply sg_seq; [byte|]. eapply sg_seq; [apply sg_opt, sg_sign|apply sg_unsigned].
Qed.
Lemma sg_kw_soft w : forallb plain (L w) = true -> sg0 (kw_soft w).
Proof. intros P. eapply sg_seq; [now apply sg_lit|apply sg_sp]. Qed.
Lemma sg_kw_hard w : forallb plain (L w) = true -> sg0 (kw_hard w).
Proof. intros P. eapply sg_exp; [now apply sg_lit|apply sg_sp]. Qed.
Lemma sg_kws_hard w : forallb plain (L w) = true -> sg0 (kws_hard w).
Proof. intros P. eapply sg_exp; [now apply sg_str|apply sg_sp]. Qed.
Lemma sg_kws_soft ws : forallb (fun w => forallb plain (L w)) ws = true -> sg0 (kws_soft ws).
Proof. intros P. eapply sg_seq; [now apply sg_strs|apply sg_sp]. Qed.
Lemma sg_held ws a : forallb (fun w => forallb plain (L w)) ws = true -> sg0 a -> sg0 (SHold (SSeq (strs_nc ws) a)).
Proof. intros P A. apply sg_hold. eapply sg_seq; [now apply sg_strs|exact A]. Qed.

(** * What follows *)
Lemma skip_spec t : exists u, t = u ++ skip t /\ white u /\ dark (skip t).
Proof.
  induction t as [|c t (u & E & W & D)]; [exists []; repeat split; constructor|]. cbn [skip]. destruct (is_space c) eqn:C.
  - exists (c :: u). split; [cbn [app]; now rewrite <- E|]. split; [now constructor|exact D].
  - exists []. split; [reflexivity|]. split; [constructor|exact C].
Qed.
Lemma starts_iff w t : upper (L w) = L w -> starts w t <-> exists m r, strip true (L w) t = Some (m, r).
Proof.
  intros U. split.
  - intros (v & r & -> & V). exists v, r. apply strip_nc_iff. split; [reflexivity|congruence].
  - intros (m & r & E). apply strip_nc_iff in E as [-> E]. exists m, r. split; [reflexivity|congruence].
Qed.
Lemma starts_dark a w t : is_space a = false -> upper (L (String a w)) = L (String a w) -> starts (String a w) t -> dark t.
Proof.
  intros A U (v & r & -> & V). destruct v as [|c v]; [discriminate|]. cbn [app dark]. destruct (is_space c) eqn:C; [|reflexivity].
  injection V as V _. exfalso. assert (H : forallb (fun c => implb (is_space c) (is_space (upc c))) all_bytes = true) by (vm_compute; reflexivity).
  rewrite forallb_forall in H. specialize (H c (all_bytes_in c)). rewrite C, V, A in H. discriminate.
Qed.
Lemma followed_iff a w t : is_space a = false -> upper (L (String a w)) = L (String a w) -> followed (String a w) t <-> starts (String a w) (skip t).
Proof.
  intros A U. split.
  - intros (u & r & -> & W & S). rewrite skip_white; [exact S|exact W|]. eapply starts_dark; eauto.
  - intros S. destruct (skip_spec t) as (u & E & W & _). exists u, (skip t). auto.
Qed.
Lemma starts_sim w i j : upper (L w) = L w -> forallb plain (L w) = true -> spaced i j -> starts w i <-> starts w j.
Proof.
  intros U P K. rewrite !starts_iff by exact U. pose proof (strip_spaced true (L w) P _ _ K) as X.
  destruct (strip true (L w) i) as [[m r]|], (strip true (L w) j) as [[m' r']|]; cbn in X; try contradiction; [split; intros _; eauto|split; intros (? & ? & ?); discriminate].
Qed.
Lemma followed_sim a w i j : is_space a = false -> upper (L (String a w)) = L (String a w) -> forallb plain (L (String a w)) = true -> spaced i j -> followed (String a w) i <-> followed (String a w) j.
Proof. intros A U P K. rewrite !followed_iff by assumption. apply starts_sim; auto. now apply spaced_skip. Qed.
Lemma quote_starts t : starts "'" t <-> exists r, t = "'"%char :: r.
Proof.
  split; [|intros (r & ->); exists ["'"%char], r; now split]. intros S. apply starts_iff in S as (m & r & E); [|reflexivity].
  destruct t as [|c t]; [discriminate|]. cbn [L list_ascii_of_string strip eq_ch] in E. destruct (eq_nc "'" c) eqn:X; [|discriminate].
  assert (H : forallb (fun c => implb (eq_nc "'" c) (Ascii.eqb c "'")) all_bytes = true) by (vm_compute; reflexivity).
  rewrite forallb_forall in H. specialize (H c (all_bytes_in c)). rewrite X in H. cbn [implb] in H. apply Ascii.eqb_eq in H. subst c. now exists t.
Qed.
Lemma quote_sim i j : spaced i j -> followed "'" i <-> followed "'" j.
Proof.
  intros K. rewrite !followed_iff by reflexivity. rewrite !quote_starts. destruct (spaced_view _ _ (spaced_skip _ _ K)) as [t|c i' j' P N K' R|c d i' j' C D|q' b i' j' Q' B K' R].
  - reflexivity.
  - split; intros (r & E); injection E as -> _; discriminate.
  - split; intros (r & E); injection E as -> _; discriminate.
  - split; intros (r & E); injection E as -> _; eauto.
Qed.

(** * Strings *)
Definition sgroup : se := SHold (SSeq (SPlus s_separator) (SSeq (chr quote) (SSeq (SStar s_character_representation) (chr quote)))).
Definition calm (i : text) : Prop := ~ followed "'" i /\ ~ followed "--" i.
Lemma calm_tail c i : is_space c = true -> calm (c :: i) -> calm i.
Proof. intros C [A B]. split; intros (u & r & -> & W & S); [apply A|apply B]; exists (c :: u), r; repeat split; auto; now constructor. Qed.
Lemma sep_cases acc i o : sev s_separator acc i o -> ~ followed "--" i ->
  (exists c r, i = c :: r /\ is_space c = true /\ o = SOk (acc ++ [c]) r) \/ exists a, o = SFail a.
Proof.
  intros S N. apply sev_iff in S; [|reflexivity]. subst o. destruct i as [|c i]; [right; eexists; reflexivity|].
  unfold s_separator, s_comment, chr. cbn [srun]. destruct (Ascii.eqb_spec c "-") as [-> | Nc].
  - destruct i as [|d i]; [right; eexists; reflexivity|]. destruct (Ascii.eqb_spec d "-") as [-> | Nd]; [|right; eexists; reflexivity].
    destruct N. apply followed_iff; [reflexivity|reflexivity|]. exists (L "--"), i. now split.
  - destruct (Ascii.eqb_spec c " ") as [-> | Nb]; [left; repeat eexists|]. destruct (Ascii.eqb_spec c newline) as [-> | Nn]; [left; repeat eexists|right; eexists; reflexivity].
Qed.
Lemma seps_calm acc i o : sev (SStar s_separator) acc i o -> calm i -> exists a r, o = SOk a r /\ calm r.
Proof.
  intros H. remember (SStar s_separator) as e eqn:Ee. induction H; try discriminate; injection Ee as ->; intros C.
  - eauto.
  - destruct (sep_cases _ _ _ H (proj2 C)) as [(c & r & -> & Sp & E)|(a & E)]; [|discriminate]. injection E as -> ->. apply IHsev2; [reflexivity|]. now apply calm_tail with c.
  - destruct (sep_cases _ _ _ H (proj2 C)) as [(c & r & -> & Sp & E)|(a & E)]; discriminate.
Qed.
Lemma group_calm acc i : calm i -> srun sgroup acc i = SFail acc.
Proof.
  intros C. unfold sgroup. cbn [srun].
  assert (X : forall o, sev (SPlus s_separator) acc i o -> (exists a r, o = SOk a r /\ calm r) \/ exists a, o = SFail a).
  { intros o S. inversion S; subst.
    - match goal with H : sev s_separator _ _ _ |- _ => destruct (sep_cases _ _ _ H (proj2 C)) as [(c & r & -> & Sp & E)|(a & E)]; [|discriminate] end. injection E as -> ->.
      left. eapply seps_calm; [eassumption|]. now apply calm_tail with c.
    - right. eauto.
    - match goal with H : sev s_separator _ _ _ |- _ => destruct (sep_cases _ _ _ H (proj2 C)) as [(c & r & -> & Sp & E)|(a & E)]; discriminate end. }
  specialize (X _ (proj2 (sev_iff (SPlus s_separator) acc i _ eq_refl) eq_refl)).
  cbn [srun] in X. destruct (match srun s_separator acc i with SOk acc' i' => sstar (srun s_separator) (length i') acc' i' | o => o end) as [a r|a|x|].
  - destruct X as [(a' & r' & E & Cr)|(a' & E)]; [|discriminate]. injection E as <- <-. destruct r as [|c r]; [reflexivity|].
    unfold chr. cbn [srun]. destruct (Ascii.eqb_spec c quote) as [-> | Nc]; [|reflexivity].
    exfalso. apply (proj1 Cr). apply followed_iff; [reflexivity|reflexivity|]. apply quote_starts. exists r. reflexivity.
  - reflexivity.
  - destruct X as [(? & ? & ? & ?)|(? & ?)]; discriminate.
  - destruct X as [(? & ? & ? & ?)|(? & ?)]; discriminate.
Qed.
(** the same white space and then a string *)
Definition lined (i j : text) : Prop := exists u i' j', white u /\ i = u ++ "'"%char :: i' /\ j = u ++ "'"%char :: j' /\ spaced ("'"%char :: i') ("'"%char :: j').
Lemma lined_of i j : spaced i j -> followed "'" i -> lead i = lead j -> lined i j.
Proof.
  intros K F E. assert (F' : followed "'" j) by now apply (quote_sim i j). apply followed_iff in F, F'; try reflexivity. apply quote_starts in F as (r & Er), F' as (r' & Er').
  assert (LS : forall t, t = lead t ++ skip t) by (induction t as [|c t IH]; [reflexivity|]; cbn [lead skip]; destruct (is_space c); [cbn [app]; now rewrite <- IH|reflexivity]).
  assert (LW : forall t, white (lead t)) by (induction t as [|c t IH]; [constructor|]; cbn [lead]; destruct (is_space c) eqn:C; constructor; auto).
  exists (lead i), r, r'. split; [apply LW|]. split; [rewrite (LS i) at 1; now rewrite Er|]. split; [rewrite (LS j) at 1; rewrite Er'; now rewrite E|].
  rewrite <- Er, <- Er'. now apply spaced_skip.
Qed.
Lemma lined_head i j : lined i j -> exists c i' j', i = c :: i' /\ j = c :: j' /\ (is_space c = true /\ lined i' j' \/ c = "'"%char /\ spaced i j).
Proof.
  intros (u & i' & j' & W & -> & -> & K). destruct u as [|c u]; cbn [app].
  - exists "'"%char, i', j'. auto.
  - inversion W; subst. exists c, (u ++ "'"%char :: i'), (u ++ "'"%char :: j'). repeat split. left. split; [assumption|]. exists u, i', j'. auto.
Qed.
Lemma lined_chr f : f "'"%char = false -> sgood lined lined (SChr f).
Proof.
  intros F acc i j o K H. destruct (lined_head _ _ K) as (c & i' & j' & -> & -> & [[C K']|[-> K']]); destruct (chr_inv _ _ _ _ _ H) as [[E ->]|[E ->]].
  - eexists. split; [now apply sev_chr_ok|now split].
  - eexists. split; [now apply sev_chr_no|reflexivity].
  - congruence.
  - eexists. split; [now apply sev_chr_no|reflexivity].
Qed.
Lemma lined_comment : sgood lined lined s_comment.
Proof.
  intros acc i j o K H. apply sev_iff in H; [|reflexivity]. destruct (lined_head _ _ K) as (c & i' & j' & -> & -> & X).
  assert (N : Ascii.eqb c "-" = false) by (apply Ascii.eqb_neq; intros ->; destruct X as [[X _]|[X _]]; discriminate).
  assert (Q : forall t, srun s_comment acc (c :: t) = SFail acc) by (intros t; unfold s_comment, chr; cbn [srun]; now rewrite N).
  rewrite Q in H. subst o. exists (SFail acc). split; [apply sev_iff; [reflexivity|apply Q]|reflexivity].
Qed.
Lemma lined_sep : sgood lined lined s_separator.
Proof. apply sg_alt; [apply lined_comment|]. apply sg_alt; now apply lined_chr. Qed.
Lemma lined_quote : sgood lined (inq quote) (chr quote).
Proof.
  intros acc i j o K H. destruct (lined_head _ _ K) as (c & i' & j' & -> & -> & [[C K']|[-> K']]).
  - assert (N : Ascii.eqb c quote = false) by (apply Ascii.eqb_neq; intros ->; discriminate). destruct (chr_inv _ _ _ _ _ H) as [[E ->]|[E ->]]; [congruence|].
    eexists. split; [now apply sev_chr_no|reflexivity].
  - now apply (chr_in quote (or_introl eq_refl) acc) with (1 := K').
Qed.
Lemma lined_group : sgood lined (outq quote) sgroup.
Proof.
  unfold sgroup. apply sg_hold. eapply sg_seq; [apply sg_plus, lined_sep|]. eapply sg_seq; [apply lined_quote|]. eapply sg_seq; [|apply chr_out].
  apply sg_star. apply part_inside. now left.
Qed.
Lemma starts_dec w t : upper (L w) = L w -> starts w t \/ ~ starts w t.
Proof.
  intros U. rewrite (starts_iff w t U). destruct (strip true (L w) t) as [[m r]|]; [left; eauto|right; intros (? & ? & ?); discriminate].
Qed.
Lemma followed_dec a w t : is_space a = false -> upper (L (String a w)) = L (String a w) -> followed (String a w) t \/ ~ followed (String a w) t.
Proof. intros A U. rewrite followed_iff by assumption. now apply starts_dec. Qed.
Lemma sg_group : sgood (outq quote) (outq quote) sgroup.
Proof.
  intros acc i j o [K B] H. specialize (B eq_refl) as [B1 B2].
  destruct (followed_dec "-" "-" i eq_refl eq_refl) as [F|F]; [rewrite <- (B2 F); eapply same; [apply outq_refl|exact H]|].
  destruct (followed_dec "'" "" i eq_refl eq_refl) as [G|G]; [apply (lined_group acc i j o); [now apply lined_of; auto|exact H]|].
  assert (Ci : calm i) by now split. assert (Cj : calm j) by (split; [intros X; apply G; now apply (quote_sim i j)|intros X; apply F; now apply (followed_sim "-" "-" i j)]).
  apply sev_iff in H; [|reflexivity]. rewrite group_calm in H by exact Ci. subst o. exists (SFail acc). split; [|reflexivity]. apply sev_iff; [reflexivity|]. now apply group_calm.
Qed.
Lemma sg_string : sg0 s_character_string.
Proof.
  apply (sg_out quote). unfold s_character_string. fold sgroup. eapply sg_seq; [apply chr_in; now left|]. eapply sg_seq; [apply sg_star, part_inside; now left|].
  eapply sg_seq; [apply chr_out|apply sg_star, sg_group].
Qed.
Lemma sg_literal : sg0 s_unsigned_literal.
Proof. apply sg_alt; [apply sg_numeric|]. apply sg_alt; [apply sg_string|]. apply sg_strs. vm_compute. reflexivity. Qed.

(** * UNION *)
Lemma strip_split nc a b : forall i, strip nc (a ++ b) i = match strip nc a i with Some (m, r) => match strip nc b r with Some (m', r') => Some (m ++ m', r') | None => None end | None => None end.
Proof.
  induction a as [|c a IH]; intros i; cbn [app]; [cbn [strip]; destruct (strip nc b i) as [[? ?]|]; reflexivity|].
  destruct i as [|d i]; [reflexivity|]. cbn [strip]. destruct (eq_ch nc c d); [|reflexivity]. rewrite IH. destruct (strip nc a i) as [[m r]|]; [|reflexivity].
  destruct (strip nc b r) as [[m' r']|]; reflexivity.
Qed.
Lemma blank_nc c : eq_nc " " c = true -> c = " "%char.
Proof.
  intros X. assert (H : forallb (fun c => implb (eq_nc " " c) (Ascii.eqb c " ")) all_bytes = true) by (vm_compute; reflexivity).
  rewrite forallb_forall in H. specialize (H c (all_bytes_in c)). rewrite X in H. now apply Ascii.eqb_eq.
Qed.
Lemma lead_skip t : t = lead t ++ skip t.
Proof. induction t as [|c t IH]; [reflexivity|]. cbn [lead skip]. destruct (is_space c); [cbn [app]; now rewrite <- IH|reflexivity]. Qed.
Lemma lead_white t : white (lead t).
Proof. induction t as [|c t IH]; [constructor|]. cbn [lead]. destruct (is_space c) eqn:C; constructor; auto. Qed.
Lemma skip_dark t : dark (skip t).
Proof. destruct (skip_spec t) as (u & _ & _ & D). exact D. Qed.
(** a blank and a word: only when the white space is one blank *)
Definition one_blank (w : text) (t : text) : option (text * text) :=
  match lead t with [c] => if Ascii.eqb c " " then match strip true w (skip t) with Some (m, r) => Some (" "%char :: m, r) | None => None end else None | _ => None end.
Lemma blank_word a w t : is_space a = false -> plain a = true -> strip true (" "%char :: a :: w) t = one_blank (a :: w) t.
Proof.
  intros A P. unfold one_blank. rewrite (lead_skip t) at 1. pose proof (lead_white t) as W. pose proof (skip_dark t) as D.
  destruct (lead t) as [|c u]; cbn [app].
  - destruct (skip t) as [|c r]; [reflexivity|]. cbn [strip eq_ch]. destruct (eq_nc " " c) eqn:E; [|reflexivity]. apply blank_nc in E. subst c. discriminate.
  - inversion W as [|? ? C W']; subst. rewrite strip_cons. cbn [strip eq_ch]. destruct (eq_nc " " c) eqn:E.
    + apply blank_nc in E. subst c. destruct u as [|d u]; cbn [app].
      * cbn [Ascii.eqb]. destruct (skip t) as [|d r]; [reflexivity|]. cbn [strip eq_ch]. destruct (eq_nc a d); [|reflexivity]. destruct (strip true w r) as [[? ?]|]; reflexivity.
      * inversion W'; subst. cbn [strip eq_ch]. destruct (eq_nc a d) eqn:Ed; [|reflexivity]. apply (plain_nc a d P) in Ed. rewrite space_plain in Ed; [discriminate|assumption].
    + assert (N : Ascii.eqb c " " = false) by (apply Ascii.eqb_neq; intros ->; discriminate). rewrite N. now destruct u.
Qed.
Lemma union_strip a w : is_space a = false -> upper (L (String a w)) = L (String a w) -> forallb plain (L (String a w)) = true -> String a w = "ALL"%string \/ String a w = "DISTINCT"%string ->
  forall i j, spaced i j -> strip_sim spaced (strip true (L "UNION" ++ " "%char :: L (String a w)) i) (strip true (L "UNION" ++ " "%char :: L (String a w)) j).
Proof.
  intros A U P W i j K. rewrite !strip_split. pose proof (strip_spaced true (L "UNION") eq_refl i j K) as X.
  destruct (strip true (L "UNION") i) as [[m r]|] eqn:Ei, (strip true (L "UNION") j) as [[m' r']|] eqn:Ej; cbn [strip_sim] in X; try contradiction; [|exact I]. destruct X as [<- R].
  apply strip_nc_iff in Ei as [Ei Um], Ej as [Ej _]. pose proof P as P'. cbn [L list_ascii_of_string forallb] in P'. apply andb_true_iff in P' as [Pa _].
  assert (Y : forall t, strip true (" "%char :: L (String a w)) t = one_blank (L (String a w)) t) by (intros t; apply blank_word; assumption). rewrite !Y.
  assert (Z : strip_sim spaced (one_blank (L (String a w)) r) (one_blank (L (String a w)) r')).
  { assert (NF : forall t, ~ followed (String a w) t -> one_blank (L (String a w)) t = None).
    { intros t N. unfold one_blank. destruct (lead t) as [|c [|? ?]]; try reflexivity. destruct (Ascii.eqb c " "); [|reflexivity].
      destruct (strip true (L (String a w)) (skip t)) as [[x y]|] eqn:Es; [|reflexivity]. destruct N. apply followed_iff; auto. apply starts_iff; eauto. }
    destruct (followed_dec a w r A U) as [F|F].
    - assert (E : lead r = lead r').
      { destruct (spaced_view _ _ K) as [t|c i' j' Pc N K' R'|c d i' j' C D|q' b i' j' Q' B K' R'].
        - rewrite Ei in Ej. apply app_inv_head in Ej. now subst.
        - destruct (K' m r r' Ei Ej) as [H _]. apply H; [exact Um|]. destruct W as [W|W]; rewrite W in F; auto.
        - exfalso. destruct m as [|x m]; [discriminate|]. injection Ei as <- _. assert (strip true (L "UNION") (c :: m) = Some (c :: m, [])) as S by (apply strip_nc_iff; now rewrite app_nil_r).
          cbn [L list_ascii_of_string strip eq_ch] in S. destruct (eq_nc "U" c) eqn:Eq; [|discriminate]. apply plain_nc in Eq; [|reflexivity]. rewrite space_plain in Eq; [discriminate|assumption].
        - exfalso. destruct m as [|x m]; [discriminate|]. injection Ei as <- _. destruct Q' as [-> | ->]; cbn in Um; discriminate. }
      unfold one_blank. rewrite E. destruct (lead r') as [|c [|? ?]]; try exact I. destruct (Ascii.eqb c " "); [|exact I].
      pose proof (strip_spaced true (L (String a w)) P _ _ (spaced_skip _ _ R)) as X.
      destruct (strip true (L (String a w)) (skip r)) as [[? ?]|], (strip true (L (String a w)) (skip r')) as [[? ?]|]; cbn in X; try contradiction; [|exact I]. destruct X as [-> X]. now split.
    - rewrite !NF; [exact I|intros X; apply F; now apply (followed_sim a w r r')|exact F]. }
  destruct (one_blank (L (String a w)) r) as [[? ?]|], (one_blank (L (String a w)) r') as [[? ?]|]; cbn in Z; try contradiction; [|exact I]. destruct Z as [-> Z]. now split.
Qed.
Lemma sg_union : sg0 s_union.
Proof.
  unfold s_union, kws_soft, strs_nc. cbn [map alts]. eapply sg_seq; [|apply sg_sp].
  apply sg_alt; [apply sg_strip; apply (union_strip "D" "ISTINCT"); auto|]. apply sg_alt; [apply sg_strip; apply (union_strip "A" "LL"); auto|].
  apply sg_alt; [apply sg_str; reflexivity|]. byte.
Qed.
