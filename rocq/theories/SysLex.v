(** The spelling of coordinate systems does not matter: character level (C24). *)
From Verif Require Import Query PegProps PegSpec PegEquiv TextLemmas LexProofs Spec SpecLexical SpecSpelling SpecWhite SpecSystem WhiteLex.

(** * The relation *)
Notation rt := (respelt true).
Notation rf := (respelt false).
Definition rany b := respelt b.
Lemma rs_weak b i j : respelt true i j -> respelt b i j.
Proof. intros H. inversion H; subst; now constructor. Qed.
Lemma rs_weak2 b i j : respelt b i j -> respelt false i j.
Proof. destruct b; [apply rs_weak|auto]. Qed.
Definition shaped (i j : text) : Prop := exists word w a a' f i' j', In (upper word) (map L shape_names) /\ white w /\ system_argument a f /\ system_argument a' f /\
  ~ followed "'" i' /\ ~ followed "'" j' /\ rf i' j' /\ i = word ++ w ++ L "(" ++ a ++ i' /\ j = word ++ w ++ L "(" ++ a' ++ j'.
Lemma rs_cases b i j : respelt b i j -> rt i j \/ b = false /\ shaped i j.
Proof.
  intros H. inversion H; subst; try (left; now constructor). right. split; [reflexivity|]. exists word, w, a, a', f, i0, j0. auto 10.
Qed.
(** no quotes *)
Definition noq (c : ascii) : bool := negb (Ascii.eqb c "'") && negb (Ascii.eqb c dq).
Lemma noq_iff c : noq c = true <-> c <> "'"%char /\ c <> dq.
Proof. unfold noq. rewrite andb_true_iff, !negb_true_iff, !Ascii.eqb_neq. reflexivity. Qed.
Inductive rview : text -> text -> Prop :=
| rv_same t : rview t t
| rv_char c i j : noq c = true -> ~ starts "NAN(" (c :: i) -> respelt (goes_on c) i j -> rview (c :: i) (c :: j)
| rv_quote q t i j : q = "'"%char \/ q = dq -> ~ In q t -> (q = "'"%char -> followed "--" i -> i = j) -> rf i j -> rview (q :: t ++ q :: i) (q :: t ++ q :: j).
Lemma rt_view i j : rt i j -> rview i j.
Proof. intros H. inversion H; subst; [apply rv_same|apply rv_char; [now apply noq_iff|assumption|assumption]|now apply rv_quote]. Qed.
(** the first letter of a shape *)
Definition starter (c : ascii) : bool := existsb (eq_nc c) ["P"; "C"; "B"]%char.
Lemma word_first word : In (upper word) (map L shape_names) -> exists c t, word = c :: t /\ starter c = true.
Proof.
  intros H. assert (Hs : forallb (fun c => implb (existsb (Ascii.eqb (upc c)) ["P"; "C"; "B"]%char) (starter c)) all_bytes = true) by (vm_compute; reflexivity).
  rewrite forallb_forall in Hs. destruct word as [|c t]; [cbn in H; intuition discriminate|]. exists c, t. split; [reflexivity|]. specialize (Hs c (all_bytes_in c)).
  cbn [upper map shape_names In] in H. assert (E : existsb (Ascii.eqb (upc c)) ["P"; "C"; "B"]%char = true).
  { cbn [existsb]. destruct H as [H|[H|[H|[H|[]]]]]; injection H as <- _; reflexivity. }
  rewrite E in Hs. exact Hs.
Qed.
Lemma shaped_first i j : shaped i j -> exists c i' j', i = c :: i' /\ j = c :: j' /\ starter c = true.
Proof.
  intros (word & w & a & a' & f & i' & j' & I & _ & _ & _ & _ & _ & _ & -> & ->). destruct (word_first _ I) as (c & t & -> & S). cbn [app]. eauto 6.
Qed.
Lemma starter_noq c : starter c = true -> noq c = true /\ is_space c = false.
Proof.
  intros S. assert (H : forallb (fun c => implb (starter c) (noq c && negb (is_space c))) all_bytes = true) by (vm_compute; reflexivity).
  rewrite forallb_forall in H. specialize (H c (all_bytes_in c)). rewrite S in H. cbn [implb] in H. apply andb_true_iff in H as [-> H]. apply negb_true_iff in H. auto.
Qed.
(** two related texts start alike *)
Lemma same_first b i j : respelt b i j -> i = j \/ exists c i' j', i = c :: i' /\ j = c :: j'.
Proof.
  intros H. destruct (rs_cases _ _ _ H) as [V|[_ V]].
  - destruct (rt_view _ _ V) as [t|c i' j' N _ R|q t i' j' Q B _ R]; eauto 6.
  - destruct (shaped_first _ _ V) as (c & i' & j' & -> & -> & _). eauto 6.
Qed.
Lemma rs_skip b i j : respelt b i j -> rf (skip i) (skip j).
Proof.
  induction 1 as [b t|b c i j A B N K IH|b q t i j Q B F K IH|word w a a' f i j I W A A' F F' K IH].
  - constructor.
  - cbn [skip]. destruct (is_space c) eqn:S; [exact IH|now constructor].
  - cbn [skip]. assert (is_space q = false) as -> by (destruct Q as [-> | ->]; reflexivity). now constructor.
  - assert (S : shaped (word ++ w ++ L "(" ++ a ++ i) (word ++ w ++ L "(" ++ a' ++ j)) by (exists word, w, a, a', f, i, j; auto 10).
    pose proof (rs_shape word w a a' f i j I W A A' F F' K) as Z. destruct (shaped_first _ _ S) as (c & i' & j' & E & E' & St). rewrite E, E' in *. cbn [skip]. destruct (starter_noq _ St) as [_ ->]. exact Z.
Qed.

(** * Lookahead of one byte *)
Definition top : rel := fun _ _ => True.
Lemma rg_ahead b f : sgood (respelt b) top (SChr f).
Proof.
  intros acc i j o K H. destruct (same_first _ _ _ K) as [-> |(c & i' & j' & -> & ->)]; [eapply same; [exact (fun _ => I)|exact H]|].
  destruct (chr_inv _ _ _ _ _ H) as [[E ->]|[E ->]]; eexists; (split; [now constructor|]); cbn; auto. split; [reflexivity|exact I].
Qed.
Lemma rg_sp b : sgood (respelt b) (respelt b) ahead_space.
Proof. eapply sg_and, rg_ahead. Qed.
Lemma rg_nonid b : sgood (respelt b) (respelt b) ahead_nonid.
Proof. eapply sg_and, rg_ahead. Qed.

(** * Words *)
(** [s] is not the beginning of a shape, nor a shape the beginning of it *)
Fixpoint clash (s w : text) : bool :=
  match s, w with
  | a :: s', c :: w' => if eq_nc a c then clash s' w' else true
  | _, _ => false
  end.
Definition no_shape (s : text) : bool := forallb (fun w => clash s (L w)) shape_names.
Fixpoint okw (b : bool) (s : text) : bool :=
  match s with [] => true | a :: s' => (b || no_shape s) && noq a && okw (goes_on a) s' end.
Lemma clash_strip nc s : forall word w k, upper word = w -> clash s w = true -> strip nc s (word ++ k) = None.
Proof.
  induction s as [|a s IH]; intros word w k U C; [discriminate|]. destruct word as [|c word]; [subst w; discriminate|]. subst w. cbn [upper map clash] in C. cbn [app strip].
  assert (X : eq_nc a (upc c) = eq_nc a c).
  { assert (H : forallb (fun a => forallb (fun c => Bool.eqb (eq_nc a (upc c)) (eq_nc a c)) all_bytes) all_bytes = true) by (vm_compute; reflexivity).
    rewrite forallb_forall in H. specialize (H a (all_bytes_in a)). rewrite forallb_forall in H. specialize (H c (all_bytes_in c)). now apply eqb_prop. }
  rewrite X in C. destruct (eq_ch nc a c) eqn:E; [|reflexivity].
  assert (E' : eq_nc a c = true) by (destruct nc; cbn [eq_ch] in E; [exact E|]; apply Ascii.eqb_eq in E; subst; unfold eq_nc; now rewrite ?Ascii.eqb_refl).
  rewrite E' in C. now rewrite (IH word _ k eq_refl C).
Qed.
Lemma noq_eq nc a c : noq a = true -> eq_ch nc a c = true -> noq c = true /\ goes_on c = goes_on a.
Proof.
  intros N E. assert (H : forallb (fun a => forallb (fun c => implb (noq a && eq_nc a c) (noq c && Bool.eqb (goes_on c) (goes_on a))) all_bytes) all_bytes = true) by (vm_compute; reflexivity).
  rewrite forallb_forall in H. specialize (H a (all_bytes_in a)). rewrite forallb_forall in H. specialize (H c (all_bytes_in c)).
  destruct nc; cbn [eq_ch] in E; [|apply Ascii.eqb_eq in E; subst; auto]. rewrite N, E in H. cbn in H. apply andb_true_iff in H as [-> H]. apply eqb_prop in H. auto.
Qed.
Lemma shaped_strip nc s i j : shaped i j -> no_shape s = true -> strip nc s i = None /\ strip nc s j = None.
Proof.
  intros (word & w & a & a' & f & i' & j' & I & _ & _ & _ & _ & _ & _ & -> & ->) N. unfold no_shape in N. rewrite forallb_forall in N.
  apply in_map_iff in I as (x & U & I). specialize (N _ I). cbv beta in N. split; apply clash_strip with (L x); auto.
Qed.
Lemma quote_noq q : q = "'"%char \/ q = dq -> noq q = false.
Proof. now intros [-> | ->]. Qed.
Lemma rstrip nc s : forall b i j, okw b s = true -> respelt b i j -> strip_sim rf (strip nc s i) (strip nc s j).
Proof.
  induction s as [|a s IH]; intros b i j P K; [cbn; split; [reflexivity|now apply rs_weak2 with b]|]. cbn [okw] in P. rewrite !andb_true_iff in P. destruct P as [[P0 Na] P].
  destruct (rs_cases _ _ _ K) as [V|[-> V]]; [|cbn [orb] in P0; destruct (shaped_strip nc (a :: s) i j V P0) as [-> ->]; exact I].
  destruct (rt_view _ _ V) as [t|c i' j' N M R|q t i' j' Q B M R].
  - apply strip_refl. intros x. apply rs_same.
  - cbn [strip]. destruct (eq_ch nc a c) eqn:E; [|exact I]. destruct (noq_eq _ _ _ Na E) as [_ G]. rewrite G in R. specialize (IH _ _ _ P R).
    destruct (strip nc s i') as [[? ?]|], (strip nc s j') as [[? ?]|]; cbn in *; try contradiction; auto. now destruct IH as [-> IH].
  - cbn [strip]. destruct (eq_ch nc a q) eqn:E; [|exact I]. destruct (noq_eq _ _ _ Na E) as [X _]. rewrite quote_noq in X by exact Q. discriminate.
Qed.
Lemma rg_lit nc s b : okw b s = true -> sgood (respelt b) rf (SLit nc s).
Proof. intros P. apply sg_strip. intros i j K. now apply rstrip with b. Qed.
Lemma rg_str nc s b : okw b s = true -> sgood (respelt b) rf (SStr nc s).
Proof. intros P. apply sg_strip. intros i j K. now apply rstrip with b. Qed.
Lemma rg_lits b ws : forallb (fun w => okw b (L w)) ws = true -> sgood (respelt b) rf (lits_nc ws).
Proof. intros P. apply sg_alts. intros e I. apply in_map_iff in I as (w & <- & I). apply rg_lit. now apply (proj1 (forallb_forall _ _) P). Qed.
Lemma rg_strs b ws : forallb (fun w => okw b (L w)) ws = true -> sgood (respelt b) rf (strs_nc ws).
Proof. intros P. apply sg_alts. intros e I. apply in_map_iff in I as (w & <- & I). apply rg_str. now apply (proj1 (forallb_forall _ _) P). Qed.
Lemma rg_strs_cs b ws : forallb (fun w => okw b (L w)) ws = true -> sgood (respelt b) rf (strs_cs ws).
Proof. intros P. apply sg_alts. intros e I. apply in_map_iff in I as (w & <- & I). apply rg_str. now apply (proj1 (forallb_forall _ _) P). Qed.

(** * Single bytes *)
Lemma rg_chr f : (forall c, f c = true -> noq c = true /\ starter c = false) -> sgood rf rf (SChr f).
Proof.
  intros F acc i j o K H. destruct (rs_cases _ _ _ K) as [V|[_ V]].
  - destruct (rt_view _ _ V) as [t|c i' j' N M R|q t i' j' Q B M R].
    + eapply same; [apply rs_same|exact H].
    + destruct (chr_inv _ _ _ _ _ H) as [[E ->]|[E ->]]; eexists; (split; [now constructor|]); cbn; auto. split; [reflexivity|]. now apply rs_weak2 with (goes_on c).
    + destruct (chr_inv _ _ _ _ _ H) as [[E ->]|[E ->]]; [apply F in E as [E _]; rewrite quote_noq in E by exact Q; discriminate|]. eexists. split; [now apply sev_chr_no|reflexivity].
  - destruct (shaped_first _ _ V) as (c & i' & j' & -> & -> & S).
    destruct (chr_inv _ _ _ _ _ H) as [[E ->]|[E ->]]; [apply F in E as [_ E]; congruence|]. eexists. split; [now apply sev_chr_no|reflexivity].
Qed.
Lemma rcls (f : ascii -> bool) : forallb (fun c => implb (f c) (noq c && negb (starter c))) all_bytes = true -> forall c, f c = true -> noq c = true /\ starter c = false.
Proof. intros H c F. rewrite forallb_forall in H. specialize (H c (all_bytes_in c)). rewrite F in H. cbn [implb] in H. apply andb_true_iff in H as [-> H]. apply negb_true_iff in H. auto. Qed.
Notation rg0 := (sgood rf rf).
Lemma rg_class f : forallb (fun c => implb (f c) (noq c && negb (starter c))) all_bytes = true -> rg0 (SChr f).
Proof. intros H. apply rg_chr. now apply rcls. Qed.
Ltac rbyte := apply rg_class; vm_compute; reflexivity.
(** inside of words *)
Lemma rg_word f : (forall c, f c = true -> noq c = true /\ goes_on c = true) -> sgood rt rt (SChr f).
Proof.
  intros F acc i j o K H. destruct (rt_view _ _ K) as [t|c i' j' N M R|q t i' j' Q B M R].
  - eapply same; [apply rs_same|exact H].
  - destruct (chr_inv _ _ _ _ _ H) as [[E ->]|[E ->]]; eexists; (split; [now constructor|]); cbn; auto. split; [reflexivity|]. apply F in E as [_ E]. now rewrite E in R.
  - destruct (chr_inv _ _ _ _ _ H) as [[E ->]|[E ->]]; [apply F in E as [E _]; rewrite quote_noq in E by exact Q; discriminate|]. eexists. split; [now apply sev_chr_no|reflexivity].
Qed.
Lemma wcls (f : ascii -> bool) : forallb (fun c => implb (f c) (noq c && goes_on c)) all_bytes = true -> forall c, f c = true -> noq c = true /\ goes_on c = true.
Proof. intros H c F. rewrite forallb_forall in H. specialize (H c (all_bytes_in c)). rewrite F in H. cbn [implb] in H. now apply andb_true_iff in H. Qed.
Lemma rg_letter : sgood rt rt (SChr is_letter). Proof. apply rg_word, wcls. vm_compute. reflexivity. Qed.
Lemma rg_idchar : sgood rt rt (SChr is_idchar). Proof. apply rg_word, wcls. vm_compute. reflexivity. Qed.
Lemma rg_digit : rg0 (SChr is_digit). Proof. rbyte. Qed.
Lemma rg_dot : rg0 (chr "."). Proof. rbyte. Qed.
Lemma sg_wk (R R' R1 R1' : rel) e : (forall i j, R' i j -> R i j) -> (forall i j, R1 i j -> R1' i j) -> sgood R R1 e -> sgood R' R1' e.
Proof. apply sg_weak. Qed.
(** what cannot start with a shape *)
Lemma rg_split R e : sgood rt R e -> (forall acc i j, shaped i j -> srun e acc i = SFail acc /\ srun e acc j = SFail acc) -> swf e = true -> sgood rf R e.
Proof.
  intros A B W acc i j o K H. destruct (rs_cases _ _ _ K) as [V|[_ V]]; [now apply (A acc i j o)|].
  destruct (B acc i j V) as [Bi Bj]. apply sev_iff in H; [|exact W]. rewrite Bi in H. subst o. exists (SFail acc). split; [apply sev_iff; auto|reflexivity].
Qed.
Lemma rg_keyword : sgood rt top s_keyword.
Proof.
  unfold s_keyword. apply sg_seq with rf; [apply sg_alt; apply rg_lits; vm_compute; reflexivity|]. apply sg_weak with rf rf; [auto|exact (fun _ _ _ => I)|]. eapply sg_and, sg_not, rg_ahead.
Qed.
Lemma shape_is_word v : In (upper v) (map L shape_names) -> word v /\ reserved v /\ upper v <> L "END" /\ ~ In (upper v) (map L shadowed_words).
Proof.
  intros I. split; [|split; [|split]].
  - assert (A : forall c d, upc c = d -> is_letter d = true -> is_letter c = true).
    { intros c d <- X. assert (H : forallb (fun c => implb (is_letter (upc c)) (is_letter c)) all_bytes = true) by (vm_compute; reflexivity).
      rewrite forallb_forall in H. specialize (H c (all_bytes_in c)). now rewrite X in H. }
    assert (Al : forall t s, upper t = s -> forallb is_letter s = true -> forallb is_letter t = true).
    { induction t as [|c t IH]; intros s <- F; [reflexivity|]. cbn [upper map forallb] in *. apply andb_true_iff in F as [F1 F2]. rewrite (A c _ eq_refl F1). now apply IH with (upper t). }
    assert (F : forallb is_letter v = true) by (apply in_map_iff in I as (s & E & I); apply (Al v (L s)); [congruence|]; cbn in I; destruct I as [<- |[<- |[<- |[<- |[]]]]]; reflexivity).
    destruct (word_first _ I) as (c & t & -> & _). cbn [forallb] in F. apply andb_true_iff in F as [F1 F2]. exists c, t. split; [reflexivity|]. split; [now apply is_letter_iff|].
    apply Forall_forall. intros x X. left. apply is_letter_iff. now apply (proj1 (forallb_forall _ _) F2).
  - unfold reserved. assert (H : forallb (fun w => existsb (text_eqb (L w)) (map L (sql_words ++ adql_words))) shape_names = true) by (vm_compute; reflexivity).
    rewrite forallb_forall in H. apply in_map_iff in I as (s & E & I). specialize (H s I). apply existsb_exists in H as (x & X & Ex). apply text_eqb_iff in Ex. subst x. now rewrite E in X.
  - intros E. rewrite E in I. cbn in I. intuition discriminate.
  - intros S. apply in_map_iff in I as (s & E & I). rewrite <- E in S. cbn in I. destruct I as [<- |[<- |[<- |[<- |[]]]]]; cbn in S; intuition discriminate.
Qed.

Lemma word_stops w k : white w -> stops word_char (w ++ L "(" ++ k).
Proof.
  intros W. destruct W as [|c w C _]; cbn [app L list_ascii_of_string stops].
  - intros X. apply is_idchar_iff in X. discriminate.
  - intros X. apply is_idchar_iff in X. assert (H : forallb (fun c => implb (is_space c) (negb (is_idchar c))) all_bytes = true) by (vm_compute; reflexivity).
    rewrite forallb_forall in H. specialize (H c (all_bytes_in c)). rewrite C, X in H. discriminate.
Qed.
Lemma regular_not v w k acc : In (upper v) (map L shape_names) -> white w -> srun s_regular_identifier acc (v ++ w ++ L "(" ++ k) = SFail acc.
Proof.
  intros I W. destruct (shape_is_word v I) as (Wv & Rv & E & S). destruct (reserved_word_keyword v (w ++ L "(" ++ k) Wv (word_stops w k W) Rv E S) as (r & X).
  unfold s_regular_identifier. change (srun (SDiff s_all_identifiers s_keyword) acc ?i) with (match srun s_keyword [] i with SOk _ _ => SFail acc | SFail _ => srun s_all_identifiers acc i | SThrow e => SThrow e | SLoop => SLoop end).
  now rewrite X.
Qed.
Lemma rg_regular : rg0 s_regular_identifier.
Proof.
  apply rg_split; [|intros acc i j (v & w & a & a' & f & i' & j' & I & W & _ & _ & _ & _ & _ & -> & ->); split; now apply regular_not|reflexivity].
  apply (sg_wk rt rt rt rf); [auto|intros i j; apply rs_weak|]. unfold s_regular_identifier, s_all_identifiers. eapply sg_diff; [|apply rg_keyword]. eapply sg_seq; [apply rg_letter|apply sg_star, rg_idchar].
Qed.

(** * Quotes *)
Definition routq (q : ascii) (i j : text) : Prop := rf i j /\ (q = "'"%char -> followed "--" i -> i = j).
Definition rinq (q : ascii) (i j : text) : Prop := i = j \/ exists b i' j', ~ In q b /\ i = b ++ q :: i' /\ j = b ++ q :: j' /\ routq q i' j'.
Lemma rinq_refl q i : rinq q i i. Proof. now left. Qed.
Lemma routq_refl q i : routq q i i. Proof. split; [constructor|auto]. Qed.
Lemma routq_rf q i j : routq q i j -> rf i j. Proof. now intros []. Qed.
Lemma starter_q q c : isq q -> starter c = true -> Ascii.eqb c q = false.
Proof. intros Q S. apply Ascii.eqb_neq. intros ->. apply starter_noq in S as [S _]. rewrite quote_noq in S by exact Q. discriminate. Qed.
Lemma noq_q q c : isq q -> noq c = true -> Ascii.eqb c q = false.
Proof. intros Q S. apply Ascii.eqb_neq. intros ->. rewrite quote_noq in S by exact Q. discriminate. Qed.
Lemma rchr_in q : isq q -> sgood rf (rinq q) (chr q).
Proof.
  intros Q acc i j o K H. destruct (rs_cases _ _ _ K) as [V|[_ V]].
  - destruct (rt_view _ _ V) as [t|c i' j' N M R|q' t i' j' Q' B M R].
    + eapply same; [apply rinq_refl|exact H].
    + destruct (chr_inv _ _ _ _ _ H) as [[E ->]|[E ->]]; [rewrite noq_q in E by assumption; discriminate|]. eexists. split; [now apply sev_chr_no|reflexivity].
    + destruct (chr_inv _ _ _ _ _ H) as [[E ->]|[E ->]].
      * pose proof E as E'. apply Ascii.eqb_eq in E'. subst q'. eexists. split; [apply sev_chr_ok; exact E|]. split; [reflexivity|]. right. exists t, i', j'. unfold routq. auto.
      * eexists. split; [apply sev_chr_no; exact E|reflexivity].
  - destruct (shaped_first _ _ V) as (c & i' & j' & -> & -> & S).
    destruct (chr_inv _ _ _ _ _ H) as [[E ->]|[E ->]]; [rewrite starter_q in E by assumption; discriminate|]. eexists. split; [now apply sev_chr_no|reflexivity].
Qed.
Lemma rchr_out q : sgood (rinq q) (routq q) (chr q).
Proof.
  intros acc i j o [-> |(b & i' & j' & B & -> & -> & R)] H; [eapply same; [apply routq_refl|exact H]|].
  destruct b as [|c b]; cbn [app] in *.
  - destruct (chr_inv _ _ _ _ _ H) as [[E ->]|[E ->]]; [|rewrite Ascii.eqb_refl in E; discriminate].
    eexists. split; [apply sev_chr_ok; exact E|]. now split.
  - destruct (chr_inv _ _ _ _ _ H) as [[E ->]|[E ->]]; [apply Ascii.eqb_eq in E; subst; destruct B; now left|].
    eexists. split; [apply sev_chr_no; exact E|reflexivity].
Qed.
Lemma rinq_cons q c b i j : ~ In q (c :: b) -> routq q i j -> rinq q (b ++ q :: i) (b ++ q :: j).
Proof. intros B K. right. exists b, i, j. refine (conj _ (conj eq_refl (conj eq_refl K))). intros I. apply B. now right. Qed.
Lemma rchr_inside q f : f q = false -> sgood (rinq q) (rinq q) (SChr f).
Proof.
  intros F acc i j o [-> |(b & i' & j' & B & -> & -> & R)] H; [eapply same; [apply rinq_refl|exact H]|].
  destruct b as [|c b]; cbn [app] in *; destruct (chr_inv _ _ _ _ _ H) as [[E ->]|[E ->]].
  - congruence.
  - eexists. split; [now apply sev_chr_no|reflexivity].
  - eexists. split; [now apply sev_chr_ok|]. split; [reflexivity|]. eapply rinq_cons; eauto.
  - eexists. split; [now apply sev_chr_no|reflexivity].
Qed.
Lemma rstrip_quote q i j : isq q -> rf i j -> strip_sim (rinq q) (strip false [q] i) (strip false [q] j).
Proof.
  intros Q K. destruct (rs_cases _ _ _ K) as [V|[_ V]].
  - destruct (rt_view _ _ V) as [t|c i' j' N M R|q' t i' j' Q' B M R]; cbn [strip eq_ch].
    + apply strip_refl, rinq_refl.
    + rewrite Ascii.eqb_sym, (noq_q q c Q N). exact I.
    + destruct (Ascii.eqb q q') eqn:E; [|exact I]. apply Ascii.eqb_eq in E. subst q'. split; [reflexivity|]. right. exists t, i', j'. unfold routq. auto.
  - destruct (shaped_first _ _ V) as (c & i' & j' & -> & -> & S). cbn [strip eq_ch]. rewrite Ascii.eqb_sym, (starter_q q c Q S). exact I.
Qed.
Lemma rstrip_unquote q nc i j : isq q -> rinq q i j -> strip_sim (routq q) (strip nc [q] i) (strip nc [q] j).
Proof.
  intros Q [-> |(b & i' & j' & B & -> & -> & R)]; [apply strip_refl, routq_refl|]. destruct b as [|c b]; cbn [app strip].
  - destruct (eq_ch nc q q); [|exact I]. now split.
  - destruct (eq_ch nc q c) eqn:E; [|exact I]. exfalso. apply B. left. destruct nc; cbn [eq_ch] in E; [|now apply Ascii.eqb_eq in E].
    assert (Hb : forallb (fun c => implb (eq_nc "'" c) (Ascii.eqb c "'") && implb (eq_nc dq c) (Ascii.eqb c dq)) all_bytes = true) by (vm_compute; reflexivity).
    rewrite forallb_forall in Hb. specialize (Hb c (all_bytes_in c)). apply andb_true_iff in Hb as [H1 H2].
    destruct Q as [-> | ->]; rewrite E in *; cbn [implb] in *; now apply Ascii.eqb_eq.
Qed.
Lemma rweaken q (o o' : option (text * text)) : strip_sim (routq q) o o' -> strip_sim rf o o'.
Proof. destruct o as [[? ?]|], o' as [[? ?]|]; cbn; auto. intros [? [? _]]. auto. Qed.
Lemma rpart_inside q : isq q -> sgood (rinq q) (rinq q) (SAlt (SChr (fun c => negb (Ascii.eqb c q))) (SStr false [q; q])).
Proof.
  intros Q. apply sg_alt; [apply rchr_inside; now rewrite Ascii.eqb_refl|]. apply sg_strip. intros i j K.
  apply (strip_seq (rinq q) rf (rinq q)); [|intros a b Kab; now apply rstrip_quote|exact K]. intros a b Kab. eapply rweaken, rstrip_unquote; eauto.
Qed.
Lemma rg_out q e : sgood rf (routq q) e -> rg0 e.
Proof. apply sg_weak; [auto|]. intros i j. apply routq_rf. Qed.
Lemma rg_delimited : rg0 s_delimited_identifier.
Proof.
  apply (rg_out dq). unfold s_delimited_identifier. change dquote with dq. eapply sg_seq; [apply rchr_in; now right|]. eapply sg_seq; [|apply rchr_out].
  apply sg_plus. unfold s_delimited_identifier_part. change dquote with dq. apply rpart_inside. now right.
Qed.
Lemma rg_identifier : rg0 s_identifier.
Proof. apply sg_alt; [apply rg_regular|apply rg_delimited]. Qed.
Lemma rg_tap m : rg0 (s_tap_upload m).
Proof. unfold s_tap_upload. eapply sg_exp; [apply rg_lit; vm_compute; reflexivity|]. apply sg_map, rg_identifier. Qed.
Lemma rg_table m : rg0 (s_table_name m).
Proof.
  unfold s_table_name. apply sg_alt; [apply rg_tap|]; apply sg_alt; [|apply sg_alt; [|apply rg_identifier]]; apply sg_hold;
    repeat (eapply sg_seq; [first [apply rg_identifier|apply rg_dot]|]); apply rg_identifier.
Qed.
Lemma rg_qstar m : rg0 (s_qualifier_star m).
Proof. eapply sg_seq; [apply rg_table|]. apply rg_str. vm_compute. reflexivity. Qed.
Lemma rg_unsigned : rg0 s_unsigned_integer. Proof. apply sg_plus, rg_digit. Qed.
Lemma rg_exact : rg0 s_exact_numeric.
Proof. apply sg_alt; [eapply sg_seq; [apply rg_unsigned|]; apply sg_opt|]; (eapply sg_seq; [apply rg_dot|apply rg_unsigned]). Qed.
Lemma rg_sign : rg0 s_sign. Proof. apply sg_alt; rbyte. Qed.
Lemma rg_numeric : rg0 s_unsigned_numeric.
Proof.
  apply sg_alt; [|apply rg_exact]. apply sg_hold. eapply sg_seq; [apply rg_exact|]. eapply sg_seq; [rbyte|]. eapply sg_seq; [apply sg_opt, rg_sign|apply rg_unsigned].
Qed.
Lemma rg_kw_soft w : okw false (L w) = true -> rg0 (kw_soft w).
Proof. intros P. eapply sg_seq; [now apply rg_lit|apply rg_sp]. Qed.
Lemma rg_kw_hard w : okw false (L w) = true -> rg0 (kw_hard w).
Proof. intros P. eapply sg_exp; [now apply rg_lit|apply rg_sp]. Qed.
Lemma rg_kws_hard w : okw false (L w) = true -> rg0 (kws_hard w).
Proof. intros P. eapply sg_exp; [now apply rg_str|apply rg_sp]. Qed.
Lemma rg_kws_soft ws : forallb (fun w => okw false (L w)) ws = true -> rg0 (kws_soft ws).
Proof. intros P. eapply sg_seq; [now apply rg_strs|apply rg_sp]. Qed.
Lemma rg_held ws a : forallb (fun w => okw false (L w)) ws = true -> rg0 a -> rg0 (SHold (SSeq (strs_nc ws) a)).
Proof. intros P A. apply sg_hold. eapply sg_seq; [now apply rg_strs|exact A]. Qed.

(** * Strings *)
Notation ro := (routq quote).
Lemma rg_comment : sgood ro ro s_comment.
Proof.
  intros acc i j o [K B] H. destruct (followed_dec "-" "-" i eq_refl eq_refl) as [F|F]; [rewrite <- (B eq_refl F); eapply same; [apply routq_refl|exact H]|].
  destruct (same_first _ _ _ K) as [-> |(c & i' & j' & -> & ->)]; [eapply same; [apply routq_refl|exact H]|]. apply sev_iff in H; [|reflexivity].
  destruct (Ascii.eqb_spec c "-") as [-> |N].
  - assert (R : rf i' j').
    { destruct (rs_cases _ _ _ K) as [V|[_ V]].
      - inversion V; subst; [constructor|assumption|]. match goal with X : _ \/ _ |- _ => destruct X; discriminate end.
      - destruct (shaped_first _ _ V) as (c & x & y & [= <- <-] & [= <-] & S). discriminate. }
    destruct (same_first _ _ _ R) as [-> |(d & i2 & j2 & -> & ->)]; [eapply same; [apply routq_refl|apply sev_iff; [reflexivity|exact H]]|].
    assert (N : Ascii.eqb d "-" = false).
    { apply Ascii.eqb_neq. intros ->. apply F. apply followed_iff; [reflexivity|reflexivity|]. exists (L "--"), i2. now split. }
    assert (E : forall t, srun s_comment acc ("-"%char :: d :: t) = SFail (acc ++ ["-"%char])) by (intros t; unfold s_comment, chr; cbn [srun]; rewrite Ascii.eqb_refl, N; reflexivity).
    rewrite E in H. subst o. eexists. split; [apply sev_iff; [reflexivity|apply E]|reflexivity].
  - apply Ascii.eqb_neq in N. assert (E : forall t, srun s_comment acc (c :: t) = SFail acc) by (intros t; unfold s_comment, chr; cbn [srun]; now rewrite N).
    rewrite E in H. subst o. eexists. split; [apply sev_iff; [reflexivity|apply E]|reflexivity].
Qed.
Lemma rg_blank c : is_space c = true -> starter c = false -> sgood ro ro (chr c).
Proof.
  intros C S acc i j o [K B] H. destruct (same_first _ _ _ K) as [-> |(d & i' & j' & -> & ->)]; [eapply same; [apply routq_refl|exact H]|].
  destruct (chr_inv _ _ _ _ _ H) as [[E ->]|[E ->]]; [|eexists; split; [now apply sev_chr_no|reflexivity]].
  eexists. split; [apply sev_chr_ok; exact E|]. cbv beta in E. apply Ascii.eqb_eq in E. subst d. split; [reflexivity|]. split.
  - destruct (rs_cases _ _ _ K) as [V|[_ V]].
    + inversion V; subst; [constructor|now apply rs_weak2 with (goes_on c)|]. match goal with X : _ \/ _ |- _ => destruct X; subst; discriminate end.
    + destruct (shaped_first _ _ V) as (d & x & y & [= <- <-] & [= <-] & X). congruence.
  - intros _ (u & r & -> & W & X). assert (G : c :: u ++ r = c :: j') by (apply B; [reflexivity|]; exists (c :: u), r; split; [reflexivity|]; split; [now constructor|exact X]). now injection G.
Qed.
Lemma rg_sep : sgood ro ro s_separator.
Proof. apply sg_alt; [apply rg_comment|]. apply sg_alt; now apply rg_blank. Qed.
Lemma rg_group : sgood ro ro sgroup.
Proof.
  unfold sgroup. apply sg_hold. eapply sg_seq; [apply sg_plus, rg_sep|]. eapply sg_seq; [|eapply sg_seq; [|apply rchr_out]].
  - apply (sg_wk rf ro (rinq quote) (rinq quote)); [intros i j; apply routq_rf|auto|]. apply rchr_in. now left.
  - apply sg_star, rpart_inside. now left.
Qed.
Lemma rg_string : rg0 s_character_string.
Proof.
  apply (rg_out quote). unfold s_character_string. fold sgroup. eapply sg_seq; [apply rchr_in; now left|]. eapply sg_seq; [apply sg_star, rpart_inside; now left|].
  eapply sg_seq; [apply rchr_out|apply sg_star, rg_group].
Qed.
Lemma rg_literal : rg0 s_unsigned_literal.
Proof. apply sg_alt; [apply rg_numeric|]. apply sg_alt; [apply rg_string|]. apply rg_strs. vm_compute. reflexivity. Qed.
Lemma rg_union : rg0 s_union.
Proof. apply rg_kws_soft. vm_compute. reflexivity. Qed.
Lemma rg_not : rg0 (SExp (SStr true (L "NOT")) (SChr is_space)).
Proof. eapply sg_exp; [apply rg_str; vm_compute; reflexivity|rbyte]. Qed.
