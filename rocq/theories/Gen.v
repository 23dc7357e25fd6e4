(** Derivations: [gen e t k v] says that text [t], followed by [k], can be read by [e] with
    value [v].  It ignores priorities, hence over-approximates the interpreter; it is the
    induction principle for properties of parsed values and the text they came from. *)
From Verif Require Import Peg PegProps.

Definition spaces (t : text) : Prop := forallb is_space t = true.

Lemma spaces_nil : spaces []. Proof. reflexivity. Qed.
Lemma spaces_app a b : spaces a -> spaces b -> spaces (a ++ b).
Proof. unfold spaces. rewrite forallb_app. intros -> ->; reflexivity. Qed.
Lemma skip_spaces i : exists sp, spaces sp /\ i = sp ++ skip i.
Proof. destruct (skip_split i) as (p & E & F). exists p; auto. Qed.
Global Hint Resolve spaces_nil spaces_app : core.

(** [m], followed by [k], is read by [e] with attribute [v]. *)
Definition lexeme (e : se) (m k v : text) : Prop := srun e [] (m ++ k) = SOk v k.

Section Gen.
Context {rule : Set} {attr : rule -> Set} (body : forall r, pe rule attr (attr r)).
Notation PE := (pe rule attr).
Variable Pr : forall r, text -> text -> attr r -> Prop.

Inductive star_of {A : Set} (P : text -> text -> A -> Prop) (k : text) : text -> list A -> Prop :=
| so_nil sp : spaces sp -> star_of P k sp []
| so_cons t v t' vs : P t (t' ++ k) v -> star_of P k t' vs -> star_of P k (t ++ t') (v :: vs).

Inductive tail_of {A : Set} (P : text -> text -> A -> Prop) (S : text -> text -> unit -> Prop) (k : text)
  : text -> list A -> Prop :=
| to_nil : tail_of P S k [] []
| to_cons s t v t' vs : S s (t ++ t' ++ k) tt -> P t (t' ++ k) v -> tail_of P S k t' vs ->
    tail_of P S k (s ++ t ++ t') (v :: vs).

Fixpoint gen {A : Set} (e : PE A) : text -> text -> A -> Prop :=
  match e in pe _ _ A return text -> text -> A -> Prop with
  | PLit nc s => fun t _ _ => exists sp m, t = sp ++ m /\ spaces sp /\ strip nc s m = Some (m, [])
  | PLex e => fun t k v => exists sp m, t = sp ++ m /\ spaces sp /\ lexeme e m k v
  | POptLex e => fun t k v =>
      (exists sp m, t = sp ++ m /\ spaces sp /\ lexeme e m k v) \/
      (spaces t /\ skip k = k /\ srun e [] k = SFail v)
  | PSpace => fun t k _ => t = [] /\ exists c k', k = c :: k' /\ is_space c = true
  | PDbl => fun t k v => exists sp, t = sp ++ v /\ spaces sp /\ dbl (v ++ k) = Some (v, k)
  | PTop => fun t k v => exists sp ds, t = sp ++ ds /\ spaces sp /\ ulong (ds ++ k) = Some (v, k)
  | PRet w => fun t _ v => t = [] /\ v = w
  | PSeq a b | PExp a b => fun t k v =>
      exists t1 t2, t = t1 ++ t2 /\ gen a t1 (t2 ++ k) (fst v) /\ gen b t2 k (snd v)
  | PAlt a b => fun t k v => gen a t k v \/ exists sp t', t = sp ++ t' /\ spaces sp /\ gen b t' k v
  | POpt a => fun t k v => match v with Some v => gen a t k v | None => spaces t end
  | PStar a => fun t k v => star_of (gen a) k t v
  | PPlus a => fun t k vs =>
      exists t1 t2 v vs', t = t1 ++ t2 /\ vs = v :: vs' /\ gen a t1 (t2 ++ k) v /\ star_of (gen a) k t2 vs'
  | PList a s => fun t k vs =>
      exists t1 t2 v vs', t = t1 ++ t2 /\ vs = v :: vs' /\ gen a t1 (t2 ++ k) v /\
                          tail_of (gen a) (gen s) k t2 vs'
  | PMap f a => fun t k v => exists x, gen a t k x /\ v = f x
  | PRule r => Pr r
  end.

Notation R := (run body).

(** An ordinary failure moves the iterator over white space only. *)
Lemma run_fail n : forall (A : Set) (e : PE A) i r, R n _ e i = Fail r -> exists sp, i = sp ++ r /\ spaces sp.
Proof.
  assert (Hs : forall i, exists sp, i = sp ++ skip i /\ spaces sp).
  { intros i. destruct (skip_spaces i) as (sp & H & E). eauto. }
  assert (Hr : forall i : text, exists sp, i = sp ++ i /\ spaces sp) by (intros; exists []; auto).
  induction n as [n IHn] using lt_wf_ind.
  intros A e; induction e as [nc s|e|e| | | |A w|A B a IHa b IHb|A B a IHa b IHb|A a IHa b IHb|A a IHa|A a IHa|A a IHa|A a IHa s IHs|A B f a IHa|q];
    intros i r.
  - rewrite run_Lit. destruct (strip nc s (skip i)) as [[m r']|]; [discriminate|]. intros H; injection H as <-. auto.
  - rewrite run_Lex. unfold lex. destruct (srun e [] (skip i)); try discriminate. intros H; injection H as <-. auto.
  - rewrite run_OptLex. destruct (srun e [] (skip i)); discriminate.
  - rewrite run_Space. destruct i as [|c i]; [|destruct (is_space c)]; try discriminate; intros H; injection H as <-; auto.
  - rewrite run_Dbl. destruct (dbl (skip i)) as [[m r']|]; [discriminate|]. intros H; injection H as <-. auto.
  - rewrite run_Top. destruct (ulong (skip i)) as [[m r']|].
    + destruct r' as [|c r']; [discriminate|]. destruct (is_space c); discriminate.
    + intros H; injection H as <-. auto.
  - rewrite run_Ret; discriminate.
  - rewrite run_Seq. destruct (R n _ a i) as [va i1|?|?|]; try discriminate; [destruct (R n _ b i1); try discriminate|];
      intros H; injection H as <-; auto.
  - rewrite run_Exp. destruct (R n _ a i) as [va i1|?|?|]; try discriminate; [destruct (R n _ b i1); try discriminate|];
      intros H; injection H as <-; auto.
  - rewrite run_Alt. destruct (R n _ a i) as [va i1|r1|?|] eqn:E; try discriminate. intros H.
    apply IHb in H as (sp & -> & Hb). apply IHa in E as (sp' & -> & Ha).
    exists (sp' ++ sp). rewrite app_assoc. auto.
  - rewrite run_Opt. destruct (R n _ a i); discriminate.
  - rewrite run_Star. intros H. exfalso. revert H. generalize (length i). intros k.
    revert i; induction k as [|k IH]; intros i; cbn; destruct (R n _ a i); try discriminate.
    specialize (IH rest). destruct (pstar _ _ _); congruence.
  - rewrite run_Plus. destruct (R n _ a i) as [va i1|?|?|]; try discriminate; [|intros H; injection H as <-; auto].
    intros H. exfalso. revert H. generalize (length i1). intros k.
    enough (forall i r, pstar (R n A a) k i <> Fail r) by (destruct (pstar _ _ i1) eqn:E; try discriminate; now apply H in E).
    clear. induction k as [|k IH]; intros i r; cbn; destruct (R n _ a i); try discriminate.
    specialize (IH rest). destruct (pstar _ _ _); congruence.
  - rewrite run_List. destruct (R n _ a i) as [va i1|?|?|]; try discriminate; [|intros H; injection H as <-; auto].
    intros H. exfalso. revert H. generalize (length i1). intros k.
    enough (forall i r, plist (R n A a) (R n _ s) k i <> Fail r) by (destruct (plist _ _ _ i1) eqn:E; try discriminate; now apply H in E).
    clear. induction k as [|k IH]; intros i r; cbn; destruct (R n _ s i); try discriminate; destruct (R n _ a rest); try discriminate.
    specialize (IH rest0). destruct (plist _ _ _ _); congruence.
  - rewrite run_Map. destruct (R n _ a i) eqn:E; try discriminate. intros H; injection H as <-. eauto.
  - destruct n as [|n]; [discriminate|]. rewrite run_Rule. intros H. eapply IHn; eauto.
Qed.

Hypothesis Hbody : forall r t k v, gen (body r) t k v -> Pr r t k v.

Lemma lex_gen e i v r : srun e [] (skip i) = SOk v r ->
  exists sp m, i = (sp ++ m) ++ r /\ spaces sp /\ lexeme e m r v.
Proof.
  intros H. destruct (skip_spaces i) as (sp & Hs & Ei).
  pose proof (srun_suffix _ _ _ _ _ H) as [m Em].
  exists sp, m. repeat split; auto.
  - rewrite Ei, Em. now rewrite app_assoc.
  - unfold lexeme. now rewrite <- Em.
Qed.

Lemma pstar_gen n (A : Set) (a : PE A) :
  (forall i v r, R n _ a i = Ok v r -> exists t, i = t ++ r /\ gen a t r v) ->
  forall k i v r, pstar (R n A a) k i = Ok v r -> exists t, i = t ++ r /\ star_of (gen a) r t v.
Proof.
  intros IHa. induction k as [|k IH]; intros i v r; cbn;
    destruct (R n _ a i) as [va i1|r1|?|] eqn:Ea; try discriminate.
  + intros H; injection H as <- <-. apply run_fail in Ea as (sp & -> & Hs). exists sp; split; auto. now constructor.
  + destruct (pstar (R n A a) k i1) eqn:Es; try discriminate. intros H; injection H as <- <-.
    apply IHa in Ea as (t & -> & G). apply IH in Es as (t' & -> & G').
    exists (t ++ t'). split; [now rewrite app_assoc|]. now constructor.
  + intros H; injection H as <- <-. apply run_fail in Ea as (sp & -> & Hs). exists sp; split; auto. now constructor.
Qed.

Lemma plist_gen n (A : Set) (a : PE A) s :
  (forall i v r, R n _ a i = Ok v r -> exists t, i = t ++ r /\ gen a t r v) ->
  (forall i v r, R n _ s i = Ok v r -> exists t, i = t ++ r /\ gen s t r v) ->
  forall k i v r, plist (R n A a) (R n _ s) k i = Ok v r ->
             exists t, i = t ++ r /\ tail_of (gen a) (gen s) r t v.
Proof.
  intros IHa IHs. induction k as [|k IH]; intros i v r; cbn;
    destruct (R n _ s i) as [[] i0|r0|?|] eqn:E0; try discriminate;
    try (intros H; injection H as <- <-; exists []; split; auto; constructor);
    destruct (R n _ a i0) as [va i1|r1|?|] eqn:Ea; try discriminate;
    try (intros H; injection H as <- <-; exists []; split; auto; constructor).
  destruct (plist (R n A a) (R n _ s) k i1) eqn:Es; try discriminate. intros H; injection H as <- <-.
  apply IHs in E0 as (t0 & -> & G0).
  apply IHa in Ea as (t & -> & G). apply IH in Es as (t' & -> & G').
  exists (t0 ++ t ++ t'). split; [now rewrite <- !app_assoc|]. constructor; auto.
Qed.

Lemma gen_sound n : forall (A : Set) (e : PE A) i v r,
  R n _ e i = Ok v r -> exists t, i = t ++ r /\ gen e t r v.
Proof.
  induction n as [n IHn] using lt_wf_ind.
  intros A e; induction e as [nc s|e|e| | | |A w|A B a IHa b IHb|A B a IHa b IHb|A a IHa b IHb|A a IHa|A a IHa|A a IHa|A a IHa s IHs|A B f a IHa|q];
    intros i v r; cbn [gen].
  - rewrite run_Lit. destruct (strip nc s (skip i)) as [[m r']|] eqn:E; [|discriminate].
    intros H; injection H as <- <-. destruct (skip_spaces i) as (sp & Hs & Ei).
    exists (sp ++ m). split.
    + rewrite Ei. apply strip_app in E. now rewrite E, app_assoc.
    + exists sp, m. repeat split; auto. clear -E. revert m E. generalize (skip i) as j. revert r'.
      induction s as [|c s IH]; intros r' j m; cbn; [intros H; injection H as <- <-; auto|].
      destruct j as [|d j]; [discriminate|]. destruct (eq_ch nc c d) eqn:Ec; [|discriminate].
      destruct (strip nc s j) as [[m' r2]|] eqn:E; [|discriminate]. intros H; injection H as <- <-.
      rewrite Ec. apply IH in E. now rewrite E.
  - rewrite run_Lex. unfold lex. destruct (srun e [] (skip i)) eqn:E; try discriminate.
    intros H; injection H as <- <-. apply lex_gen in E as (sp & m & Hi & Hs & Hl). eauto 8.
  - rewrite run_OptLex. destruct (srun e [] (skip i)) eqn:E; try discriminate; intros H; injection H as <- <-.
    + apply lex_gen in E as (sp & m & Hi & Hs & Hl). eauto 10.
    + destruct (skip_spaces i) as (sp & Hs & Ei). exists sp. split; auto. right; rewrite skip_skip; auto.
  - rewrite run_Space. destruct i as [|c i]; [|destruct (is_space c) eqn:Ec]; try discriminate.
    intros H; injection H as <- <-. exists []; split; auto. split; eauto.
  - rewrite run_Dbl. destruct (dbl (skip i)) as [[m r']|] eqn:E; [|discriminate].
    intros H; injection H as <- <-. destruct (skip_spaces i) as (sp & Hs & Ei).
    pose proof E as E'. apply dbl_app in E' as [E' _].
    exists (sp ++ m). split; [now rewrite Ei, E', app_assoc|]. exists sp. rewrite <- E'. auto.
  - rewrite run_Top. destruct (ulong (skip i)) as [[m r']|] eqn:E; [|discriminate].
    intros H. assert (v = m /\ r = r') as [-> ->].
    { destruct r' as [|c r']; [discriminate|]. destruct (is_space c); [|discriminate].
      injection H as <- <-; auto. }
    destruct (skip_spaces i) as (sp & Hs & Ei).
    pose proof E as E'. apply ulong_app in E' as (ds & E' & _).
    exists (sp ++ ds). split; [now rewrite Ei, E', app_assoc|]. exists sp, ds. rewrite <- E'. auto.
  - rewrite run_Ret. intros H; injection H as <- <-. exists []; auto.
  - rewrite run_Seq. destruct (R n _ a i) as [va i1|?|?|] eqn:Ea; try discriminate.
    destruct (R n _ b i1) as [vb i2|?|?|] eqn:Eb; try discriminate. intros H; injection H as <- <-.
    apply IHa in Ea as (t1 & -> & G1). apply IHb in Eb as (t2 & -> & G2).
    exists (t1 ++ t2). split; [now rewrite app_assoc|]. exists t1, t2; auto.
  - rewrite run_Exp. destruct (R n _ a i) as [va i1|?|?|] eqn:Ea; try discriminate.
    destruct (R n _ b i1) as [vb i2|?|?|] eqn:Eb; try discriminate. intros H; injection H as <- <-.
    apply IHa in Ea as (t1 & -> & G1). apply IHb in Eb as (t2 & -> & G2).
    exists (t1 ++ t2). split; [now rewrite app_assoc|]. exists t1, t2; auto.
  - rewrite run_Alt. destruct (R n _ a i) as [va i1|r1|?|] eqn:Ea; try discriminate.
    + intros H; injection H as <- <-. apply IHa in Ea as (t & -> & G). eauto.
    + intros Hb. apply run_fail in Ea as (sp & -> & Hs). apply IHb in Hb as (t & -> & G).
      exists (sp ++ t). split; [now rewrite app_assoc|]. right; eauto.
  - rewrite run_Opt. destruct (R n _ a i) as [va i1|r1|?|] eqn:Ea; try discriminate; intros H; injection H as <- <-; auto.
    apply run_fail in Ea as (sp & -> & Hs). eauto.
  - rewrite run_Star. apply pstar_gen; auto.
  - rewrite run_Plus. destruct (R n _ a i) as [va i1|r1|?|] eqn:Ea; try discriminate.
    apply IHa in Ea as (t1 & -> & G1).
    destruct (pstar _ _ i1) as [vs r1| | |] eqn:Es; try discriminate. intros H; injection H as <- <-.
    apply pstar_gen in Es as (t2 & -> & G2); auto.
    exists (t1 ++ t2). split; [now rewrite app_assoc|]. exists t1, t2, va, vs; auto.
  - rewrite run_List. destruct (R n _ a i) as [va i1|r1|?|] eqn:Ea; try discriminate.
    apply IHa in Ea as (t1 & -> & G1).
    destruct (plist _ _ _ i1) as [vs r1| | |] eqn:Es; try discriminate. intros H; injection H as <- <-.
    apply plist_gen in Es as (t2 & -> & G2); auto.
    exists (t1 ++ t2). split; [now rewrite app_assoc|]. exists t1, t2, va, vs; auto.
  - rewrite run_Map. destruct (R n _ a i) as [va i1|?|?|] eqn:Ea; try discriminate. intros H; injection H as <- <-.
    apply IHa in Ea as (t & -> & G). eauto.
  - destruct n as [|n]; [discriminate|]. rewrite run_Rule. intros H. apply IHn in H as (t & -> & G); auto.
    exists t; auto.
Qed.

End Gen.
