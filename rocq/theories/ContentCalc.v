(** A calculus for C14: what tokens an expression consumes. *)
From Verif Require Import Query PegProps Gen Spec TextLemmas SpecLexical LexProofs LexProofs2 First SpecContent.

Lemma spaces_white sp : spaces sp <-> white sp.
Proof. unfold spaces, white. rewrite forallb_forall, Forall_forall. reflexivity. Qed.
Lemma white_app a b : white a -> white b -> white (a ++ b).
Proof. apply Forall_app_2 || (intros; apply Forall_app; auto). Qed.

Lemma lexes_prefix tok gl k w t l : white w -> lexes tok gl k t l -> lexes tok gl k (w ++ t) l.
Proof.
  intros W H. destruct H as [w'|w' x t l W' X S H]; [constructor; apply Forall_app; auto|].
  rewrite app_assoc. constructor; auto. apply Forall_app; auto.
Qed.
Lemma lexes_app tok gl k t1 t2 l1 l2 : lexes tok gl (t2 ++ k) t1 l1 -> lexes tok gl k t2 l2 -> lexes tok gl k (t1 ++ t2) (l1 ++ l2).
Proof.
  intros H1 H2. induction H1 as [w W|w x t l W X S H IH]; [now apply lexes_prefix|].
  rewrite <- !app_assoc. cbn [app]. constructor; auto. now rewrite <- app_assoc.
Qed.
Lemma lexes_one (tok gl : text -> Prop) k x : tok x -> gl x \/ (ends_word x -> stops word_char k) -> lexes tok gl k x [x].
Proof.
  intros X S. replace x with ([] ++ x ++ []) at 1 by now rewrite app_nil_r. constructor; auto; constructor. constructor.
Qed.
Lemma lexes_nil tok gl k : lexes tok gl k [] [].
Proof. constructor. constructor. Qed.

(** ** The input *)
Definition LI (k t : text) (l : list text) : Prop := lexes input_token input_glues k t l.
Definition dotless (k : text) : Prop := stops (fun c => c = "."%char) k.
Lemma dotless_sp sp t : spaces sp -> dotless t -> dotless (sp ++ t).
Proof.
  intros S D. destruct sp as [|c sp]; [exact D|]. unfold dotless. cbn. intros ->. unfold spaces in S. cbn in S. discriminate.
Qed.
Lemma tight_suffix a t : tight_not t -> tight_not (a ++ t).
Proof. intros (x & n & b & -> & U & S). exists (a ++ x), n, b. rewrite <- app_assoc. auto. Qed.

Lemma strip_exact s x : strip false s x = Some (x, []) -> x = s.
Proof. intros H. apply strip_cs_iff in H as [-> E]. now rewrite app_nil_r in E. Qed.
Lemma mark_token x : In x (map L marks) -> input_token x.
Proof. intros H. left. do 5 right. exact H. Qed.
Lemma mark_end x : In x (map L marks) -> ~ ends_word x.
Proof.
  intros H (a & c & -> & W). unfold marks in H. apply in_map_iff in H as (s & E & Hs).
  assert (X : last (a ++ [c]) " "%char = c) by apply last_last. rewrite <- E in X.
  cbn in Hs. repeat (destruct Hs as [<-|Hs]; [cbn in X; subst c; apply is_idchar_iff in W; discriminate W|]). destruct Hs.
Qed.

Section Calc.
Variable m : text -> option text.
Variable fmt : text -> text.
Variable stray : Prop.
Variable Nr : forall r, attr r -> list text -> Prop.
Definition easy (t k : text) : Prop := tight_not (t ++ k) -> stray.
Definition Pr (r : rule) (t k : text) (v : attr r) : Prop :=
  dotless k -> easy t k -> exists l, LI k t l /\ Nr r v l.
Notation G := (gen Pr).

Definition cont {A : Set} (e : PE A) (P : A -> list text -> Prop) : Prop :=
  forall t k v, G e t k v -> dotless k -> easy t k -> exists l, LI k t l /\ P v l.
Definition cont0 {A : Set} (e : PE A) (P : A -> list text -> Prop) : Prop :=
  forall t k v, G e t k v -> easy t k -> exists l, LI k t l /\ P v l.

Lemma easy_r t1 t2 k : easy (t1 ++ t2) k -> easy t2 k.
Proof. unfold easy. intros H T. apply H. rewrite <- app_assoc. now apply tight_suffix. Qed.
Lemma easy_l t1 t2 k : easy (t1 ++ t2) k -> easy t1 (t2 ++ k).
Proof. unfold easy. now rewrite app_assoc. Qed.

Lemma cont_of {A : Set} (e : PE A) P : cont0 e P -> cont e P.
Proof. intros H t k v Hg _. now apply H. Qed.
Lemma c_weak {A : Set} (e : PE A) (P Q : A -> list text -> Prop) : cont e P -> (forall v l, P v l -> Q v l) -> cont e Q.
Proof. intros H W t k v Hg D E. destruct (H t k v Hg D E) as (l & Hl & Hp). eauto. Qed.
Lemma c0_weak {A : Set} (e : PE A) (P Q : A -> list text -> Prop) : cont0 e P -> (forall v l, P v l -> Q v l) -> cont0 e Q.
Proof. intros H W t k v Hg E. destruct (H t k v Hg E) as (l & Hl & Hp). eauto. Qed.

(** *** Heads *)
(** Does not start with a point. *)
Definition fails_dot (c : cls) : bool := match c with C_fail => true | _ => false end.
Fixpoint pn {A : Set} (e : PE A) : bool :=
  match e with
  | PLit _ s => negb (is_nil s) | PLex e => negb (snull e)
  | PMap _ a => pn a | PSeq a b | PExp a b => pn a || pn b | PAlt a b => pn a && pn b | PPlus a | PList a _ => pn a
  | _ => false
  end.
Fixpoint nd {A : Set} (e : PE A) : bool :=
  match e with
  | PLit nc s => fails_dot (starts nc s (Some "."%char))
  | PLex e => fails_dot (sclass e (Some "."%char))
  | POptLex e => fails_dot (sclass e (Some "."%char))
  | PSpace => true
  | PDbl | PTop | PRule _ => false
  | PRet _ => true
  | PSeq a b | PExp a b => nd a && (pn a || nd b)
  | PAlt a b => nd a && nd b
  | POpt a | PStar a | PMap _ a => nd a
  | PPlus a | PList a _ => nd a && pn a
  end.
Lemma dotless_app t k : t <> [] -> dotless t -> dotless (t ++ k).
Proof. destruct t; [congruence|auto]. Qed.
Lemma dotless_app2 t k : dotless t -> dotless k -> dotless (t ++ k).
Proof. destruct t; auto. Qed.
Lemma lexeme_head e x k v : fails_dot (sclass e (Some "."%char)) = true -> lexeme e x k v -> dotless x.
Proof.
  unfold lexeme. intros F H. destruct x as [|c x]; [exact I|]. cbn. intros ->.
  pose proof (sclass_ok e [] ("."%char :: x ++ k)) as S. cbn [hd_of] in S. destruct (sclass e (Some "."%char)); try discriminate.
  destruct S as (a & S). cbn [app] in H. apply PegEquiv.sev_srun in S as [S _]. rewrite H in S. destruct S; discriminate.
Qed.
Lemma lexeme_nonnil e x k v : negb (snull e) = true -> lexeme e x k v -> x <> [].
Proof.
  intros N H ->. apply negb_true_iff in N. unfold lexeme in H. cbn in H.
  pose proof (srun_consumes e [] k v k N H) as C. lia.
Qed.

Lemma gen_pn {A : Set} (e : PE A) t k v : G e t k v -> pn e = true -> t <> [].
Proof.
  revert t k. induction e as [nc s|e|e| | | |A w|A B a IHa b IHb|A B a IHa b IHb|A a IHa b IHb|A a IHa|A a IHa|A a IHa|A a IHa s IHs|A B f a IHa|q];
    cbn [gen pn]; intros t k; try discriminate.
  - intros (sp & x & -> & _ & S) N E. apply app_eq_nil in E as [-> ->]. destruct s; discriminate.
  - intros (sp & x & -> & _ & S) N E. apply app_eq_nil in E as [-> ->]. now apply lexeme_nonnil in S.
  - intros (t1 & t2 & -> & Ha & Hb) N E. apply app_eq_nil in E as [-> ->]. apply orb_true_iff in N as [N|N]; [now apply IHa in Ha|now apply IHb in Hb].
  - intros (t1 & t2 & -> & Ha & Hb) N E. apply app_eq_nil in E as [-> ->]. apply orb_true_iff in N as [N|N]; [now apply IHa in Ha|now apply IHb in Hb].
  - intros H N. apply andb_true_iff in N as [Na Nb]. destruct H as [H|(sp & t' & -> & _ & H)]; [now apply IHa in H|].
    intros E. apply app_eq_nil in E as [-> ->]. now apply IHb in H.
  - intros (t1 & t2 & v0 & vs & -> & -> & H & _) N E. apply app_eq_nil in E as [-> ->]. now apply IHa in H.
  - intros (t1 & t2 & v0 & vs & -> & -> & H & _) N E. apply app_eq_nil in E as [-> ->]. now apply IHa in H.
  - intros (x & H & ->) N. now apply IHa in H.
Qed.
Lemma dotless_spaces sp : spaces sp -> dotless sp.
Proof. intros S. rewrite <- (app_nil_r sp). now apply dotless_sp. Qed.
Lemma star_nd {A : Set} (P : text -> text -> A -> Prop) k t vs :
  (forall t k v, P t k v -> dotless t) -> star_of P k t vs -> dotless t.
Proof. intros H. induction 1; [now apply dotless_spaces|]. apply dotless_app2; eauto. Qed.
Lemma gen_nd {A : Set} (e : PE A) t k v : G e t k v -> nd e = true -> dotless t.
Proof.
  revert t k. induction e as [nc s|e|e| | | |A w|A B a IHa b IHb|A B a IHa b IHb|A a IHa b IHb|A a IHa|A a IHa|A a IHa|A a IHa s IHs|A B f a IHa|q];
    cbn [gen nd]; intros t k; try discriminate.
  - intros (sp & x & -> & W & S) N. apply dotless_sp; auto. destruct x as [|c x]; [exact I|]. cbn. intros ->.
    pose proof (starts_ok nc s ("."%char :: x)) as T. cbn [hd_of] in T. destruct (starts _ _ _); try discriminate. congruence.
  - intros (sp & x & -> & W & S) N. apply dotless_sp; auto. eapply lexeme_head; eauto.
  - intros [(sp & x & -> & W & S)|(W & _)] N; [|now apply dotless_spaces]. apply dotless_sp; auto. eapply lexeme_head; eauto.
  - intros (-> & _) _. exact I.
  - intros (-> & _) _. exact I.
  - intros (t1 & t2 & -> & Ha & Hb) N. apply andb_true_iff in N as [Na N]. apply orb_true_iff in N as [N|N].
    + apply dotless_app; [eapply gen_pn; eauto|eapply IHa; eauto].
    + apply dotless_app2; [eapply IHa; eauto|eapply IHb; eauto].
  - intros (t1 & t2 & -> & Ha & Hb) N. apply andb_true_iff in N as [Na N]. apply orb_true_iff in N as [N|N].
    + apply dotless_app; [eapply gen_pn; eauto|eapply IHa; eauto].
    + apply dotless_app2; [eapply IHa; eauto|eapply IHb; eauto].
  - intros H N. apply andb_true_iff in N as [Na Nb]. destruct H as [H|(sp & t' & -> & W & H)]; [eapply IHa; eauto|].
    apply dotless_sp; auto. eapply IHb; eauto.
  - intros H N. destruct v as [v|]; [eapply IHa; eauto|]. now apply dotless_spaces.
  - intros H N. eapply star_nd; eauto.
  - intros (t1 & t2 & v0 & vs & -> & -> & H & _) N. apply andb_true_iff in N as [Na N].
    apply dotless_app; [eapply gen_pn; eauto|eapply IHa; eauto].
  - intros (t1 & t2 & v0 & vs & -> & -> & H & _) N. apply andb_true_iff in N as [Na N].
    apply dotless_app; [eapply gen_pn; eauto|eapply IHa; eauto].
  - intros (x & H & ->) N. eapply IHa; eauto.
Qed.
(** [b] may follow anything. *)
Lemma gen_after {A : Set} (b : PE A) t k v : nd b = true -> G b t k v -> dotless k -> dotless (t ++ k).
Proof. intros N H D. apply dotless_app2; auto. eapply gen_nd; eauto. Qed.
Lemma gen_after0 {A : Set} (b : PE A) t k v : nd b && pn b = true -> G b t k v -> dotless (t ++ k).
Proof. intros N H. apply andb_true_iff in N as [N M]. apply dotless_app; [eapply gen_pn|eapply gen_nd]; eauto. Qed.

(** *** Composition *)
Definition both {A B : Type} (P : A -> list text -> Prop) (Q : B -> list text -> Prop) (v : A * B) (l : list text) : Prop :=
  exists l1 l2, l = l1 ++ l2 /\ P (fst v) l1 /\ Q (snd v) l2.
Definition many {A : Type} (P : A -> list text -> Prop) (vs : list A) (l : list text) : Prop :=
  exists ls, Forall2 P vs ls /\ l = concat ls.
Inductive commas {A : Type} (P : A -> list text -> Prop) : list A -> list text -> Prop :=
| commas_one v l : P v l -> commas P [v] l
| commas_more v l vs l' : P v l -> commas P vs l' -> commas P (v :: vs) (l ++ L "," :: l').
Definition optly {A : Type} (P : A -> list text -> Prop) (v : option A) (l : list text) : Prop :=
  match v with Some v => P v l | None => l = [] end.

Lemma both_step {A B : Set} t1 t2 k (v : A) (w : B) (P : A -> list text -> Prop) (Q : B -> list text -> Prop) l1 l2 :
  LI (t2 ++ k) t1 l1 -> P v l1 -> LI k t2 l2 -> Q w l2 -> exists l, LI k (t1 ++ t2) l /\ both P Q (v, w) l.
Proof. intros. exists (l1 ++ l2). split; [now apply lexes_app|]. exists l1, l2. auto. Qed.
(* the first part, whatever follows *)
Lemma c_seq {A B : Set} (a : PE A) (b : PE B) P Q : cont0 a P -> cont b Q -> cont (PSeq a b) (both P Q).
Proof.
  intros Ha Hb t k [v w] (t1 & t2 & -> & Ga & Gb) D E. cbn [fst snd] in *.
  destruct (Ha _ _ _ Ga (easy_l _ _ _ E)) as (l1 & L1 & P1). destruct (Hb _ _ _ Gb D (easy_r _ _ _ E)) as (l2 & L2 & P2).
  eapply both_step; eauto.
Qed.
Lemma c0_seq {A B : Set} (a : PE A) (b : PE B) P Q : cont0 a P -> cont0 b Q -> cont0 (PSeq a b) (both P Q).
Proof.
  intros Ha Hb t k [v w] (t1 & t2 & -> & Ga & Gb) E. cbn [fst snd] in *.
  destruct (Ha _ _ _ Ga (easy_l _ _ _ E)) as (l1 & L1 & P1). destruct (Hb _ _ _ Gb (easy_r _ _ _ E)) as (l2 & L2 & P2).
  eapply both_step; eauto.
Qed.
(* the second part does not start with a point *)
Lemma c_seqn {A B : Set} (a : PE A) (b : PE B) P Q : nd b = true -> cont a P -> cont b Q -> cont (PSeq a b) (both P Q).
Proof.
  intros N Ha Hb t k [v w] (t1 & t2 & -> & Ga & Gb) D E. cbn [fst snd] in *.
  destruct (Ha _ _ _ Ga (gen_after _ _ _ _ N Gb D) (easy_l _ _ _ E)) as (l1 & L1 & P1).
  destruct (Hb _ _ _ Gb D (easy_r _ _ _ E)) as (l2 & L2 & P2). eapply both_step; eauto.
Qed.
Lemma c0_seqn {A B : Set} (a : PE A) (b : PE B) P Q : nd b && pn b = true -> cont a P -> cont0 b Q -> cont0 (PSeq a b) (both P Q).
Proof.
  intros N Ha Hb t k [v w] (t1 & t2 & -> & Ga & Gb) E. cbn [fst snd] in *.
  destruct (Ha _ _ _ Ga (gen_after0 _ _ _ _ N Gb) (easy_l _ _ _ E)) as (l1 & L1 & P1).
  destruct (Hb _ _ _ Gb (easy_r _ _ _ E)) as (l2 & L2 & P2). eapply both_step; eauto.
Qed.
Lemma cont_exp {A B : Set} (a : PE A) (b : PE B) P : cont (PSeq a b) P -> cont (PExp a b) P.
Proof. auto. Qed.
Lemma cont0_exp {A B : Set} (a : PE A) (b : PE B) P : cont0 (PSeq a b) P -> cont0 (PExp a b) P.
Proof. auto. Qed.
Lemma easy_sp sp t k : easy (sp ++ t) k -> easy t k. Proof. apply easy_r. Qed.
Lemma c_alt {A : Set} (a b : PE A) P : cont a P -> cont b P -> cont (PAlt a b) P.
Proof.
  intros Ha Hb t k v [H|(sp & t' & -> & W & H)] D E; [now apply Ha|].
  destruct (Hb _ _ _ H D (easy_r _ _ _ E)) as (l & Hl & Hp). exists l. split; auto. apply lexes_prefix; auto. now apply spaces_white.
Qed.
Lemma c0_alt {A : Set} (a b : PE A) P : cont0 a P -> cont0 b P -> cont0 (PAlt a b) P.
Proof.
  intros Ha Hb t k v [H|(sp & t' & -> & W & H)] E; [now apply Ha|].
  destruct (Hb _ _ _ H (easy_r _ _ _ E)) as (l & Hl & Hp). exists l. split; auto. apply lexes_prefix; auto. now apply spaces_white.
Qed.
Lemma LI_sp k sp : spaces sp -> LI k sp [].
Proof. intros W. constructor. now apply spaces_white. Qed.
Lemma c_opt {A : Set} (a : PE A) P : cont a P -> cont (POpt a) (optly P).
Proof. intros H t k [v|] Hg D E; cbn [gen optly] in *; [now apply H|]. exists []. split; auto. now apply LI_sp. Qed.
Lemma c0_opt {A : Set} (a : PE A) P : cont0 a P -> cont0 (POpt a) (optly P).
Proof. intros H t k [v|] Hg E; cbn [gen optly] in *; [now apply H|]. exists []. split; auto. now apply LI_sp. Qed.
Lemma c_map {A B : Set} (f : A -> B) (a : PE A) (P : A -> list text -> Prop) (Q : B -> list text -> Prop) :
  cont a P -> (forall v l, P v l -> Q (f v) l) -> cont (PMap f a) Q.
Proof. intros H W t k v (x & Hg & ->) D E. destruct (H _ _ _ Hg D E) as (l & Hl & Hp). eauto. Qed.
Lemma c0_map {A B : Set} (f : A -> B) (a : PE A) (P : A -> list text -> Prop) (Q : B -> list text -> Prop) :
  cont0 a P -> (forall v l, P v l -> Q (f v) l) -> cont0 (PMap f a) Q.
Proof. intros H W t k v (x & Hg & ->) E. destruct (H _ _ _ Hg E) as (l & Hl & Hp). eauto. Qed.
Lemma c_rule r : cont (PRule r) (Nr r).
Proof. intros t k v H D E. now apply H. Qed.
Lemma c0_ret {A : Set} (w : A) : cont0 (PRet w) (fun v l => v = w /\ l = []).
Proof. intros t k v (-> & ->) E. exists []. split; auto. apply lexes_nil. Qed.
Lemma c0_space : cont0 PSpace (fun _ l => l = []).
Proof. intros t k v (-> & _) E. exists []. split; auto. apply lexes_nil. Qed.

Lemma star_cont {A : Set} (a : PE A) P k t vs : nd a = true -> cont a P ->
  star_of (G a) k t vs -> dotless k -> easy t k -> dotless (t ++ k) /\ exists l, LI k t l /\ many P vs l.
Proof.
  intros N Ha H D. induction H as [sp W|t v t' vs Hv Hs IH]; intros E.
  - split; [now apply dotless_sp|]. exists []. split; [now apply LI_sp|]. exists []. split; [constructor|reflexivity].
  - destruct (IH (easy_r _ _ _ E)) as (D' & l' & L' & ls & Ml & ->).
    destruct (Ha _ _ _ Hv D' (easy_l _ _ _ E)) as (l & Ll & Pl). split; [rewrite <- app_assoc; eapply gen_after; eauto|].
    exists (l ++ concat ls). split; [now apply lexes_app|]. exists (l :: ls). split; [now constructor|reflexivity].
Qed.
Lemma c_star {A : Set} (a : PE A) P : nd a = true -> cont a P -> cont (PStar a) (many P).
Proof. intros N Ha t k vs H D E. eapply star_cont; eauto. Qed.
Definition some_many {A : Type} (P : A -> list text -> Prop) (vs : list A) (l : list text) : Prop := vs <> [] /\ many P vs l.
Lemma c_plus {A : Set} (a : PE A) P : nd a = true -> cont a P -> cont (PPlus a) (some_many P).
Proof.
  intros N Ha t k vs (t1 & t2 & v & vs' & -> & -> & Hv & Hs) D E.
  destruct (star_cont a P k t2 vs' N Ha Hs D (easy_r _ _ _ E)) as (D' & l' & L' & ls & Ml & ->).
  destruct (Ha _ _ _ Hv D' (easy_l _ _ _ E)) as (l & Ll & Pl).
  exists (l ++ concat ls). split; [now apply lexes_app|]. split; [discriminate|]. exists (l :: ls). split; [now constructor|reflexivity].
Qed.
Lemma c0_lit s : In (L s) (map L marks) -> cont0 (lit s) (fun _ l => l = [L s]).
Proof.
  intros H t k v (sp & x & -> & W & S) _. apply strip_exact in S as ->. exists [L s]. split; [|reflexivity].
  apply lexes_prefix; [now apply spaces_white|]. apply lexes_one; [now apply mark_token|]. right. intros X. now apply mark_end in X.
Qed.
Lemma tail_cont {A : Set} (a : PE A) P k t vs : cont a P ->
  tail_of (G a) (G (lit ",")) k t vs -> dotless k -> easy t k ->
  dotless (t ++ k) /\ exists l, LI k t l /\ (vs = [] /\ l = [] \/ exists l', l = L "," :: l' /\ commas P vs l').
Proof.
  intros Ha H D. induction H as [|s t v t' vs Hs Hv Ht IH]; intros E.
  - split; auto. exists []. split; [apply lexes_nil|auto].
  - destruct (IH (easy_r _ _ _ (easy_r _ _ _ E))) as (D' & l' & L' & M).
    destruct (Ha _ _ _ Hv D' (easy_l _ _ _ (easy_r _ _ _ E))) as (l & Ll & Pl).
    destruct (c0_lit "," (or_intror (or_introl eq_refl)) s (t ++ t' ++ k) tt Hs) as (ls & Ls & ->).
    { apply easy_l in E. now rewrite <- app_assoc in E. }
    split; [rewrite <- !app_assoc; exact (gen_after0 (lit ",") s (t ++ t' ++ k) tt eq_refl Hs)|].
    exists ([L ","] ++ l ++ l'). split; [apply lexes_app; [rewrite <- app_assoc; exact Ls|now apply lexes_app]|].
    right. exists (l ++ l'). split; auto. destruct M as [[-> ->]|(l2 & -> & M)]; [rewrite app_nil_r; now constructor|now constructor].
Qed.
Lemma c_list {A : Set} (a : PE A) P : cont a P -> cont (PList a (lit ",")) (commas P).
Proof.
  intros Ha t k vs (t1 & t2 & v & vs' & -> & -> & Hv & Hs) D E.
  destruct (tail_cont a P k t2 vs' Ha Hs D (easy_r _ _ _ E)) as (D' & l' & L' & M).
  destruct (Ha _ _ _ Hv D' (easy_l _ _ _ E)) as (l & Ll & Pl).
  exists (l ++ l'). split; [now apply lexes_app|]. destruct M as [[-> ->]|(l2 & -> & M)]; [rewrite app_nil_r; now constructor|now constructor].
Qed.
End Calc.
