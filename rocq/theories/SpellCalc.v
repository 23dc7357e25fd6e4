(** From derivations to spellings: a calculus. *)
From Verif Require Import Query PegProps Gen Spec TextLemmas SpecLexical LexProofs LexProofs2 LexDec First Operand TopProofs SpecContent SpecNodes
  ContentCalc ContentLeaves ContentTokens ContentNames ContentShapes SpecSpelling.

Lemma writes_lead mp w k t its : white w -> writes mp k t its -> writes mp k (w ++ t) its.
Proof.
  intros W H. destruct H as [k w'|k w' x t P its W' Px H|k w' x t p its W' Px H].
  - constructor. apply white_app; auto.
  - rewrite app_assoc. constructor; auto. apply white_app; auto.
  - rewrite app_assoc. constructor; auto. apply white_app; auto.
Qed.
Lemma writes_app mp k a b t u : writes mp (u ++ k) t a -> writes mp k u b -> writes mp k (t ++ u) (a ++ b).
Proof.
  intros H. remember (u ++ k) as k' eqn:E. revert E. induction a as [|i a IH] in t, k', H |- *; intros -> Hb; cbn [app].
  - inversion H; subst. now apply writes_lead.
  - inversion H; subst; rewrite <- !app_assoc; cbn [app]; constructor; auto; try (rewrite <- app_assoc; auto); eapply IH; eauto.
Qed.
Lemma spells_lead mp w k t p : white w -> spells mp k t p -> spells mp k (w ++ t) p.
Proof. intros W H. destruct H as [k t p its Hp Hw]. econstructor; eauto. now apply writes_lead. Qed.
Lemma writes_one mp k t p : spells mp k t p -> writes mp k t [Pt p].
Proof. intros H. replace t with ([] ++ t ++ []) by (cbn; apply app_nil_r). constructor; [constructor|exact H|]. constructor. constructor. Qed.
Lemma writes_one_t mp k t (P : terminal) : P k t -> writes mp k t [T P].
Proof. intros H. replace t with ([] ++ t ++ []) by (cbn; apply app_nil_r). constructor; [constructor|exact H|]. constructor. constructor. Qed.

Definition part_of (r : rule) : attr r -> part :=
  match r return attr r -> part with
  | R_ve => fun v => X (N_ve v)
  | R_venb => fun v => X (N_venb v)
  | R_sc => fun v => X (N_sc v)
  | R_subq => fun v => X (N_subq v)
  | R_jt => fun v => X (N_jt v)
  | R_tref => fun v => X (N_tref v)
  end.

Section Calc.
Variable m : text -> option text.
Definition SPr (r : rule) (t k : text) (v : attr r) : Prop := spells m k t (part_of r v).
Notation G := (gen SPr).

(** What [e] reads is written as some items for which [I] holds. *)
Definition its {A : Set} (e : PE A) (I : A -> list item -> Prop) : Prop :=
  forall t k v, G e t k v -> exists l, I v l /\ writes m k t l.
(** What [e] reads is a part. *)
Definition nt {A : Set} (e : PE A) (f : A -> part) : Prop := forall t k v, G e t k v -> spells m k t (f v).

Lemma i_nt {A : Set} (e : PE A) f : nt e f -> its e (fun v l => l = [Pt (f v)]).
Proof. intros H t k v Hg. exists [Pt (f v)]. split; auto. apply writes_one; auto. Qed.
Lemma nt_i {A : Set} (e : PE A) f I : its e I -> (forall v l, I v l -> production m (f v) l) -> nt e f.
Proof. intros H W t k v Hg. destruct (H _ _ _ Hg) as (l & Hl & Hw). econstructor; eauto. Qed.
Lemma i_weak {A : Set} (e : PE A) (I J : A -> list item -> Prop) : its e I -> (forall v l, I v l -> J v l) -> its e J.
Proof. intros H W t k v Hg. destruct (H _ _ _ Hg) as (l & Hl & Hw). eauto. Qed.
Definition both {A B : Set} (I : A -> list item -> Prop) (J : B -> list item -> Prop) (v : A * B) (l : list item) : Prop :=
  exists l1 l2, l = l1 ++ l2 /\ I (fst v) l1 /\ J (snd v) l2.
Lemma i_seq {A B : Set} (a : PE A) (b : PE B) I J : its a I -> its b J -> its (PSeq a b) (both I J).
Proof.
  intros Ha Hb t k v (t1 & t2 & -> & H1 & H2). destruct (Ha _ _ _ H1) as (l1 & I1 & W1). destruct (Hb _ _ _ H2) as (l2 & I2 & W2).
  exists (l1 ++ l2). split; [exists l1, l2; auto|]. apply writes_app; auto.
Qed.
Lemma i_exp {A B : Set} (a : PE A) (b : PE B) I J : its a I -> its b J -> its (PExp a b) (both I J).
Proof. exact (i_seq a b I J). Qed.
Lemma i_alt {A : Set} (a b : PE A) I J : its a I -> its b J -> its (PAlt a b) (fun v l => I v l \/ J v l).
Proof.
  intros Ha Hb t k v [H|(sp & t' & -> & S & H)].
  - destruct (Ha _ _ _ H) as (l & Hl & W). eauto.
  - destruct (Hb _ _ _ H) as (l & Hl & W). exists l. split; auto. apply writes_lead; auto. now apply spaces_white.
Qed.
Lemma nt_alt {A : Set} (a b : PE A) f : nt a f -> nt b f -> nt (PAlt a b) f.
Proof.
  intros Ha Hb t k v [H|(sp & t' & -> & S & H)]; [now apply Ha|]. apply spells_lead; [now apply spaces_white|now apply Hb].
Qed.
Lemma i_map {A B : Set} (f : A -> B) (a : PE A) I : its a I -> its (PMap f a) (fun w l => exists v, w = f v /\ I v l).
Proof. intros Ha t k v (x & H & ->). destruct (Ha _ _ _ H) as (l & Hl & W). eauto 6. Qed.
Definition optly {A : Set} (I : A -> list item -> Prop) (o : option A) (l : list item) : Prop :=
  match o with Some v => I v l | None => l = [] end.
Lemma i_opt {A : Set} (a : PE A) I : its a I -> its (POpt a) (optly I).
Proof.
  intros Ha t k [v|]; cbn [gen optly].
  - apply Ha.
  - intros S. exists []. split; auto. constructor. now apply spaces_white.
Qed.
Lemma i_ret {A : Set} (x : A) : its (PRet x) (fun v l => v = x /\ l = []).
Proof. intros t k v (-> & ->). exists []. repeat split; auto. constructor. constructor. Qed.
Lemma i_space : its PSpace (fun _ l => l = [gap]).
Proof.
  intros t k v (-> & c & k' & -> & S). exists [gap]. split; auto. unfold gap. apply writes_one_t. split; auto. red. eauto.
Qed.
Lemma i_rule r : its (PRule r) (fun v l => l = [Pt (part_of r v)]).
Proof. intros t k v H. exists [Pt (part_of r v)]. split; auto. apply writes_one; auto. Qed.

(** Repetitions *)
Inductive many {A : Set} (I : A -> list item -> Prop) : list A -> list item -> Prop :=
| many_nil : many I [] []
| many_cons v l vs ls : I v l -> many I vs ls -> many I (v :: vs) (l ++ ls).
Lemma star_many {A : Set} (a : PE A) I : its a I -> forall k t vs, star_of (G a) k t vs -> exists l, many I vs l /\ writes m k t l.
Proof.
  intros Ha k t vs H. induction H as [sp S|t v t' vs H _ (l' & Hl' & W')].
  - exists []. split; constructor. now apply spaces_white.
  - destruct (Ha _ _ _ H) as (l & Hl & W). exists (l ++ l'). split; [now constructor|]. apply writes_app; auto.
Qed.
Lemma i_star {A : Set} (a : PE A) I : its a I -> its (PStar a) (many I).
Proof. intros Ha t k v H. exact (star_many a I Ha _ _ _ H). Qed.
Lemma i_plus {A : Set} (a : PE A) I : its a I -> its (PPlus a) (fun vs l => many I vs l /\ vs <> []).
Proof.
  intros Ha t k vs (t1 & t2 & v & vs' & -> & -> & H1 & H2).
  destruct (Ha _ _ _ H1) as (l1 & I1 & W1). destruct (star_many a I Ha _ _ _ H2) as (l2 & I2 & W2).
  exists (l1 ++ l2). split; [|apply writes_app; auto]. split; [now constructor|discriminate].
Qed.
Lemma many_nt {A : Set} (f : A -> node) vs l : many (fun v l => l = [Pt (X (f v))]) vs l -> l = each f vs.
Proof. induction 1 as [|v l vs ls -> _ ->]; reflexivity. Qed.
Lemma many_index {A : Set} (f : A -> part) vs l : many (fun v l => l = [mark "["; Pt (f v); mark "]"]) vs l ->
  l = flat_map (fun v => [mark "["; Pt (f v); mark "]"]) vs.
Proof. induction 1 as [|v l vs ls -> _ ->]; reflexivity. Qed.

Definition listed {A : Set} (it : A -> item) (sep : item) (vs : list A) : list item :=
  match vs with [] => [] | v :: vs' => it v :: flat_map (fun b => [sep; it b]) vs' end.
Lemma listed_commas {A : Set} (f : A -> part) vs : listed (fun v => Pt (f v)) (mark ",") vs = commas (map f vs).
Proof. destruct vs as [|v vs]; [reflexivity|]. cbn. f_equal. induction vs as [|w vs IH]; cbn; congruence. Qed.
Lemma i_list {A : Set} (a : PE A) s (it : A -> item) sep : its a (fun v l => l = [it v]) -> its s (fun _ l => l = [sep]) ->
  its (PList a s) (fun vs l => vs <> [] /\ l = listed it sep vs).
Proof.
  intros Ha Hs t k vs (t1 & t2 & v & vs' & -> & -> & H1 & H2).
  assert (E : exists l, l = flat_map (fun b => [sep; it b]) vs' /\ writes m k t2 l).
  { clear H1. induction H2 as [|s1 t0 v0 t' vs' H1 H2 _ (l' & El & Wl)].
    - exists []. split; auto. constructor. constructor.
    - destruct (Hs _ _ _ H1) as (ls & -> & Ws). destruct (Ha _ _ _ H2) as (la & -> & Wa).
      exists ([sep] ++ [it v0] ++ l'). cbn [flat_map]. split; [now rewrite El|].
      apply writes_app; [|apply writes_app; auto]. now rewrite <- app_assoc. }
  destruct E as (l' & El & Wl). destruct (Ha _ _ _ H1) as (la & -> & Wa).
  exists ([it v] ++ l'). split; [split; [discriminate|cbn; now rewrite El]|]. apply writes_app; auto.
Qed.

(** ** Terminals *)
Definition lx (e : se) (P : text -> terminal) : Prop := forall x k v, lexeme e x k v -> P v k x.
Lemma writes_t w k x (P : terminal) : spaces w -> P k x -> writes m k (w ++ x) [T P].
Proof. intros W H. apply writes_lead; [now apply spaces_white|]. now apply writes_one_t. Qed.
Lemma i_lex e P : lx e P -> its (PLex e) (fun v l => l = [T (P v)]).
Proof. intros H t k v (sp & x & -> & S & Hx). exists [T (P v)]. split; auto. apply writes_t; auto. Qed.
Lemma i_lit s : its (lit s) (fun _ l => l = [mark s]).
Proof.
  intros t k v (sp & x & -> & S & H). exists [mark s]. split; auto. apply writes_t; auto. now apply strip_exact in H.
Qed.
Lemma strip_nc_exact s x : strip true s x = Some (x, []) -> upper x = upper s.
Proof. intros H. apply strip_nc_iff in H as [_ H]. exact H. Qed.
Definition caps (w : string) : bool := text_eqb (upper (L w)) (L w).
Lemma i_kw w : caps w = true -> its (kw w) (fun _ l => l = [key w]).
Proof.
  intros C t k v (sp & x & -> & S & H). exists [key w]. split; auto. apply writes_t; auto.
  apply strip_nc_exact in H. apply text_eqb_iff in C. now rewrite H.
Qed.
Lemma ahead_inv acc i a r : srun ahead_space acc i = SOk a r -> a = acc /\ r = i /\ blank_ahead i.
Proof.
  unfold ahead_space. cbn [srun]. destruct i as [|c i]; [discriminate|]. destruct (is_space c) eqn:E; [|discriminate].
  intros H. injection H as <- <-. repeat split; auto. red. eauto.
Qed.
Lemma soft_inv s x k v : lexeme (SSeq (SLit true s) ahead_space) x k v -> v = [] /\ upper x = upper s /\ blank_ahead k.
Proof.
  unfold lexeme. rewrite run_seq. cbn [srun]. destruct (strip true s (x ++ k)) as [[y r]|] eqn:E; [|discriminate].
  intros H. apply ahead_inv in H as (-> & -> & B). apply strip_nc_iff in E as [E U]. apply app_inv_tail in E as ->. auto.
Qed.
Lemma hard_inv s x k v : lexeme (SExp (SLit true s) ahead_space) x k v -> v = [] /\ upper x = upper s /\ blank_ahead k.
Proof.
  unfold lexeme. cbn [srun]. destruct (strip true s (x ++ k)) as [[y r]|] eqn:E; [|discriminate].
  destruct (srun ahead_space [] r) as [a r'| | |] eqn:E2; try discriminate.
  intros H. injection H as <- ->. apply ahead_inv in E2 as (-> & -> & B). apply strip_nc_iff in E as [E U]. apply app_inv_tail in E as ->. auto.
Qed.
Lemma i_keyb_soft w : caps w = true -> its (PLex (kw_soft w)) (fun _ l => l = [keyb w]).
Proof.
  intros C t k v (sp & x & -> & S & H). exists [keyb w]. split; auto. apply writes_t; auto.
  apply soft_inv in H as (_ & U & B). apply text_eqb_iff in C. split; auto. now rewrite U.
Qed.
Lemma i_keyb_hard w : caps w = true -> its (PLex (kw_hard w)) (fun _ l => l = [keyb w]).
Proof.
  intros C t k v (sp & x & -> & S & H). exists [keyb w]. split; auto. apply writes_t; auto.
  apply hard_inv in H as (_ & U & B). apply text_eqb_iff in C. split; auto. now rewrite U.
Qed.
Lemma in_upper ws w x : forallb caps ws = true -> In w ws -> upper x = upper (L w) -> In (upper x) (map L ws).
Proof.
  intros F I U. rewrite forallb_forall in F. pose proof (F _ I) as C. apply text_eqb_iff in C. rewrite U, C. now apply in_map.
Qed.
Lemma lx_strs ws : forallb caps ws = true -> lx (strs_nc ws) (fun v _ x => x = v /\ In (upper v) (map L ws)).
Proof.
  intros F x k v H. eapply takes_lexeme in H; [|apply takes_strs]. destruct H as (-> & w & I & U). split; auto. eapply in_upper; eauto.
Qed.
Lemma i_strs ws : forallb caps ws = true -> its (PLex (strs_nc ws)) (fun v l => l = [one_of ws v]).
Proof. intros F. exact (i_lex _ _ (lx_strs ws F)). Qed.
Lemma lx_strs_soft ws : forallb caps ws = true -> lx (SSeq (strs_nc ws) ahead_space) (fun v k x => x = v /\ In (upper v) (map L ws) /\ blank_ahead k).
Proof.
  intros F x k v H. unfold lexeme in H. rewrite run_seq in H. destruct (srun (strs_nc ws) [] (x ++ k)) as [a r| | |] eqn:E; try discriminate.
  apply ahead_inv in H as (-> & -> & B). destruct (lx_strs ws F x r a E) as (-> & I). auto.
Qed.
Lemma i_strs_soft ws : forallb caps ws = true -> its (PLex (kws_soft ws)) (fun v l => l = [one_ofb ws v]).
Proof. intros F. exact (i_lex _ _ (lx_strs_soft ws F)). Qed.
Lemma i_marks ms : its (PLex (strs_cs ms)) (fun v l => l = [one_mark ms v]).
Proof.
  apply (i_lex _ (fun v _ x => x = v /\ In v (map L ms))). intros x k v H. eapply takes_lexeme in H; [|apply takes_strs_cs]. destruct H as (-> & I). auto.
Qed.
Lemma i_name : its ident (fun v l => l = [name v]).
Proof.
  apply (i_lex _ (fun v k x => x = v /\ identifier_before k v)). intros x k v H. apply identifier_inv in H as [E B]. apply app_inv_tail in E as ->. auto.
Qed.
Lemma i_real : its PDbl (fun v l => l = [real v]).
Proof.
  intros t k v (sp & -> & W & D). apply dbl_inv in D as [_ R]. exists [real v]. split; auto. apply writes_t; auto.
Qed.
Lemma i_whole : its (PLex s_unsigned_integer) (fun v l => l = [whole v]).
Proof.
  apply (i_lex _ (fun v k x => x = v /\ digits v)). intros x k v H. eapply takes_lexeme in H; [|apply takes_digits]. destruct H as (-> & D). auto.
Qed.
Lemma i_count : its PTop (fun v l => l = [count v]).
Proof.
  intros t k v (sp & ds & -> & W & D). exists [count v]. split; auto. apply writes_t; auto.
  unfold ulong in D. destruct (span is_digit (ds ++ k)) as [d r] eqn:Sp.
  destruct d as [|c d]; [discriminate|]. cbn [is_nil] in D. destruct (_ <? _)%N; [|discriminate]. injection D as <- ->.
  apply span_digit in Sp as (F & E). apply app_inv_tail in E as ->. split; [split; [discriminate|auto]|]. now rewrite dec_value_decimal.
Qed.
End Calc.
