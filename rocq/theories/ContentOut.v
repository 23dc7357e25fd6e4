(** The output side of C14: the tokens of a printed text. *)
From Verif Require Import Query PegProps Gen Spec TextLemmas SpecLexical LexProofs LexProofs2 LexDec Operand SpecContent ContentCalc ContentLeaves ContentTokens.

(** A lexer for the fixed parts of the output. *)
Definition flush (cur : text) : list text := if is_nil cur then [] else [cur].
Fixpoint slex (cur t : text) : list text :=
  match t with
  | [] => flush cur
  | c :: t' =>
      if is_idchar c then slex (cur ++ [c]) t'
      else flush cur ++ (if is_space c then [] else [[c]]) ++ slex [] t'
  end.
Fixpoint schk (cur t : text) : bool :=
  match t with
  | [] => true
  | c :: t' =>
      if is_idchar c then (if is_nil cur then is_letter c else true) && schk (cur ++ [c]) t'
      else (is_space c || mem [c] marks) && schk [] t'
  end.
Definition ends_open (t : text) : bool := match rev t with c :: _ => is_idchar c | [] => false end.

Section Out.
Variable m : text -> option text.
Variable fmt : text -> text.
Variable stray : Prop.
Notation norm := (normal m fmt stray).
Definition LO (k t : text) (l : list text) : Prop := lexes (output_token m fmt) (fun _ => False) k t l.
Definition outs (p : text) (l : list text) : Prop := forall k, stops word_char k -> LO k p l.
Definition shut (p : text) (l : list text) : Prop := forall k, LO k p l.
(** Does not start with a word character. *)
Definition safe (b : text) : Prop := stops word_char b.

Lemma safe_app b k : safe b -> stops word_char k -> stops word_char (b ++ k).
Proof. destruct b; auto. Qed.
Lemma safe_app2 a b : safe a -> safe b -> safe (a ++ b).
Proof. destruct a; auto. Qed.
Lemma safe_front a b : is_nil a = false -> safe a -> safe (a ++ b).
Proof. destruct a; [discriminate|auto]. Qed.
Lemma safe_nil : safe []. Proof. exact I. Qed.
Lemma safe_cons c t : is_idchar c = false -> safe (c :: t).
Proof. intros H W. apply is_idchar_iff in W. congruence. Qed.
Lemma safe_concat {A} (f : A -> text) l : (forall x, In x l -> safe (f x)) -> safe (concat (map f l)).
Proof. induction l as [|x l IH]; cbn; intros H; [exact I|]. apply safe_app2; auto. Qed.

Lemma shut_outs p l : shut p l -> outs p l. Proof. intros H k _. apply H. Qed.
Lemma outs_nil : outs [] []. Proof. intros k _. apply lexes_nil. Qed.
Lemma shut_nil : shut [] []. Proof. intros k. apply lexes_nil. Qed.
Lemma outs_shut a b la lb : shut a la -> outs b lb -> outs (a ++ b) (la ++ lb).
Proof. intros Ha Hb k K. apply lexes_app; [apply Ha|now apply Hb]. Qed.
Lemma outs_safe a b la lb : outs a la -> safe b -> outs b lb -> outs (a ++ b) (la ++ lb).
Proof. intros Ha S Hb k K. apply lexes_app; [apply Ha; now apply safe_app|now apply Hb]. Qed.
Lemma shut_app a b la lb : shut a la -> shut b lb -> shut (a ++ b) (la ++ lb).
Proof. intros Ha Hb k. apply lexes_app; [apply Ha|apply Hb]. Qed.
Lemma shut_safe a b la lb : outs a la -> safe b -> b <> [] -> shut b lb -> shut (a ++ b) (la ++ lb).
Proof. intros Ha S N Hb k. apply lexes_app; [apply Ha; destruct b; [congruence|exact S]|apply Hb]. Qed.
Lemma outs_token x : token x -> outs x [x].
Proof. intros T k K. apply lexes_one; [now left|auto]. Qed.
Lemma outs_fmt d : real_number d -> outs (fmt d) [fmt d].
Proof. intros T k K. apply lexes_one; [right; left; eauto|auto]. Qed.
Lemma outs_mapped n t : m n = Some t -> outs t [t].
Proof. intros T k K. apply lexes_one; [right; right; eauto|auto]. Qed.
Lemma shut_token x : token x -> ~ ends_word x -> shut x [x].
Proof. intros T N k. apply lexes_one; [now left|]. right. intros E. now apply N in E. Qed.
Lemma shut_mark x : In x (map L marks) -> shut x [x].
Proof. intros H. apply shut_token; [do 5 right; exact H|exact (mark_end x H)]. Qed.

Lemma slex_ok t : forall cur k, schk cur t = true -> (cur = [] \/ word cur) ->
  (ends_open (cur ++ t) = true -> stops word_char k) -> LO k (cur ++ t) (slex cur t).
Proof.
  assert (Fl : forall cur, cur = [] \/ word cur -> forall k, stops word_char k -> LO k cur (flush cur)).
  { intros cur C k K. destruct C as [->|W]; [apply lexes_nil|]. replace (flush cur) with [cur] by (destruct W as (c & w & -> & _); reflexivity).
    apply outs_token; auto. now left. }
  induction t as [|c t IH]; intros cur k H C K; cbn [slex schk] in *.
  - rewrite app_nil_r in *. destruct C as [->|W]; [apply lexes_nil|]. apply Fl; auto. apply K. unfold ends_open.
    destruct (rev cur) as [|d r] eqn:R; [exfalso; destruct W as (e & w & -> & _); cbn in R; now apply app_eq_nil in R as [_ R]|]. apply is_idchar_iff.
    pose proof (word_chars _ W) as F. rewrite Forall_forall in F. apply F. apply in_rev. rewrite R. now left.
  - destruct (is_idchar c) eqn:I.
    + apply andb_true_iff in H as [Hc H]. replace (cur ++ c :: t) with ((cur ++ [c]) ++ t) in * by now rewrite <- app_assoc.
      apply IH; auto. right. destruct C as [->|(d & w & -> & Ld & F)].
      * exists c, []. repeat split; auto. now apply is_letter_iff.
      * exists d, (w ++ [c]). repeat split; auto. apply Forall_app. split; auto. constructor; auto. now apply is_idchar_iff.
    + apply andb_true_iff in H as [Hc H]. apply lexes_app; [apply Fl; auto; now apply (safe_cons c (t ++ k))|].
      change (c :: t) with ([c] ++ t). apply lexes_app.
      * apply orb_true_iff in Hc as [Sp|M].
        -- rewrite Sp. constructor. constructor; auto.
        -- destruct (is_space c) eqn:Sp; [constructor; constructor; auto|]. apply shut_mark. now apply mem_iff.
      * apply (IH []); auto. intros O. apply K. cbn [app] in O. unfold ends_open in *.
        rewrite rev_app_distr. cbn [rev]. destruct (rev t) as [|d r]; [discriminate|exact O].
Qed.
Lemma shut_lit s : schk [] (L s) = true -> ends_open (L s) = false -> shut (L s) (slex [] (L s)).
Proof. intros H O k. apply (slex_ok (L s) []); auto. cbn [app]. congruence. Qed.
Lemma outs_lit s : schk [] (L s) = true -> outs (L s) (slex [] (L s)).
Proof. intros H k K. apply (slex_ok (L s) []); auto. Qed.
Lemma shut_litl s l : schk [] (L s) && negb (ends_open (L s)) = true -> slex [] (L s) = l -> shut (L s) l.
Proof. intros H <-. apply andb_true_iff in H as [H O]. apply negb_true_iff in O. now apply shut_lit. Qed.
Lemma outs_litl s l : schk [] (L s) = true -> slex [] (L s) = l -> outs (L s) l.
Proof. intros H <-. now apply outs_lit. Qed.

(** What is printed for the tokens [l]. *)
Definition prn (p : text) (l : list text) : Prop := exists l', outs p l' /\ norm l l'.

Lemma norm_cons x y l l' : norm [x] [y] -> norm l l' -> norm (x :: l) (y :: l').
Proof. intros. change (norm ([x] ++ l) ([y] ++ l')). now constructor. Qed.
Lemma norm_refl l : norm l l.
Proof. induction l; [constructor|apply norm_cons; auto; constructor]. Qed.
Definition kw_case (w : string) (y : text) : bool := text_eqb (upper (L w)) y && mem y upper_cased.
Lemma norm_kw x w y : upper x = upper (L w) -> kw_case w y = true -> norm [x] [y].
Proof.
  intros U H. apply andb_true_iff in H as [A B]. apply text_eqb_iff in A. apply mem_iff in B. constructor; congruence.
Qed.
Lemma norm_stray n : stray -> upper n = L "NOT" -> norm [] [n].
Proof. apply normal_stray. Qed.
Lemma prn_token x : token x -> prn x [x].
Proof. intros T. exists [x]. split; [now apply outs_token|constructor]. Qed.

(** Lists *)
Lemma concat_out {A : Type} (P : A -> list text -> Prop) (f : A -> text) vs ls :
  Forall2 P vs ls -> (forall v l, In v vs -> P v l -> prn (f v) l /\ safe (f v)) -> prn (concat (map f vs)) (concat ls) /\ safe (concat (map f vs)).
Proof.
  intros F H. induction F as [|v l vs ls Pv F IH]; cbn.
  - split; [|exact I]. exists []. split; [exact outs_nil|constructor].
  - destruct IH as [(l' & O & N) S]; [intros; apply H; auto; now right|]. destruct (H v l (or_introl eq_refl) Pv) as [(l1 & O1 & N1) S1].
    split; [|now apply safe_app2]. exists (l1 ++ l'). split; [now apply outs_safe|now constructor].
Qed.
Lemma shut_concat {A : Type} (P : A -> list text -> Prop) (f : A -> text) vs ls :
  Forall2 P vs ls -> (forall v l, In v vs -> P v l -> exists l', shut (f v) l' /\ norm l l') ->
  exists l', shut (concat (map f vs)) l' /\ norm (concat ls) l'.
Proof.
  intros F H. induction F as [|v l vs ls Pv F IH]; cbn.
  - exists []. split; [exact shut_nil|constructor].
  - destruct IH as (l' & O & N); [intros; apply H; auto; now right|]. destruct (H v l (or_introl eq_refl) Pv) as (l1 & O1 & N1).
    exists (l1 ++ l'). split; [now apply shut_app|now constructor].
Qed.
Lemma commas_ne {A : Type} (P : A -> list text -> Prop) vs l : commas P vs l -> vs <> [] /\ is_nil vs = false.
Proof. intros [? ? ?|? ? ? ? ? ?]; split; auto; discriminate. Qed.
Lemma join_out {A : Type} (P : A -> list text -> Prop) (f : A -> text) sep vs l :
  commas P vs l -> sep = L "," \/ sep = L ", " -> (forall v l, In v vs -> P v l -> prn (f v) l) -> prn (join sep (map f vs)) l.
Proof.
  intros C S. induction C as [v l Pv|v l vs l' Pv C IH]; intros H.
  - cbn. apply H; auto. now left.
  - destruct IH as (l2 & O2 & N2); [intros; apply H; auto; now right|]. destruct (H v l (or_introl eq_refl) Pv) as (l1 & O1 & N1).
    assert (Sh : shut sep [L ","]) by (destruct S as [-> | ->]; now apply shut_litl).
    assert (E : join sep (map f (v :: vs)) = f v ++ sep ++ join sep (map f vs)) by (destruct C; reflexivity).
    rewrite E. exists (l1 ++ [L ","] ++ l2). split.
    + apply outs_safe; auto; [|now apply outs_shut]. destruct S as [-> | ->]; now apply safe_cons.
    + constructor; auto. apply norm_cons; auto. constructor.
Qed.
End Out.

(** ** Tactics *)
Ltac safe_tac :=
  first [ exact I | apply safe_cons; reflexivity | (apply safe_front; assumption) | (apply safe_app2; [solve [safe_tac]|solve [safe_tac]]) | assumption ].
Ltac outs_tac :=
  match goal with
  | |- outs _ _ [] _ => apply outs_nil
  | |- outs ?m ?f ([] ++ ?x) ?l => change (outs m f x l); outs_tac
  | |- outs _ _ (L _ ++ _) _ => eapply outs_shut; [eapply shut_litl; [reflexivity|vm_compute; reflexivity]|outs_tac]
  | |- outs _ _ (_ ++ _) _ =>
      first [ eapply outs_shut; [eassumption|outs_tac]
            | eapply outs_safe; [first [eassumption | apply outs_token; eassumption]|safe_tac|outs_tac] ]
  | |- outs _ _ (L _) _ => eapply outs_litl; [reflexivity|vm_compute; reflexivity]
  | |- outs _ _ _ _ => first [eassumption | apply outs_token; eassumption | apply shut_outs; eassumption]
  end.
Ltac norm_tac :=
  cbn [app]; rewrite <- ?app_assoc; cbn [app]; rewrite ?app_nil_r;
  repeat first
    [ assumption
    | apply normal_nil
    | apply normal_same
    | eapply norm_kw; [eassumption|reflexivity]
    | apply norm_cons; [first [apply normal_same | eapply norm_kw; [eassumption|reflexivity]]|]
    | apply normal_app; [assumption|] ].
Ltac opn := repeat match goal with
  | H : both _ _ ?v _ |- _ => let l1 := fresh "l" in let l2 := fresh "l" in let A := fresh "A" in let B := fresh "B" in
      destruct H as (l1 & l2 & -> & A & B); cbn [fst snd] in A, B
  | H : kwo _ _ _ |- _ => let x := fresh "x" in let U := fresh "U" in destruct H as (x & -> & U)
  | H : exists _, _ |- _ => destruct H
  | H : _ /\ _ |- _ => destruct H
  | H : prn _ _ _ _ _ |- _ => let l := fresh "l'" in let O := fresh "O" in let N := fresh "N" in destruct H as (l & O & N)
  end.
