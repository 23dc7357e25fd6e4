(** White space behind a text (C04): the rules with skipper. *)
From Verif Require Import Query Spec SpecTrail PegProps PegSpec PegEquiv TextLemmas LexProofs TrailLex TrailLand.
From Verif Require WhitePeg.

Definition quiet {A : Set} (o : out A) : Prop := match o with Ok _ _ | Fail _ => True | _ => False end.

(** Numbers *)
Lemma not_space_eqb a c : is_space a = false -> is_space c = true -> Ascii.eqb c a = false.
Proof. intros A C. apply Ascii.eqb_neq. intros ->. congruence. Qed.
Lemma span_app f i w : (forall c, is_space c = true -> f c = false) -> white w -> span f (i ++ w) = (fst (span f i), snd (span f i) ++ w).
Proof.
  intros F W. induction i as [|c i IH]; cbn [app span fst snd].
  - destruct W as [|c w C W]; [reflexivity|]. cbn [span]. now rewrite F.
  - destruct (f c); [|reflexivity]. rewrite IH. destruct (span f i); reflexivity.
Qed.
Lemma digits_app i w : white w -> span is_digit (i ++ w) = (fst (span is_digit i), snd (span is_digit i) ++ w).
Proof. intros W. apply span_app; [|exact W]. intros c. apply dark_class_ok. reflexivity. Qed.
Lemma dbl_exp_app i w : white w -> dbl_exp (i ++ w) = (fst (dbl_exp i), snd (dbl_exp i) ++ w).
Proof.
  intros W. destruct i as [|c i]; cbn [app].
  - destruct W as [|c w C W]; [reflexivity|]. cbn [dbl_exp]. now rewrite !not_space_eqb.
  - cbn [dbl_exp]. destruct (Ascii.eqb c "e" || Ascii.eqb c "E"); [|reflexivity].
    set (f := fun i1 : text => match i1 with s :: i' => if Ascii.eqb s "+" || Ascii.eqb s "-" then ([s], i') else ([], i1) | [] => ([], i1) end).
    assert (X : f (i ++ w) = (fst (f i), snd (f i) ++ w)).
    { unfold f. destruct i as [|s i]; cbn [app]; [destruct W as [|s w C W]; [reflexivity|]; now rewrite !not_space_eqb|]. destruct (Ascii.eqb s "+" || Ascii.eqb s "-"); reflexivity. }
    change (match i ++ w with | [] => ([], i ++ w) | s :: i' => if Ascii.eqb s "+" || Ascii.eqb s "-" then ([s], i') else ([], i ++ w) end) with (f (i ++ w)).
    change (match i with | [] => ([], i) | s :: i' => if Ascii.eqb s "+" || Ascii.eqb s "-" then ([s], i') else ([], i) end) with (f i).
    rewrite X. destruct (f i) as [sgn i2]. cbn [fst snd]. rewrite digits_app by exact W. destruct (span is_digit i2) as [ds i3]. cbn [fst snd]. destruct (is_nil ds); reflexivity.
Qed.
Definition more (w : text) (o : option (text * text)) : option (text * text) := match o with Some (m, r) => Some (m, r ++ w) | None => None end.
Lemma decimal_app ds i w : white w -> WhitePeg.decimal ds (i ++ w) = more w (WhitePeg.decimal ds i).
Proof.
  intros W. unfold WhitePeg.decimal. rewrite !WhitePeg.dot_eq.
  assert (D : (if is_nil ds then None else let (ex, i4) := dbl_exp (i ++ w) in Some (ds ++ ex, i4)) = more w (if is_nil ds then None else let (ex, i4) := dbl_exp i in Some (ds ++ ex, i4))).
  { destruct (is_nil ds); [reflexivity|]. rewrite dbl_exp_app by exact W. destruct (dbl_exp i). reflexivity. }
  destruct i as [|c i]; cbn [app] in *.
  - destruct W as [|c w C W]; [exact D|]. rewrite not_space_eqb by (auto; reflexivity). exact D.
  - destruct (Ascii.eqb c "."); [|exact D]. rewrite digits_app by exact W. destruct (span is_digit i) as [fs i3]. cbn [fst snd].
    destruct (is_nil ds && is_nil fs); [reflexivity|]. rewrite dbl_exp_app by exact W. destruct (dbl_exp i3). reflexivity.
Qed.
Lemma special_app i w : white w -> WhitePeg.special (i ++ w) = more w (WhitePeg.special i).
Proof.
  intros W. unfold WhitePeg.special. rewrite !strip_app by (reflexivity || exact W).
  assert (Inf : (match match strip true (L "inf") i with Some (m, r) => Some (m, r ++ w) | None => None end with Some (m, r) => match strip true (L "inity") r with Some (m', r') => Some (m ++ m', r') | None => Some (m, r) end | None => None end)
    = more w (match strip true (L "inf") i with Some (m, r) => match strip true (L "inity") r with Some (m', r') => Some (m ++ m', r') | None => Some (m, r) end | None => None end)).
  { destruct (strip true (L "inf") i) as [[m r]|]; [|reflexivity]. rewrite strip_app by (reflexivity || exact W). destruct (strip true (L "inity") r) as [[m' r']|]; reflexivity. }
  destruct (strip true (L "nan") i) as [[m r]|]; [|exact Inf]. rewrite !WhitePeg.paren_eq. destruct r as [|c r]; cbn [app].
  - destruct W as [|c w C W]; [reflexivity|]. now rewrite not_space_eqb by (auto; reflexivity).
  - destruct (Ascii.eqb c "("); [|reflexivity]. set (f := fun c : ascii => negb (Ascii.eqb c ")")).
    assert (X : span f (r ++ w) = match snd (span f r) with [] => (fst (span f r) ++ w, []) | _ :: _ => (fst (span f r), snd (span f r) ++ w) end).
    { assert (Y : span f w = (w, [])). { clear - W. induction W as [|c w C W IH]; [reflexivity|]. cbn [span]. unfold f at 1. rewrite not_space_eqb by (auto; reflexivity). cbn. now rewrite IH. }
      induction r as [|x r IH]; cbn [app span fst snd]; [exact Y|]. destruct (f x); [|reflexivity]. rewrite IH. destruct (span f r) as [u [|y v]]; reflexivity. }
    rewrite X. destruct (span f r) as [u [|y v]]; reflexivity.
Qed.
Lemma dbl_unsigned_app i w : white w -> dbl_unsigned (i ++ w) = more w (dbl_unsigned i).
Proof.
  intros W. rewrite !WhitePeg.dbl_unsigned_eq, digits_app by exact W. destruct (span is_digit i) as [ds i1]. cbn [fst snd].
  rewrite special_app, decimal_app by exact W. destruct (is_nil ds); [|reflexivity]. destruct (WhitePeg.special i) as [[? ?]|]; reflexivity.
Qed.
Lemma dbl_app i w : white w -> dbl (i ++ w) = more w (dbl i).
Proof.
  intros W. unfold dbl. destruct i as [|c i]; cbn [app].
  - destruct W as [|c w C W]; [reflexivity|]. rewrite !not_space_eqb by (auto; reflexivity). cbn [orb more].
    change (c :: w) with ([] ++ c :: w). rewrite dbl_unsigned_app by now constructor. reflexivity.
  - destruct (Ascii.eqb c "+" || Ascii.eqb c "-"); [|apply (dbl_unsigned_app (c :: i) w W)]. rewrite dbl_unsigned_app by exact W. destruct (dbl_unsigned i) as [[? ?]|]; reflexivity.
Qed.


(** where numbers end *)
Lemma span_land i : exists r, i = fst (span is_digit i) ++ r /\ r = snd (span is_digit i) /\ (fst (span is_digit i) = [] \/ firm (fst (span is_digit i))).
Proof.
  induction i as [|c i IH]; [exists []; auto|]. cbn [span]. destruct (is_digit c) eqn:D; [|exists (c :: i); cbn; auto]. destruct IH as (r & E & Er & F). destruct (span is_digit i) as [ds r']. cbn [fst snd] in *. subst r'.
  exists r. split; [cbn; now rewrite E at 1|]. split; [reflexivity|]. right. destruct F as [->|F]; [exists [], c; auto|]. now apply (firm_app [c]).
Qed.
Lemma dbl_exp_land i : i = fst (dbl_exp i) ++ snd (dbl_exp i) /\ (fst (dbl_exp i) = [] \/ firm (fst (dbl_exp i))).
Proof.
  destruct i as [|c i]; cbn [dbl_exp]; [cbn; auto|]. destruct (Ascii.eqb c "e" || Ascii.eqb c "E"); [|cbn; auto].
  set (f := fun i1 : text => match i1 with s :: i' => if Ascii.eqb s "+" || Ascii.eqb s "-" then ([s], i') else ([], i1) | [] => ([], i1) end).
  change (match i with | [] => ([], i) | s :: i' => if Ascii.eqb s "+" || Ascii.eqb s "-" then ([s], i') else ([], i) end) with (f i).
  assert (X : i = fst (f i) ++ snd (f i)) by (unfold f; destruct i as [|s i]; [reflexivity|]; destruct (Ascii.eqb s "+" || Ascii.eqb s "-"); reflexivity).
  destruct (f i) as [sgn i2]. cbn [fst snd] in X. destruct (span_land i2) as (r & E & Er & F). destruct (span is_digit i2) as [ds r']. cbn [fst snd] in *. subst r'.
  destruct ds as [|d ds]; cbn [is_nil fst snd]; [cbn; auto|]. split; [rewrite X, E; cbn; now rewrite <- app_assoc|]. right. destruct F as [F|F]; [discriminate|]. now apply (firm_app (c :: sgn)).
Qed.
Lemma decimal_land ds i m r : ds = [] \/ firm ds -> WhitePeg.decimal ds i = Some (m, r) -> ds ++ i = m ++ r /\ firm m.
Proof.
  intros F. unfold WhitePeg.decimal. rewrite WhitePeg.dot_eq.
  assert (D : (if is_nil ds then None else let (ex, i4) := dbl_exp i in Some (ds ++ ex, i4)) = Some (m, r) -> ds ++ i = m ++ r /\ firm m).
  { destruct ds as [|d ds]; [discriminate|]. cbn [is_nil]. destruct F as [F|F]; [discriminate|]. pose proof (dbl_exp_land i) as [E G]. destruct (dbl_exp i) as [ex i4]. cbn [fst snd] in *. intros [= <- <-].
    split; [rewrite E; cbn; now rewrite <- app_assoc|]. destruct G as [->|G]; [now rewrite app_nil_r|now apply (firm_app (d :: ds))]. }
  destruct i as [|c i]; [exact D|]. destruct (Ascii.eqb c ".") eqn:Ec; [|exact D]. apply Ascii.eqb_eq in Ec. subst c.
  destruct (span_land i) as (i3 & E & Er & G). destruct (span is_digit i) as [fs i3']. cbn [fst snd] in *. subst i3'. destruct (is_nil ds && is_nil fs); [discriminate|].
  pose proof (dbl_exp_land i3) as [E3 G3]. destruct (dbl_exp i3) as [ex i4]. cbn [fst snd] in *. intros [= <- <-]. split; [rewrite E, E3, <- !app_assoc; cbn; now rewrite <- !app_assoc|].
  destruct G3 as [->|G3]; [|apply firm_app, (firm_app ("."%char :: fs)); exact G3]. rewrite app_nil_r. destruct G as [->|G]; [exists ds, "."%char; auto|apply firm_app, (firm_app ["."%char]); exact G].
Qed.
Lemma span_rest f i : i = fst (span f i) ++ snd (span f i).
Proof. induction i as [|c i IH]; [reflexivity|]. cbn [span]. destruct (f c); [|reflexivity]. destruct (span f i). cbn [fst snd] in *. now rewrite IH at 1. Qed.
Lemma span_next f i c r : snd (span f i) = c :: r -> f c = false.
Proof. induction i as [|d i IH]; [discriminate|]. cbn [span]. destruct (f d) eqn:E; [|intros [= <- _]; exact E]. destruct (span f i). exact IH. Qed.
Lemma special_land i m r : WhitePeg.special i = Some (m, r) -> i = m ++ r /\ stop m r.
Proof.
  unfold WhitePeg.special. destruct (strip true (L "nan") i) as [[u v]|] eqn:E.
  - apply strip_land in E as [-> S]; [|reflexivity]. rewrite WhitePeg.paren_eq. destruct v as [|c v]; [intros [= <- <-]; auto|]. destruct (Ascii.eqb c "(") eqn:Ec; [|intros [= <- <-]; auto].
    apply Ascii.eqb_eq in Ec. subst c. pose proof (span_rest (fun c => negb (Ascii.eqb c ")")) v) as X. pose proof (span_next (fun c => negb (Ascii.eqb c ")")) v) as Y.
    destruct (span (fun c => negb (Ascii.eqb c ")")) v) as [b [|c w]]; [discriminate|]. cbn [fst snd] in *. specialize (Y c w eq_refl). apply negb_false_iff, Ascii.eqb_eq in Y. subst c. intros [= <- <-].
    split; [rewrite X, <- !app_assoc; cbn; now rewrite <- !app_assoc|]. apply halt_stop, firm_halt. exists (u ++ "("%char :: b), ")"%char. split; [now rewrite <- app_assoc|now left].
  - destruct (strip true (L "inf") i) as [[u v]|] eqn:Ei; [|discriminate]. destruct (strip true (L "inity") v) as [[u' v']|] eqn:Ev.
    + intros [= <- <-]. apply strip_nc_iff in Ei as [-> U], Ev as [-> U']. split; [now rewrite <- app_assoc|]. apply glued_stop. exists "INFINITY"%string. split; [cbn; tauto|].
      unfold upper in *. rewrite map_app, U, U'. reflexivity.
    + intros [= <- <-]. apply strip_land in Ei as [-> S]; [auto|reflexivity].
Qed.
Lemma dbl_unsigned_land i m r : dbl_unsigned i = Some (m, r) -> i = m ++ r /\ stop m r.
Proof.
  rewrite WhitePeg.dbl_unsigned_eq. destruct (span_land i) as (i1 & E & Er & F). pose proof (decimal_land (fst (span is_digit i)) i1 m r F) as D. destruct (span is_digit i) as [ds i1']. cbn [fst snd] in *. subst i1'.
  assert (D' : WhitePeg.decimal ds i1 = Some (m, r) -> i = m ++ r /\ stop m r) by (intros H; destruct (D H) as [D1 D2]; split; [congruence|now apply halt_stop, firm_halt]).
  destruct (is_nil ds); [|exact D']. destruct (WhitePeg.special i) as [[u v]|] eqn:Es; [|exact D']. intros [= <- <-]. now apply special_land.
Qed.
Lemma dbl_land i m r : dbl i = Some (m, r) -> i = m ++ r /\ stop m r.
Proof.
  unfold dbl. destruct i as [|c i]; [discriminate|]. destruct (Ascii.eqb c "+" || Ascii.eqb c "-") eqn:Ec; [|apply dbl_unsigned_land].
  destruct (dbl_unsigned i) as [[u v]|] eqn:E; [|discriminate]. intros [= <- <-]. apply dbl_unsigned_land in E as [-> S]. split; [reflexivity|].
  apply (stop_app [c]); [|exact S]. apply halt_stop, firm_halt. exists [], c. split; [reflexivity|]. left. apply orb_true_iff in Ec as [Ec|Ec]; apply Ascii.eqb_eq in Ec; subst; reflexivity.
Qed.

(** * Places in a text *)
Section Peg.
Variable T : text.
Definition at_b (i : text) : Prop := exists a, T = a ++ i /\ (bound a \/ edge i).
Definition R1 (i j : text) : Prop := R i j /\ at_b i.
Lemma at_move c r : at_b (c ++ r) -> stop c r -> at_b r.
Proof. intros (a & E & H) S. exists (a ++ c). split; [rewrite E; apply app_assoc|]. now apply S. Qed.
Lemma skip_stop i : exists c, i = c ++ skip i /\ stop c (skip i).
Proof.
  induction i as [|c i (x & E & S)]; [exists []; split; [reflexivity|apply stop_nil]|]. cbn [skip]. destruct (is_space c) eqn:C; [|exists []; split; [reflexivity|apply stop_nil]].
  exists (c :: x). split; [cbn; now rewrite <- E|]. apply (stop_app [c]); [|exact S]. apply halt_stop, firm_halt. exists [], c. split; [reflexivity|left; now apply space_no_id].
Qed.
Lemma at_skip i : at_b i -> at_b (skip i).
Proof. intros H. destruct (skip_stop i) as (c & E & S). rewrite E in H. now apply (at_move c). Qed.
Lemma R1_skip i j : R1 i j -> R1 (skip i) (skip j).
Proof. intros [H A]. split; [now apply R_skip|now apply at_skip]. Qed.
Lemma R1_app c r w : at_b (c ++ r) -> stop c r -> white w -> R1 r (r ++ w).
Proof. intros A S W. split; [now apply R_rest|now apply (at_move c)]. Qed.
Hypothesis HT : ~ open_end T.
Lemma word_first v w : In w end_words -> upper v = L w -> exists c x, v = c :: x /\ is_idchar c = true.
Proof.
  intros I U. assert (F : forallb (fun w => first_id (L w)) end_words = true) by (vm_compute; reflexivity).
  rewrite forallb_forall in F. specialize (F _ I). rewrite <- U in F. destruct v as [|c v]; [discriminate|]. exists c, v. split; [reflexivity|].
  cbn in F. destruct (is_idchar c) eqn:E; [reflexivity|]. exfalso. destruct c as [[] [] [] [] [] [] [] []]; try discriminate E; discriminate F.
Qed.
Lemma at_closed i : at_b i -> ~ open_word i.
Proof.
  intros (a & E & B) (w & x & v & I & -> & A & U). apply HT. exists w, (a ++ x), v. split; [exact I|]. split; [rewrite <- app_assoc; exact E|]. split; [|exact U].
  destruct A as [->|(y & c & -> & C)]; [|rewrite app_assoc; apply bound_mark; now left]. rewrite app_nil_r. destruct B as [B|B]; [exact B|]. exfalso.
  destruct (word_first v w I U) as (c & z & -> & C). cbn in B. now rewrite C in B.
Qed.
Definition psim {A : Set} (o o' : out A) : Prop :=
  match o, o' with
  | Ok v r, Ok v' r' => v = v' /\ R1 r r'
  | Fail r, Fail r' => R1 r r'
  | _, _ => False
  end.
Variable m : text -> option text.
Notation EV := (ev (g_body m)).
Variable n : nat.
Notation RUN := (run (g_body m) n).
(** what [e] does on [i], it does on [j], unless it throws *)
Definition pg {A : Set} (e : PE A) : Prop :=
  forall i j, R1 i j -> quiet (RUN A e i) -> exists o, EV A e j o /\ psim (RUN A e i) o.

Ltac pgo H := match type of H with pg ?e => match goal with K : R1 ?i ?j |- context [RUN ?A e ?i] =>
  let X := fresh "X" in let o := fresh "o" in let S := fresh "S" in pose proof (H i j K) as X; destruct (RUN A e i) as [?v ?r|?r|?x|]; [..|try contradiction|try contradiction];
  [specialize (X I) as (o & S & X)|specialize (X I) as (o & S & X)|..]; try (destruct o; cbn [psim] in X; try contradiction);
  try match type of X with _ = _ /\ _ => destruct X as [<- X] | _ => idtac end end end.
Ltac fin := eexists; split; [econstructor; eassumption|cbn [psim]; auto].

Lemma pg_seq {A B : Set} (a : PE A) (b : PE B) : pg a -> pg b -> pg (PSeq a b).
Proof.
  intros Ha Hb i j K N. revert N. rewrite run_Seq. pgo Ha; cbn [quiet]; intros N; try contradiction; [|fin]. revert N. pgo Hb; cbn [quiet]; intros N; try contradiction; fin.
Qed.
Lemma pg_exp {A B : Set} (a : PE A) (b : PE B) : pg a -> pg b -> pg (PExp a b).
Proof.
  intros Ha Hb i j K N. revert N. rewrite run_Exp. pgo Ha; cbn [quiet]; intros N; try contradiction; [|fin]. revert N. pgo Hb; cbn [quiet]; intros N; try contradiction; fin.
Qed.
Lemma pg_alt {A : Set} (a b : PE A) : pg a -> pg b -> pg (PAlt a b).
Proof.
  intros Ha Hb i j K N. revert N. rewrite run_Alt. pgo Ha; cbn [quiet]; intros N; try contradiction; [fin|]. destruct (Hb _ _ X N) as (o' & S' & Y). exists o'. split; [|exact Y]. econstructor; eassumption.
Qed.
Lemma pg_opt {A : Set} (a : PE A) : pg a -> pg (POpt a).
Proof. intros Ha i j K N. revert N. rewrite run_Opt. pgo Ha; cbn [quiet]; intros N; try contradiction; fin. Qed.
Lemma pg_map {A B : Set} (f : A -> B) (a : PE A) : pg a -> pg (PMap f a).
Proof. intros Ha i j K N. revert N. rewrite run_Map. pgo Ha; cbn [quiet]; intros N; try contradiction; fin. Qed.
Lemma pg_ret {A : Set} (v : A) : pg (PRet v).
Proof. intros i j K N. exists (Ok v j). split; [constructor|]. rewrite run_Ret. now split. Qed.
Lemma pg_pstar {A : Set} (a : PE A) : pg a -> forall k i j, R1 i j -> quiet (pstar (RUN A a) k i) -> exists o, EV _ (PStar a) j o /\ psim (pstar (RUN A a) k i) o.
Proof.
  intros Ha. induction k as [|k IH]; intros i j K; cbn [pstar]; intros N; revert N; pgo Ha; cbn [quiet]; intros N; try contradiction; try (fin; fail).
  pose proof (IH _ _ X) as Y. pose proof (pstar_nofail (RUN A a) k r) as Nf.
  destruct (pstar (RUN A a) k r) as [vs r1|r1|x1|]; [|now specialize (Nf r1)|contradiction|contradiction]. destruct (Y I) as (o & S' & Y'); destruct o; cbn [psim] in Y'; try contradiction.
  destruct Y' as [<- Y']. fin.
Qed.
Lemma pg_star {A : Set} (a : PE A) : pg a -> pg (PStar a).
Proof. intros Ha i j K N. rewrite run_Star in *. now apply pg_pstar. Qed.
Lemma pg_plus {A : Set} (a : PE A) : pg a -> pg (PPlus a).
Proof.
  intros Ha i j K N. revert N. rewrite run_Plus. pgo Ha; cbn [quiet]; intros N; try contradiction; [|fin].
  pose proof (pg_pstar a Ha (length r) r rest X) as Y. pose proof (pstar_nofail (RUN A a) (length r) r) as Nf.
  destruct (pstar (RUN A a) (length r) r) as [vs r1|r1|x1|]; [|now specialize (Nf r1)|contradiction|contradiction]. destruct (Y I) as (o & S' & Y'); destruct o; cbn [psim] in Y'; try contradiction.
  destruct Y' as [<- Y']. fin.
Qed.
Lemma pg_plist {A : Set} (a : PE A) s : pg a -> pg s -> forall k i j, R1 i j -> quiet (plist (RUN A a) (RUN _ s) k i) ->
  exists o, evl (g_body m) _ a s j o /\ psim (plist (RUN A a) (RUN _ s) k i) o.
Proof.
  intros Ha Hs. induction k as [|k IH]; intros i j K; cbn [plist]; intros N; revert N; pgo Hs; cbn [quiet]; intros N; try contradiction; try (fin; fail); revert N; pgo Ha; cbn [quiet]; intros N; try contradiction; try (fin; fail).
  pose proof (IH _ _ X0) as Y. pose proof (plist_nofail (RUN A a) (RUN _ s) k r0) as Nf.
  destruct (plist (RUN A a) (RUN _ s) k r0) as [vs r1|r1|x1|]; [|now specialize (Nf r1)|contradiction|contradiction]. destruct (Y I) as (o & S' & Y'); destruct o; cbn [psim] in Y'; try contradiction.
  destruct Y' as [<- Y']. fin.
Qed.
Lemma pg_list {A : Set} (a : PE A) s : pg a -> pg s -> pg (PList a s).
Proof.
  intros Ha Hs i j K N. revert N. rewrite run_List. pgo Ha; cbn [quiet]; intros N; try contradiction; [|fin].
  pose proof (pg_plist a s Ha Hs (length r) r rest X) as Y. pose proof (plist_nofail (RUN A a) (RUN _ s) (length r) r) as Nf.
  destruct (plist (RUN A a) (RUN _ s) (length r) r) as [vs r1|r1|x1|]; [|now specialize (Nf r1)|contradiction|contradiction]. destruct (Y I) as (o & S' & Y'); destruct o; cbn [psim] in Y'; try contradiction.
  destruct Y' as [<- Y']. fin.
Qed.
Lemma pg_lit nc s : last_dark s = true -> landb s = true -> pg (PLit nc s).
Proof.
  intros D La i j K N. apply R1_skip in K. rewrite run_Lit in *. pose proof K as ((w & W & Ej) & At). destruct (strip nc s (skip i)) as [[u r]|] eqn:E.
  - eexists. split; [eapply ev_lit_ok; rewrite Ej, strip_app by assumption; rewrite E; reflexivity|]. split; [reflexivity|].
    apply (strip_land _ _ _ _ _ La) in E as [E S]. rewrite E in At. now apply R1_app with u.
  - eexists. split; [eapply ev_lit_no; rewrite Ej, strip_app by assumption; now rewrite E|]. exact K.
Qed.
Lemma R1_lands e acc i j a r r' : R1 i j -> lands e -> sev e acc i (SOk a r) -> R r r' -> R1 r r'.
Proof. intros [K At] La S Rr. split; [exact Rr|]. apply La in S as (c & -> & S). now apply (at_move c). Qed.
Lemma pg_lex e : sgo true e -> lands e -> pg (PLex e).
Proof.
  intros H La i j K. apply R1_skip in K. rewrite run_Lex. unfold lex. destruct (srun e [] (skip i)) as [v r|v|x|] eqn:E; intros N; try contradiction;
    (assert (S : sev e [] (skip i) (srun e [] (skip i))) by (apply srun_sev; rewrite E; discriminate)); rewrite E in S; destruct (H _ _ _ _ (proj1 K) (at_closed _ (proj2 K)) S I) as (o & S' & X); destruct o; cbn [osim] in X; try contradiction.
  - destruct X as [<- X]. eexists. split; [econstructor; eassumption|]. split; [reflexivity|]. eapply R1_lands; eassumption.
  - eexists. split; [eapply ev_lex_no; eassumption|]. exact K.
Qed.
Lemma pg_olex e : sgo false e -> lands e -> pg (POptLex e).
Proof.
  intros H La i j K. apply R1_skip in K. rewrite run_OptLex. destruct (srun e [] (skip i)) as [v r|v|x|] eqn:E; intros N; try contradiction;
    (assert (S : sev e [] (skip i) (srun e [] (skip i))) by (apply srun_sev; rewrite E; discriminate)); rewrite E in S; destruct (H _ _ _ _ (proj1 K) (at_closed _ (proj2 K)) S I) as (o & S' & X); destruct o; cbn [osim] in X; try contradiction.
  - destruct X as [<- X]. eexists. split; [econstructor; eassumption|]. split; [reflexivity|]. eapply R1_lands; eassumption.
  - destruct X as [[=]|<-]. eexists. split; [eapply ev_olex_no; eassumption|]. now split.
Qed.
Lemma pg_dbl : pg PDbl.
Proof.
  intros i j K _. apply R1_skip in K. rewrite run_Dbl. pose proof K as ((w & W & Ej) & At). destruct (dbl (skip i)) as [[u r]|] eqn:E.
  - eexists. split; [eapply ev_dbl_ok; rewrite Ej, dbl_app by exact W; rewrite E; reflexivity|]. split; [reflexivity|]. apply dbl_land in E as [E S]. rewrite E in At. now apply R1_app with u.
  - eexists. split; [eapply ev_dbl_no; rewrite Ej, dbl_app by exact W; now rewrite E|exact K].
Qed.
Lemma pg_top : pg PTop.
Proof.
  intros i j K. apply R1_skip in K. rewrite run_Top. pose proof (run_ok (g_body m) n _ PTop (skip i)) as Su. rewrite run_Top, skip_skip in Su. pose proof K as ((w & W & Ej) & At).
  assert (U : ulong (skip j) = match ulong (skip i) with Some (v, r) => Some (v, r ++ w) | None => None end).
  { rewrite Ej. unfold ulong. rewrite digits_app by exact W. destruct (span is_digit (skip i)) as [ds r]. cbn [fst snd]. destruct (is_nil ds); [reflexivity|]. destruct (dec_value ds <? ull_mod)%N; reflexivity. }
  destruct (ulong (skip i)) as [[v r]|] eqn:E; [|intros _; eexists; split; [eapply ev_top_no; exact U|exact K]].
  destruct r as [|c r]; [intros []|]. destruct (is_space c) eqn:C; [|intros []]. intros _. eexists. split; [eapply ev_top_ok; [exact U|exact C]|]. split; [reflexivity|].
  destruct Su as (p & Su). rewrite Su in At. apply (R1_app p (c :: r) w At); [|exact W]. apply halt_stop, edge_halt. now apply space_no_id.
Qed.
(** A look at the next byte: only behind words, or in front of a word. *)
Definition ends {A : Set} (e : PE A) : Prop := forall i j v, R1 i j -> RUN A e i <> Ok v [].
Lemma ends_kw s : end_word s = true -> ends (kw s).
Proof.
  intros E i j v K H. apply R1_skip in K. unfold kw in H. rewrite run_Lit in H. destruct (strip true (L s) (skip i)) as [[u r]|] eqn:Es; [|discriminate]. injection H as _ ->.
  pose proof (strip_nc_upper _ _ _ _ E Es) as U. apply strip_nc_iff in Es as [Es _]. rewrite app_nil_r in Es. apply (at_closed _ (proj2 K)). rewrite Es. now apply (end_word_open s).
Qed.
Lemma ends_seq {A B : Set} (a : PE A) (b : PE B) : pg a -> ends b -> ends (PSeq a b).
Proof.
  intros Ha Hb i j v K H. rewrite run_Seq in H. pose proof (Ha i j K) as X. destruct (RUN A a i) as [va r| | |] eqn:Ea; try discriminate. destruct (X I) as (o & _ & Y). destruct o; cbn in Y; try contradiction.
  destruct (RUN B b r) as [vb r'| | |] eqn:Eb; try discriminate. injection H as _ ->. exact (Hb _ _ _ (proj2 Y) Eb).
Qed.
Lemma space_more {c r j w} : R1 (c :: r) j -> is_space c = w -> exists t, j = c :: t.
Proof. intros ((x & _ & ->) & _) _. cbn. eauto. Qed.
Lemma ends_space_kw {A : Set} (a : PE A) s : pg a -> end_word s = true -> ends (PSeq (PSeq a PSpace) (kw s)).
Proof.
  intros Ha E i j v K H. rewrite !run_Seq in H. pose proof (Ha i j K) as X. destruct (RUN A a i) as [va r| | |] eqn:Ea; try discriminate. destruct (X I) as (o & _ & Y). destruct o; cbn in Y; try contradiction.
  rewrite run_Space in H. destruct r as [|c r]; [discriminate|]. destruct (is_space c) eqn:C; [|discriminate].
  destruct (RUN _ (kw s) (c :: r)) as [vb r'| | |] eqn:Eb; try discriminate. injection H as _ ->. exact (ends_kw s E _ _ _ (proj2 Y) Eb).
Qed.
Lemma pg_seq_space {A : Set} (a : PE A) : pg a -> ends a -> pg (PSeq a PSpace).
Proof.
  intros Ha He i j K N. revert N. rewrite run_Seq. pose proof (He i j) as He'. revert He'. pgo Ha; cbn [quiet]; intros He' N; try contradiction; [|fin].
  revert N. rewrite run_Space. destruct r as [|c r]; [exfalso; eapply He'; eauto|]. destruct (space_more X eq_refl) as (t & ->).
  destruct (is_space c) eqn:C; intros _; (eexists; split; [first [eapply ev_seq_ok; [eassumption|now constructor]|eapply ev_seq_no2; [eassumption|now constructor]]|]); cbn [psim]; auto.
Qed.
Lemma pg_exp_space {A : Set} (a : PE A) : pg a -> pg (PExp a PSpace).
Proof.
  intros Ha i j K N. revert N. rewrite run_Exp. pgo Ha; cbn [quiet]; intros N; try contradiction; [|fin].
  revert N. rewrite run_Space. destruct r as [|c r]; [intros []|]. destruct (space_more X eq_refl) as (t & ->).
  destruct (is_space c) eqn:C; [|intros []]. intros _. eexists. split; [eapply ev_exp_ok; [eassumption|now constructor]|]. cbn [psim]; auto.
Qed.
Lemma skip_white w : white w -> skip w = [].
Proof. induction 1 as [|c w C _ IH]; [reflexivity|]. cbn. now rewrite C. Qed.
Lemma pg_space_kw {A : Set} (a : PE A) s : pg a -> last_dark (L s) = true -> landb (L s) = true -> L s <> [] -> pg (PSeq (PSeq a PSpace) (kw s)).
Proof.
  intros Ha D La Ne i j K N. revert N. rewrite !run_Seq. pgo Ha; cbn [quiet]; intros N; try contradiction; [|eexists; split; [eapply ev_seq_no, ev_seq_no; eassumption|exact K]].
  revert N. rewrite run_Space. destruct r as [|c r].
  - intros _. destruct X as ((w & W & ->) & _). cbn [app] in S. destruct w as [|c w]; [eexists; split; [eapply ev_seq_no, ev_seq_no2; [eassumption|constructor]|exact K]|].
    eexists. split; [eapply ev_seq_no2; [eapply ev_seq_ok; [eassumption|apply ev_space_ok; now inversion W]|]|exact K]. apply ev_lit_no. rewrite skip_white by exact W. destruct (L s); [contradiction|reflexivity].
  - pose proof X as X'. destruct (space_more X eq_refl) as (t & ->). destruct (is_space c) eqn:C; [|intros _; eexists; split; [eapply ev_seq_no, ev_seq_no2; [eassumption|now constructor]|exact K]].
    assert (Hk : pg (kw s)) by now apply pg_lit. pgo Hk; cbn [quiet]; intros N; try contradiction.
    + eexists. split; [eapply ev_seq_ok; [eapply ev_seq_ok; [eassumption|now constructor]|eassumption]|]. now split.
    + eexists. split; [eapply ev_seq_no2; [eapply ev_seq_ok; [eassumption|now constructor]|eassumption]|exact K].
Qed.

Lemma sg_tvf_head : sg true s_tvf_head.
Proof.
  apply sg_lax, sg_hold, sg_lax. apply sg_seq; [apply sg_lit; reflexivity|]. apply sg_seq; [|apply sg_lit; reflexivity].
  apply sg_seq; [apply sg_chr; reflexivity|apply sg_star, sg_chr; reflexivity].
Qed.
Lemma sg_pqi : sg true s_pqi.
Proof. apply sg_lax, sg_seq; [apply sg_chr; reflexivity|apply sg_star, sg_chr; reflexivity]. Qed.
Lemma sg_udf : sg true s_udf_name.
Proof. apply sg_lax, sg_alt; [apply sg_regular|apply sg_strs; reflexivity]. Qed.
Lemma sg_arith : sg true s_arithmetic_operator.
Proof. apply sg_lax. repeat apply sg_alt; apply sg_chr; reflexivity. Qed.
Lemma sg_flag : sg true s_char_flag.
Proof. apply sg_lax. repeat apply sg_alt; apply sg_chr; reflexivity. Qed.
Lemma sg_not_in : sg false (SExp (SStr true (L "NOT")) (SChr is_space)).
Proof. apply sg_hard1, sg_str. reflexivity. Qed.

Lemma lands_literal : lands s_unsigned_literal.
Proof. apply lands_alt; [apply lands_numeric|]. apply lands_alt; [apply lands_string|apply lands_strs; vm_compute; reflexivity]. Qed.
Lemma lands_udf : lands s_udf_name.
Proof. apply lands_alt; [apply halts_lands, halts_regular|apply lands_strs; vm_compute; reflexivity]. Qed.
Lemma lands_arith : lands s_arithmetic_operator.
Proof. repeat apply lands_alt; apply halts_lands, halts_one; reflexivity. Qed.
Lemma lands_flag : lands s_char_flag.
Proof. repeat apply lands_alt; apply halts_lands, halts_one; reflexivity. Qed.
Lemma lands_not_in : lands (SExp (SStr true (L "NOT")) (SChr is_space)).
Proof. apply halts_lands, halts_exp, halts_chr. intros c C. unfold firm_charb. now rewrite space_no_id. Qed.
Lemma lands_pqi : lands s_pqi.
Proof. apply halts_lands, halts_seq, halts_many. now intros c ->. Qed.
Lemma lands_tvf : lands s_tvf_head.
Proof.
  apply halts_lands, halts_hold, halts_seq, halts_seq. intros acc i v r S. inversion S; subst. match goal with E : strip _ _ _ = _ |- _ => rename E into X end.
  eexists. split; [apply (strip_rest _ _ _ _ _ X)|]. rewrite (strip_exact _ _ _ _ X). apply firm_halt. exists ["("%char], "'"%char. split; [reflexivity|now left].
Qed.

(** ** The grammar *)
Ltac sgf := first [apply sg_kw_soft; reflexivity|apply sg_kws_soft; reflexivity|apply sg_held; reflexivity|apply sg_sgo; first [apply sg_unsigned|apply sg_sign|apply sg_not_in|apply sg_bool
  |apply sg_kw_hard; reflexivity|apply sg_kws_hard; reflexivity|apply sg_strs; reflexivity|apply sg_strs_cs; reflexivity|apply sg_chr; reflexivity|apply sg_tap]].
Ltac sgt := first [apply sg_sgo; first [apply sg_identifier|apply sg_table|apply sg_qstar|apply sg_literal|apply sg_tvf_head|apply sg_pqi|apply sg_udf|apply sg_arith|apply sg_flag]|apply sgo_lax; sgf].
Ltac lnd := first [apply halts_lands; first [apply halts_then|apply halts_hard|apply halts_held_space|apply halts_held_nonid|apply halts_one; reflexivity|apply halts_identifier|apply halts_table|apply halts_tap|apply halts_qstar|apply halts_digits]
  |apply lands_strs; vm_compute; reflexivity|apply lands_strs_cs; vm_compute; reflexivity|apply lands_sign|apply lands_literal|apply lands_udf|apply lands_arith|apply lands_flag|apply lands_not_in|apply lands_pqi|apply lands_tvf].
Ltac headof e := match e with ?f _ => headof f | _ => e end.
Ltac gr1 := match goal with
  | |- pg (lit _) => apply pg_lit; vm_compute; reflexivity
  | |- pg (kw _) => apply pg_lit; vm_compute; reflexivity
  | |- pg ident => apply pg_lex; [apply sg_sgo, sg_identifier|apply halts_lands, halts_identifier]
  | |- pg (PLex _) => apply pg_lex; [sgt|lnd]
  | |- pg (POptLex _) => apply pg_olex; [sgf|lnd]
  | |- pg PDbl => apply pg_dbl
  | |- pg PTop => apply pg_top
  | |- pg (PRet _) => apply pg_ret
  | |- pg (PSeq (PSeq _ PSpace) (kw _)) => apply pg_space_kw; [|reflexivity|vm_compute; reflexivity|discriminate]
  | |- pg (PSeq _ PSpace) => apply pg_seq_space; [|first [apply ends_kw; reflexivity|apply ends_space_kw; [|reflexivity]|apply ends_seq; [|apply ends_kw; reflexivity]]]
  | |- pg (PExp _ PSpace) => apply pg_exp_space
  | |- pg (PSeq _ _) => apply pg_seq
  | |- pg (PExp _ _) => apply pg_exp
  | |- pg (PAlt _ _) => apply pg_alt
  | |- pg (POpt _) => apply pg_opt
  | |- pg (PStar _) => apply pg_star
  | |- pg (PPlus _) => apply pg_plus
  | |- pg (PList _ _) => apply pg_list
  | |- pg (PMap _ _) => apply pg_map
  | |- pg ?e => let h := headof e in unfold h
  end.
Ltac gr := repeat first [assumption|gr1].
Section Rules.
Hypothesis Hr : forall r, pg (PRule r).
Lemma w_colref : pg (g_column_reference m). Proof. gr. Qed.
Hint Resolve w_colref : wdb.
Ltac gs := repeat first [assumption|exact (Hr R_ve)|exact (Hr R_venb)|exact (Hr R_sc)|exact (Hr R_subq)|exact (Hr R_jt)|exact (Hr R_tref)|solve [eauto 1 with wdb nocore]|gr1].
Lemma w_csae : pg (g_csae m). Proof. gs. Qed.
Lemma w_coord : pg (g_coord m). Proof. pose proof w_csae. gs. Qed.
Lemma w_point : pg (g_point m). Proof. pose proof w_coord. gs. Qed.
Lemma w_shape : pg (g_shape m). Proof. pose proof w_coord. pose proof w_csae. pose proof w_point. gs. Qed.
Lemma w_geometry : pg (g_geometry m). Proof. pose proof w_shape. gs. Qed.
Lemma w_nvf : pg (g_numeric_value_function m). Proof. pose proof w_point. gs. Qed.
Lemma w_vep : pg (g_value_expression_primary m). Proof. gs. Qed.
Lemma w_factor : pg (g_factor m). Proof. pose proof w_vep. pose proof w_nvf. gs. Qed.
Lemma w_venb : pg (g_value_expression_non_bool m). Proof. pose proof w_factor. gs. Qed.
Lemma w_pred : pg g_predicate. Proof. gs. Qed.
Lemma w_sc : pg g_search_condition. Proof. pose proof w_pred. gs. Qed.
Lemma w_jt : pg (g_joined_table m). Proof. gs. Qed.
Lemma w_tref : pg (g_table_reference m). Proof. gs. Qed.
Lemma w_query w : pg w -> pg (g_query_gen m w).
Proof. intros Hw. gs. Qed.
Lemma w_body r : pg (g_body m r).
Proof.
  destruct r; cbn [g_body]; [gs|apply w_venb|apply w_sc| |apply w_jt|apply w_tref].
  assert (X : pg (g_query_no_geometry m)) by (apply w_query; gs). gs.
Qed.
Lemma w_top : pg (g_query m).
Proof. apply w_query. pose proof w_geometry. gs. Qed.
End Rules.
End Peg.

Lemma rules_sim T m n : ~ open_end T -> forall r, pg T m n (PRule r).
Proof.
  intros HT. induction n as [|n IH]; intros r i j K N; [now rewrite run_Rule_0 in N|]. rewrite run_Rule in *.
  destruct (w_body T HT m n IH r i j K N) as (o & S & X). exists o. split; [now apply ev_rule|exact X].
Qed.
Lemma query_sim T m n : ~ open_end T -> pg T m n (g_query m).
Proof. intros HT. apply w_top, rules_sim; exact HT. Qed.
