(** White space between words does not matter: the rules with skipper (C37). *)
From Verif Require Import Query PegProps PegSpec PegEquiv TextLemmas LexProofs Spec SpecWhite WhiteLex Invert.

Definition psim {A : Set} (R R' : rel) (o o' : out A) : Prop :=
  match o, o' with
  | Ok v r, Ok v' r' => v = v' /\ R' r r'
  | Fail r, Fail r' => R r r'
  | Throw x, Throw x' => xsim x x'
  | _, _ => False
  end.

Section Peg.
Variable m : text -> option text.
Notation EV := (ev (g_body m)).
Variable n : nat.
Notation RUN := (run (g_body m) n).
(** what [e] does on [i], it does on [j] *)
Definition pg {A : Set} (R R' : rel) (e : PE A) : Prop :=
  forall i j, R i j -> RUN A e i <> OOF -> exists o, EV A e j o /\ psim R R' (RUN A e i) o.

Ltac pgo H := match type of H with pg ?R _ ?e => match goal with K : R ?i ?j |- context [RUN ?A e ?i] =>
  let X := fresh "X" in let o := fresh "o" in let S := fresh "S" in pose proof (H i j K) as X; destruct (RUN A e i) as [?v ?r|?r|?x|]; [..|congruence];
  specialize (X ltac:(discriminate)) as (o & S & X); destruct o; cbn [psim] in X; try contradiction;
  match type of X with _ = _ /\ _ => destruct X as [<- X] | _ => idtac end end end.
Ltac fin := eexists; split; [econstructor; eassumption|cbn [psim xsim]; auto].

Lemma pg_seq {A B : Set} (R R1 R2 : rel) (a : PE A) (b : PE B) : pg R R1 a -> pg R1 R2 b -> pg R R2 (PSeq a b).
Proof.
  intros Ha Hb i j K N. revert N. rewrite run_Seq. pgo Ha; intros N; [|fin|fin]. revert N. pgo Hb; intros N; fin.
Qed.
Lemma pg_exp {A B : Set} (R R1 R2 : rel) (a : PE A) (b : PE B) : pg R R1 a -> pg R1 R2 b -> pg R R2 (PExp a b).
Proof.
  intros Ha Hb i j K N. rewrite run_Exp in *. revert N. pgo Ha; intros N; [|fin|fin]. revert N. pgo Hb; intros N; fin.
Qed.
Lemma pg_alt {A : Set} (R R1 : rel) (a b : PE A) : pg R R1 a -> pg R R1 b -> pg R R1 (PAlt a b).
Proof.
  intros Ha Hb i j K N. rewrite run_Alt in *. revert N. pgo Ha; intros N; [fin| |fin]. destruct (Hb _ _ X N) as (o' & S' & Y). exists o'. split; [|exact Y]. econstructor; eassumption.
Qed.
Lemma pg_opt {A : Set} (R : rel) (a : PE A) : pg R R a -> pg R R (POpt a).
Proof. intros Ha i j K N. rewrite run_Opt in *. revert N. pgo Ha; intros N; fin. Qed.
Lemma pg_map {A B : Set} (R R1 : rel) (f : A -> B) (a : PE A) : pg R R1 a -> pg R R1 (PMap f a).
Proof. intros Ha i j K N. rewrite run_Map in *. revert N. pgo Ha; intros N; fin. Qed.
Lemma pg_ret {A : Set} (R : rel) (v : A) : pg R R (PRet v).
Proof. intros i j K N. exists (Ok v j). split; [constructor|]. rewrite run_Ret. now split. Qed.
Lemma pg_pstar {A : Set} (R : rel) (a : PE A) : pg R R a -> forall k i j, R i j -> pstar (RUN A a) k i <> OOF -> exists o, EV _ (PStar a) j o /\ psim R R (pstar (RUN A a) k i) o.
Proof.
  intros Ha. induction k as [|k IH]; intros i j K; cbn [pstar]; intros N; revert N; pgo Ha; intros N; try congruence; try (fin; fail).
  destruct (IH _ _ X) as (o & S' & Y); [intros E; now rewrite E in N|]. pose proof (pstar_nofail (RUN A a) k r) as Nf.
  destruct (pstar (RUN A a) k r) as [vs r1|r1|x1|]; [|now specialize (Nf r1)| |congruence]; destruct o; cbn [psim] in Y; try contradiction.
  - destruct Y as [<- Y]. fin.
  - eexists. split; [eapply ev_star_th2; eassumption|exact Y].
Qed.
Lemma pg_star {A : Set} (R : rel) (a : PE A) : pg R R a -> pg R R (PStar a).
Proof. intros Ha i j K N. rewrite run_Star in *. now apply pg_pstar. Qed.
Lemma pg_plus {A : Set} (R : rel) (a : PE A) : pg R R a -> pg R R (PPlus a).
Proof.
  intros Ha i j K N. rewrite run_Plus in *. revert N. pgo Ha; intros N; [|fin|fin].
  destruct (pg_pstar R a Ha (length r) r rest X) as (o & S' & Y); [intros E; now rewrite E in N|]. pose proof (pstar_nofail (RUN A a) (length r) r) as Nf.
  destruct (pstar (RUN A a) (length r) r) as [vs r1|r1|x1|]; [|now specialize (Nf r1)| |congruence]; destruct o; cbn [psim] in Y; try contradiction.
  - destruct Y as [<- Y]. fin.
  - eexists. split; [eapply ev_plus_th2; eassumption|exact Y].
Qed.
Lemma pg_plist {A : Set} (R R1 : rel) (a : PE A) s : pg R1 R a -> pg R R1 s -> forall k i j, R i j -> plist (RUN A a) (RUN _ s) k i <> OOF ->
  exists o, evl (g_body m) _ a s j o /\ psim R R (plist (RUN A a) (RUN _ s) k i) o.
Proof.
  intros Ha Hs. induction k as [|k IH]; intros i j K; cbn [plist]; intros N; revert N; pgo Hs; intros N; try (fin; fail); revert N; pgo Ha; intros N; try congruence; try (fin; fail).
  destruct (IH _ _ X0) as (o & S' & Y); [intros E; now rewrite E in N|]. pose proof (plist_nofail (RUN A a) (RUN _ s) k r0) as Nf.
  destruct (plist (RUN A a) (RUN _ s) k r0) as [vs r1|r1|x1|]; [|now specialize (Nf r1)| |congruence]; destruct o; cbn [psim] in Y; try contradiction.
  - destruct Y as [<- Y]. fin.
  - eexists. split; [eapply evl_more_th; eassumption|exact Y].
Qed.
Lemma pg_list {A : Set} (R R1 : rel) (a : PE A) s : pg R R a -> pg R1 R a -> pg R R1 s -> pg R R (PList a s).
Proof.
  intros Ha Ha1 Hs i j K N. rewrite run_List in *. revert N. pgo Ha; intros N; [|fin|fin].
  destruct (pg_plist R R1 a s Ha1 Hs (length r) r rest X) as (o & S' & Y); [intros E; now rewrite E in N|]. pose proof (plist_nofail (RUN A a) (RUN _ s) (length r) r) as Nf.
  destruct (plist (RUN A a) (RUN _ s) (length r) r) as [vs r1|r1|x1|]; [|now specialize (Nf r1)| |congruence]; destruct o; cbn [psim] in Y; try contradiction.
  - destruct Y as [<- Y]. fin.
  - eexists. split; [eapply ev_list_th2; eassumption|exact Y].
Qed.
Lemma pg_lit (R R1 : rel) nc s : (forall i j, R i j -> R (skip i) (skip j)) -> (forall i j, R i j -> strip_sim R1 (strip nc s i) (strip nc s j)) -> pg R R1 (PLit nc s).
Proof.
  intros Sk H i j K N. rewrite run_Lit in *. specialize (H _ _ (Sk _ _ K)).
  destruct (strip nc s (skip i)) as [[? r]|] eqn:Ei, (strip nc s (skip j)) as [[? r']|] eqn:Ej; cbn in H; try contradiction.
  - eexists. split; [econstructor; eassumption|]. now split.
  - eexists. split; [eapply ev_lit_no; eassumption|]. cbn. auto.
Qed.
Lemma pg_lex (R R1 : rel) e : (forall i j, R i j -> R (skip i) (skip j)) -> sgood R R1 e -> pg R R1 (PLex e).
Proof.
  intros Sk H i j K N. rewrite run_Lex in *. unfold lex in *. destruct (srun e [] (skip i)) as [v r|v|x|] eqn:E; [..|congruence];
    (assert (S : sev e [] (skip i) (srun e [] (skip i))) by (apply srun_sev; rewrite E; discriminate)); rewrite E in S; destruct (H _ _ _ _ (Sk _ _ K) S) as (o & S' & X); destruct o; cbn [osim] in X; try contradiction.
  - destruct X as [<- X]. eexists. split; [econstructor; eassumption|]. now split.
  - subst. eexists. split; [eapply ev_lex_no; eassumption|]. cbn. auto.
  - eexists. split; [eapply ev_lex_th; eassumption|]. exact X.
Qed.
Lemma pg_olex (R : rel) e : (forall i j, R i j -> R (skip i) (skip j)) -> sgood R R e -> pg R R (POptLex e).
Proof.
  intros Sk H i j K N. rewrite run_OptLex in *. destruct (srun e [] (skip i)) as [v r|v|x|] eqn:E; [..|congruence];
    (assert (S : sev e [] (skip i) (srun e [] (skip i))) by (apply srun_sev; rewrite E; discriminate)); rewrite E in S; destruct (H _ _ _ _ (Sk _ _ K) S) as (o & S' & X); destruct o; cbn [osim] in X; try contradiction.
  - destruct X as [<- X]. eexists. split; [econstructor; eassumption|]. now split.
  - subst. eexists. split; [eapply ev_olex_no; eassumption|]. cbn. auto.
  - eexists. split; [eapply ev_olex_th; eassumption|]. exact X.
Qed.
Lemma pg_weak {A : Set} (R R1 R1' : rel) (e : PE A) : (forall i j, R1 i j -> R1' i j) -> pg R R1 e -> pg R R1' e.
Proof.
  intros W H i j K N. destruct (H i j K N) as (o & S & X). exists o. split; [exact S|]. destruct (RUN A e i), o; cbn in *; auto. destruct X; auto.
Qed.

(** ** Numbers *)
Definition pair_sim (x y : text * text) : Prop := fst x = fst y /\ spaced (snd x) (snd y).
Lemma span_sim f : (forall c, f c = true -> plain c = true) -> forall i j, spaced i j -> pair_sim (span f i) (span f j).
Proof.
  intros F i. assert (NF : forall c, plain c = false -> f c = false) by (intros c P; destruct (f c) eqn:E; [apply F in E; congruence|reflexivity]).
  induction i as [|c i IH]; intros j K; pose proof (spaced_view _ _ K) as V; inversion V as [t|c' i' j' P N K' R|c' d i' j' C D|q b i' j' Q B K' R]; subst; try (split; [reflexivity|constructor]).
  - cbn [span]. destruct (f c); [|split; [reflexivity|exact K]]. specialize (IH _ R). destruct (span f i), (span f j'); unfold pair_sim in *; cbn [fst snd] in *. destruct IH as [-> IH]. now split.
  - cbn [span]. rewrite !NF by now apply space_plain. now split.
  - cbn [span]. rewrite !NF by now apply quote_plain. now split.
Qed.
Lemma digits_sim i j : spaced i j -> pair_sim (span is_digit i) (span is_digit j).
Proof. apply span_sim. apply cls. vm_compute. reflexivity. Qed.
Lemma pg_space : pg spaced spaced PSpace.
Proof.
  intros i j K _. rewrite run_Space. destruct (spaced_view _ _ K) as [t|c i j P N K' R|c d i j C D|q b i j Q B K' R].
  - destruct t as [|c t]; [eexists; split; [constructor|constructor]|]. destruct (is_space c) eqn:C; (eexists; split; [now constructor|]); cbn; auto.
  - apply plain_iff in P as (C & _). rewrite C. eexists. split; [now constructor|]. exact K.
  - rewrite C. eexists. split; [now constructor|]. now split.
  - assert (C : is_space q = false) by (destruct Q as [-> | ->]; reflexivity). rewrite C. eexists. split; [now constructor|]. exact K.
Qed.
Lemma pg_top : pg spaced spaced PTop.
Proof.
  intros i j K _. rewrite run_Top. pose proof (spaced_skip _ _ K) as Ks. pose proof (digits_sim _ _ Ks) as [E R].
  destruct (ulong (skip i)) as [[v r]|] eqn:U.
  - assert (exists r', ulong (skip j) = Some (v, r') /\ spaced r r') as (r' & U' & Rr).
    { unfold ulong in *. destruct (span is_digit (skip i)) as [ds ri], (span is_digit (skip j)) as [ds' rj]. cbn [fst snd] in *. subst ds'.
      destruct (is_nil ds); [discriminate|]. destruct (dec_value ds <? ull_mod)%N; [|discriminate]. injection U as <- <-. eauto. }
    destruct (spaced_view _ _ Rr) as [t|c a b P N K' R'|c d a b C D|q b a a' Q B K' R'].
    + destruct t as [|c t]; [eexists; split; [eapply ev_top_end; eassumption|exact I]|]. destruct (is_space c) eqn:C.
      * eexists. split; [eapply ev_top_ok; eassumption|]. split; [reflexivity|constructor].
      * eexists. split; [eapply ev_top_unmet; eassumption|exact I].
    + apply plain_iff in P as (C & _). rewrite C. eexists. split; [eapply ev_top_unmet; eassumption|exact I].
    + rewrite C. eexists. split; [eapply ev_top_ok; eassumption|]. now split.
    + assert (C : is_space q = false) by (destruct Q as [-> | ->]; reflexivity). rewrite C. eexists. split; [eapply ev_top_unmet; eassumption|exact I].
  - eexists. split; [eapply ev_top_no|exact Ks]. unfold ulong in *. destruct (span is_digit (skip i)) as [ds ri], (span is_digit (skip j)) as [ds' rj]. cbn [fst snd] in *. subst ds'.
    destruct (is_nil ds); [reflexivity|]. destruct (dec_value ds <? ull_mod)%N; [discriminate|reflexivity].
Qed.
Lemma dbl_exp_sim i j : spaced i j -> pair_sim (dbl_exp i) (dbl_exp j).
Proof.
  intros K. destruct (spaced_view _ _ K) as [t|c i j P N K' R|c d i j C D|q b i j Q B K' R].
  - split; [reflexivity|constructor].
  - cbn [dbl_exp]. destruct (Ascii.eqb c "e" || Ascii.eqb c "E"); [|now split].
    set (f := fun i1 : text => match i1 with s :: i' => if Ascii.eqb s "+" || Ascii.eqb s "-" then ([s], i') else ([], i1) | [] => ([], i1) end).
    assert (X : pair_sim (f i) (f j)).
    { unfold f. destruct (spaced_view _ _ R) as [t|s a a' P' N' K2 R'|s d a a' C D|q b a a' Q B K2 R'].
      - split; [reflexivity|constructor].
      - destruct (Ascii.eqb s "+" || Ascii.eqb s "-"); now split.
      - assert (H : forall s, is_space s = true -> Ascii.eqb s "+" || Ascii.eqb s "-" = false).
        { intros x Hx. destruct (Ascii.eqb_spec x "+") as [-> |]; [discriminate|]. destruct (Ascii.eqb_spec x "-") as [-> |]; [discriminate|reflexivity]. }
        rewrite !H by assumption. now split.
      - assert (Ascii.eqb q "+" || Ascii.eqb q "-" = false) as -> by (destruct Q as [-> | ->]; reflexivity). now split. }
    fold f. change (match i with | [] => ([], i) | s :: i' => if Ascii.eqb s "+" || Ascii.eqb s "-" then ([s], i') else ([], i) end) with (f i).
    change (match j with | [] => ([], j) | s :: i' => if Ascii.eqb s "+" || Ascii.eqb s "-" then ([s], i') else ([], j) end) with (f j).
    destruct (f i) as [sg i2], (f j) as [sg' j2], X as [E X]. cbn [fst snd] in *. subst sg'.
    pose proof (digits_sim _ _ X) as Y. destruct (span is_digit i2) as [ds i3], (span is_digit j2) as [ds' j3], Y as [E Y]. cbn [fst snd] in *. subst ds'.
    destruct (is_nil ds); now split.
  - assert (H : forall s, is_space s = true -> Ascii.eqb s "e" || Ascii.eqb s "E" = false).
    { intros x Hx. destruct (Ascii.eqb_spec x "e") as [-> |]; [discriminate|]. destruct (Ascii.eqb_spec x "E") as [-> |]; [discriminate|reflexivity]. }
    cbn [dbl_exp]. rewrite !H by assumption. now split.
  - cbn [dbl_exp]. assert (Ascii.eqb q "e" || Ascii.eqb q "E" = false) as -> by (destruct Q as [-> | ->]; reflexivity). now split.
Qed.
Definition special (i : text) : option (text * text) :=
    match strip true (L "nan") i with
    | Some (m, "("%char :: r) =>
        let (body, r') := span (fun c => negb (Ascii.eqb c ")")) r in
        match r' with
        | _ :: r'' => Some (m ++ "("%char :: body ++ [")"%char], r'')
        | [] => None
        end
    | Some (m, r) => Some (m, r)
    | None =>
        match strip true (L "inf") i with
        | Some (m, r) =>
            match strip true (L "inity") r with
            | Some (m', r') => Some (m ++ m', r')
            | None => Some (m, r)
            end
        | None => None
        end
    end.
Definition decimal (ds i1 : text) : option (text * text) :=
      match i1 with
      | "."%char :: i2 =>
          let (fs, i3) := span is_digit i2 in
          if is_nil ds && is_nil fs then None
          else let (ex, i4) := dbl_exp i3 in Some (ds ++ "."%char :: fs ++ ex, i4)
      | _ =>
          if is_nil ds then None
          else let (ex, i4) := dbl_exp i1 in Some (ds ++ ex, i4)
      end.
Lemma dbl_unsigned_eq i : dbl_unsigned i = let (ds, i1) := span is_digit i in match (if is_nil ds then special i else None) with Some x => Some x | None => decimal ds i1 end.
Proof. reflexivity. Qed.
Lemma dot_eq {A} (f : text -> A) (g : A) i : (match i with "."%char :: r => f r | _ => g end) = match i with c :: r => if Ascii.eqb c "." then f r else g | [] => g end.
Proof. destruct i as [|c i]; [reflexivity|]. destruct (Ascii.eqb_spec c ".") as [-> |N]; [reflexivity|]. destruct c as [[] [] [] [] [] [] [] []]; try reflexivity; now destruct N. Qed.
Lemma paren_eq {A} (f : text -> A) (g : A) i : (match i with "("%char :: r => f r | _ => g end) = match i with c :: r => if Ascii.eqb c "(" then f r else g | [] => g end.
Proof. destruct i as [|c i]; [reflexivity|]. destruct (Ascii.eqb_spec c "(") as [-> |N]; [reflexivity|]. destruct c as [[] [] [] [] [] [] [] []]; try reflexivity; now destruct N. Qed.
Lemma decimal_sim ds i j : spaced i j -> strip_sim spaced (decimal ds i) (decimal ds j).
Proof.
  intros K. unfold decimal. rewrite !dot_eq.
  assert (D : strip_sim spaced (if is_nil ds then None else let (ex, i4) := dbl_exp i in Some (ds ++ ex, i4)) (if is_nil ds then None else let (ex, i4) := dbl_exp j in Some (ds ++ ex, i4))).
  { destruct (is_nil ds); [exact I|]. pose proof (dbl_exp_sim _ _ K) as X. destruct (dbl_exp i), (dbl_exp j), X as [E X]. cbn [fst snd] in *. subst. now split. }
  destruct (spaced_view _ _ K) as [t|c i j P N K' R|c d i j C D0|q b i j Q B K' R].
  - apply strip_refl, sp_same.
  - destruct (Ascii.eqb c "."); [|exact D]. pose proof (digits_sim _ _ R) as X. destruct (span is_digit i) as [fs i3], (span is_digit j) as [fs' j3], X as [E X]. cbn [fst snd] in *. subst fs'.
    destruct (is_nil ds && is_nil fs); [exact I|]. pose proof (dbl_exp_sim _ _ X) as Y. destruct (dbl_exp i3), (dbl_exp j3), Y as [E Y]. cbn [fst snd] in *. subst. now split.
  - assert (H : forall s, is_space s = true -> Ascii.eqb s "." = false) by (intros x Hx; apply Ascii.eqb_neq; intros ->; discriminate). rewrite !H by assumption. exact D.
  - assert (Ascii.eqb q "." = false) as -> by (destruct Q as [-> | ->]; reflexivity). exact D.
Qed.
Lemma special_sim i j : spaced i j -> strip_sim spaced (special i) (special j).
Proof.
  intros K. assert (Inf : strip_sim spaced
    (match strip true (L "inf") i with Some (m, r) => match strip true (L "inity") r with Some (m', r') => Some (m ++ m', r') | None => Some (m, r) end | None => None end)
    (match strip true (L "inf") j with Some (m, r) => match strip true (L "inity") r with Some (m', r') => Some (m ++ m', r') | None => Some (m, r) end | None => None end)).
  { pose proof (strip_spaced true (L "inf") eq_refl _ _ K) as X. destruct (strip true (L "inf") i) as [[a b]|], (strip true (L "inf") j) as [[a' b']|]; cbn [strip_sim] in X; try contradiction; [|exact I]. destruct X as [<- X].
    pose proof (strip_spaced true (L "inity") eq_refl _ _ X) as Y. destruct (strip true (L "inity") b) as [[c d]|], (strip true (L "inity") b') as [[c' d']|]; cbn [strip_sim] in Y; try contradiction; [|now split]. destruct Y as [<- Y]. now split. }
  unfold special. pose proof (strip_spaced true (L "nan") eq_refl _ _ K) as X. destruct (strip true (L "nan") i) as [[a b]|] eqn:Ei, (strip true (L "nan") j) as [[a' b']|] eqn:Ej; cbn [strip_sim] in X; try contradiction; [|exact Inf].
  destruct X as [<- X]. rewrite !paren_eq.
  destruct (spaced_view _ _ K) as [t|c i j P N K' R|c d i j C D|q w i j Q B K' R].
  - rewrite Ei in Ej. injection Ej as <-. apply strip_refl, sp_same.
  - assert (NP : match b with c :: _ => Ascii.eqb c "(" = false | [] => True end).
    { destruct b as [|x b]; [exact I|]. apply Ascii.eqb_neq. intros ->. apply N. apply strip_nc_iff in Ei as [Ei Ua]. exists (a ++ ["("%char]), b. split; [rewrite <- app_assoc; exact Ei|].
      unfold upper in *. rewrite map_app, Ua. reflexivity. }
    assert (NP' : match b' with c :: _ => Ascii.eqb c "(" = false | [] => True end).
    { destruct (spaced_view _ _ X) as [t|x u u' Px Nx Kx Rx|x d u u' Cx Dx|q w u u' Q B Kx Rx]; auto. destruct (Ascii.eqb_spec d "(") as [-> |]; [discriminate|reflexivity]. }
    destruct b as [|x b], b' as [|x' b']; rewrite ?NP, ?NP'; now split.
  - exfalso. cbn [L list_ascii_of_string strip eq_ch] in Ei. destruct (eq_nc "n" c) eqn:Eq; [|discriminate]. apply plain_nc in Eq; [|reflexivity]. rewrite space_plain in Eq; [discriminate|assumption].
  - exfalso. cbn [L list_ascii_of_string strip eq_ch] in Ei. destruct Q as [-> | ->]; discriminate.
Qed.
Lemma dbl_unsigned_sim i j : spaced i j -> strip_sim spaced (dbl_unsigned i) (dbl_unsigned j).
Proof.
  intros K. rewrite !dbl_unsigned_eq. pose proof (digits_sim _ _ K) as X. destruct (span is_digit i) as [ds i1], (span is_digit j) as [ds' j1], X as [E X]. cbn [fst snd] in *. subst ds'.
  destruct (is_nil ds); [|now apply decimal_sim]. pose proof (special_sim _ _ K) as Y. destruct (special i) as [[? ?]|], (special j) as [[? ?]|]; cbn [strip_sim] in Y; try contradiction; [exact Y|]. now apply decimal_sim.
Qed.
Lemma dbl_sim i j : spaced i j -> strip_sim spaced (dbl i) (dbl j).
Proof.
  intros K. pose proof (dbl_unsigned_sim _ _ K) as U. unfold dbl. destruct (spaced_view _ _ K) as [t|c i j P N K' R|c d i j C D|q b i j Q B K' R].
  - apply strip_refl, sp_same.
  - destruct (Ascii.eqb c "+" || Ascii.eqb c "-"); [|exact U]. pose proof (dbl_unsigned_sim _ _ R) as X. destruct (dbl_unsigned i) as [[? ?]|], (dbl_unsigned j) as [[? ?]|]; cbn [strip_sim] in X; try contradiction; [|exact I]. destruct X as [<- X]. now split.
  - assert (H : forall s, is_space s = true -> Ascii.eqb s "+" || Ascii.eqb s "-" = false).
    { intros x Hx. destruct (Ascii.eqb_spec x "+") as [-> |]; [discriminate|]. destruct (Ascii.eqb_spec x "-") as [-> |]; [discriminate|reflexivity]. }
    rewrite !H by assumption. exact U.
  - assert (Ascii.eqb q "+" || Ascii.eqb q "-" = false) as -> by (destruct Q as [-> | ->]; reflexivity). exact U.
Qed.
Lemma pg_dbl : pg spaced spaced PDbl.
Proof.
  intros i j K _. rewrite run_Dbl. pose proof (spaced_skip _ _ K) as Ks. pose proof (dbl_sim _ _ Ks) as X.
  destruct (dbl (skip i)) as [[u r]|] eqn:Ei, (dbl (skip j)) as [[u' r']|] eqn:Ej; cbn [strip_sim] in X; try contradiction.
  - destruct X as [<- X]. eexists. split; [econstructor; eassumption|]. now split.
  - eexists. split; [eapply ev_dbl_no; eassumption|]. exact Ks.
Qed.

(** ** Quoted parts *)
Lemma inq_skip q i j : isq q -> inq q i j -> inq q (skip i) (skip j).
Proof.
  intros Q [-> |(b & i' & j' & B & -> & -> & K)]; [now left|]. assert (Sq : is_space q = false) by (destruct Q as [-> | ->]; reflexivity).
  induction b as [|c b IH]; cbn [app skip].
  - rewrite Sq. right. exists [], i', j'. auto.
  - assert (B' : ~ In q b) by (intros I; apply B; now right). destruct (is_space c); [now apply IH|]. right. exists (c :: b), i', j'. auto.
Qed.
Lemma strip_inside q nc s : isq q -> forallb plain s = true -> forall i j, inq q i j -> strip_sim (inq q) (strip nc s i) (strip nc s j).
Proof.
  intros Q. induction s as [|a s IH]; intros P i j K; [cbn; auto|]. cbn [forallb] in P. apply andb_true_iff in P as [Pa P]. specialize (IH P).
  destruct K as [-> |(b & i' & j' & B & -> & -> & K)]; [apply strip_refl, inq_refl|]. destruct b as [|c b]; cbn [app strip].
  - destruct (eq_ch nc a q) eqn:E; [|exact I]. apply (plain_eq nc a q Pa) in E. rewrite quote_plain in E by exact Q. discriminate.
  - destruct (eq_ch nc a c); [|exact I]. specialize (IH _ _ (inq_cons _ _ _ _ _ B K)).
    destruct (strip nc s (b ++ q :: i')) as [[? ?]|], (strip nc s (b ++ q :: j')) as [[? ?]|]; cbn in *; try contradiction; auto. now destruct IH as [-> IH].
Qed.
Notation sq := (inq quote).
Lemma sq_skip i j : sq i j -> sq (skip i) (skip j).
Proof. apply inq_skip. now left. Qed.
Lemma pg_open : pg spaced sq (lit "'").
Proof. apply pg_lit; [apply spaced_skip|]. intros i j K. apply strip_quote; [now left|exact K]. Qed.
Lemma pg_close : pg sq spaced (lit "'").
Proof.
  apply pg_weak with (outq quote); [apply outq_spaced|]. apply pg_lit; [apply sq_skip|]. intros i j K. apply strip_unquote; [now left|exact K].
Qed.
Lemma pg_inside s : forallb plain (L s) = true -> pg sq sq (kw s).
Proof. intros P. apply pg_lit; [apply sq_skip|]. apply strip_inside; [now left|exact P]. Qed.
Lemma pg_coord_sys : pg spaced spaced g_coord_sys.
Proof.
  apply pg_map. eapply pg_seq; [|apply pg_close]. eapply pg_seq; [eapply pg_seq; [apply pg_open|]|]; apply pg_opt.
  - repeat apply pg_alt; apply pg_map, pg_inside; reflexivity.
  - apply pg_inside. reflexivity.
Qed.
Lemma weaken_out (o o' : option (text * text)) : strip_sim (outq quote) o o' -> strip_sim spaced o o'.
Proof. destruct o as [[? ?]|], o' as [[? ?]|]; cbn; auto. intros [? [? _]]. auto. Qed.
Lemma sg_tvf_head : sgood spaced sq s_tvf_head.
Proof.
  unfold s_tvf_head. apply sg_hold. eapply sg_seq; [apply sg_lit; reflexivity|]. eapply sg_seq; [eapply sg_seq; [apply sg_letter|apply sg_star; byte]|].
  apply sg_strip. apply (strip_seq spaced spaced sq); [apply strip_spaced; reflexivity|]. intros i j K. apply strip_quote; [now left|exact K].
Qed.
Lemma sq_pqi : sgood sq sq s_pqi.
Proof. eapply sg_seq; [now apply chr_inside|]. apply sg_star. now apply chr_inside. Qed.
Lemma pg_comma : pg sq sq (lit "','").
Proof.
  apply pg_lit; [apply sq_skip|]. apply (strip_seq sq spaced sq); [intros i j K; apply weaken_out, strip_unquote; [now left|exact K]|].
  apply (strip_seq spaced spaced sq); [apply strip_spaced; reflexivity|]. intros i j K. apply strip_quote; [now left|exact K].
Qed.
Lemma pg_end : pg sq spaced (lit "')").
Proof.
  apply pg_lit; [apply sq_skip|]. apply (strip_seq sq spaced spaced); [intros i j K; apply weaken_out, strip_unquote; [now left|exact K]|].
  apply strip_spaced. reflexivity.
Qed.
Lemma pg_lit0 s : forallb plain (L s) = true -> pg spaced spaced (lit s).
Proof. intros P. apply pg_lit; [apply spaced_skip|]. now apply strip_spaced. Qed.
Lemma pg_kw0 s : forallb plain (L s) = true -> pg spaced spaced (kw s).
Proof. intros P. apply pg_lit; [apply spaced_skip|]. now apply strip_spaced. Qed.
Lemma pg_lex0 e : sgood spaced spaced e -> pg spaced spaced (PLex e).
Proof. apply pg_lex, spaced_skip. Qed.
Lemma pg_olex0 e : sgood spaced spaced e -> pg spaced spaced (POptLex e).
Proof. apply pg_olex, spaced_skip. Qed.
Lemma pg_tvf : pg spaced spaced g_table_valued_function.
Proof.
  apply pg_map. eapply pg_seq; [|now apply pg_lit0]. eapply pg_seq; [|apply pg_end]. eapply pg_seq; [apply pg_lex; [apply spaced_skip|apply sg_tvf_head]|].
  apply pg_opt. apply pg_list with sq; [| |apply pg_comma]; apply pg_lex; (apply sq_skip || apply sq_pqi).
Qed.

(** ** NOT IN *)
Definition s_not_space : se := SExp (SStr true (L "NOT")) (SChr is_space).
Lemma kept_of i j v r r' : spaced i j -> forallb plain v = true -> v <> [] -> i = v ++ r -> j = v ++ r' -> i = j \/ kept i j.
Proof.
  intros K P N Ei Ej. destruct (spaced_view _ _ K) as [t|c a b Pc Nc K' R|c d a b C D|q b a a' Q B K' R]; auto; exfalso; destruct v as [|x v]; try contradiction; cbn [forallb] in P; apply andb_true_iff in P as [P _].
  - injection Ei as <- _. rewrite space_plain in P; [discriminate|assumption].
  - injection Ei as <- _. rewrite quote_plain in P; [discriminate|assumption].
Qed.
Lemma strip_plain nc s i u r : forallb plain s = true -> strip nc s i = Some (u, r) -> forallb plain u = true.
Proof.
  revert i u r. induction s as [|a s IH]; intros i u r P E; [injection E as <- _; reflexivity|]. cbn [forallb] in P. apply andb_true_iff in P as [Pa P].
  destruct i as [|c i]; [discriminate|]. cbn [strip] in E. destruct (eq_ch nc a c) eqn:Ec; [|discriminate]. destruct (strip nc s i) as [[u' r']|] eqn:Es; [|discriminate].
  injection E as <- <-. cbn [forallb]. rewrite (plain_eq nc a c Pa Ec). eapply IH; eauto.
Qed.
Lemma in_sim (A : Set) (a : PE A) : pg spaced spaced a -> pg spaced spaced (a >> POptLex s_not_space >> PLex (kw_hard "IN")).
Proof.
  intros Ha i j K N. revert N. rewrite !run_Seq.
  pose proof (Ha i j K) as X. destruct (RUN A a i) as [v i1|r|x|]; [..|congruence]; specialize (X ltac:(discriminate)) as (o & S & X); destruct o as [v' j1|r'|x'|]; cbn [psim] in X; try contradiction.
  2: { intros _. eexists. split; [eapply ev_seq_no, ev_seq_no; eassumption|exact K]. }
  2: { intros _. eexists. split; [eapply ev_seq_th, ev_seq_th; eassumption|exact X]. }
  destruct X as [<- X]. rewrite run_OptLex. unfold s_not_space. cbn [srun]. pose proof (strip_spaced true (L "NOT") eq_refl _ _ (spaced_skip _ _ X)) as Y.
  assert (IN : pg spaced spaced (PLex (kw_hard "IN"))) by (apply pg_lex0, sg_kw_hard; reflexivity).
  destruct (strip true (L "NOT") (skip i1)) as [[u r]|] eqn:Ei, (strip true (L "NOT") (skip j1)) as [[u' r']|] eqn:Ej; cbn [strip_sim] in Y; try contradiction.
  - destruct Y as [<- Y]. assert (Th : forall (P : forall c t, r' = c :: t -> is_space c = false), exists x, EV _ (a >> POptLex s_not_space >> PLex (kw_hard "IN")) j (Throw (ExExpect x))).
    { intros P. exists r'. eapply ev_seq_th, ev_seq_th2; [eassumption|]. apply ev_olex_th. apply sev_exp_unmet with ([] ++ u) ([] ++ u); [eapply sev_str_ok; eassumption|].
      destruct r' as [|c t]; [apply sev_chr_end|]. apply sev_chr_no. eapply P. reflexivity. }
    assert (Go : forall s t s' t', r = s :: t -> r' = s' :: t' -> is_space s = true -> is_space s' = true ->
      match RUN _ (PLex (kw_hard "IN")) t with Ok vb i2 => Ok (v, u ++ [s], vb) i2 | Fail _ => Fail i | Throw x => Throw x | OOF => OOF end <> OOF ->
      exists o, EV _ (a >> POptLex s_not_space >> PLex (kw_hard "IN")) j o /\
        psim spaced spaced (match RUN _ (PLex (kw_hard "IN")) t with Ok vb i2 => Ok (v, u ++ [s], vb) i2 | Fail _ => Fail i | Throw x => Throw x | OOF => OOF end) o).
    { intros s t s' t' -> -> Cs Cs' N. assert (Ot : spaced (skip t) (skip t')) by (apply spaced_skip in Y; cbn [skip] in Y; now rewrite Cs, Cs' in Y).
      assert (Ol : EV _ (POptLex s_not_space) j1 (Ok (u ++ [s']) t')) by (apply ev_olex_ok; eapply sev_exp_ok; [eapply sev_str_ok; eassumption|now apply sev_chr_ok]).
      pose proof (IN _ _ Ot) as Z. assert (Ski : RUN _ (PLex (kw_hard "IN")) t = RUN _ (PLex (kw_hard "IN")) (skip t)) by (rewrite !run_Lex; unfold lex; now rewrite skip_skip).
      rewrite Ski in *. assert (Skj : forall o, EV _ (PLex (kw_hard "IN")) (skip t') o -> match o with Fail _ => exists z, EV _ (PLex (kw_hard "IN")) t' (Fail z) | _ => EV _ (PLex (kw_hard "IN")) t' o end).
      { intros o E. apply ev_inv in E. cbn [inv_of] in E. rewrite skip_skip in E. destruct o; [now apply ev_lex_ok| |now apply ev_lex_th|contradiction]. destruct E as (z & E). eexists. eapply ev_lex_no; eassumption. }
      assert (At : starts "IN" (skip t) -> s = s').
      { intros F. apply strip_nc_iff in Ei as Ei', Ej as Ej'. destruct Ei' as [Ei' Uu], Ej' as [Ej' _].
        destruct (kept_of _ _ _ _ _ (spaced_skip _ _ X) (strip_plain true (L "NOT") _ _ _ eq_refl Ei) ltac:(destruct u; discriminate) Ei' Ej') as [E|E].
        - rewrite E, Ej' in Ei'. apply app_inv_head in Ei'. now injection Ei' as -> _.
        - destruct (E _ _ _ Ei' Ej') as [_ E2]. specialize (E2 Uu). cbn [firstn] in E2. assert (G : followed "IN" (s :: t)) by (apply followed_iff; [reflexivity|reflexivity|]; cbn [skip]; now rewrite Cs).
          now injection (E2 G). }
      destruct (RUN _ (PLex (kw_hard "IN")) (skip t)) as [w r2|r2|x|] eqn:Er; [..|congruence]; specialize (Z ltac:(discriminate)) as (o & So & Z); destruct o as [w' r2'|r2'|x'|]; cbn [psim] in Z; try contradiction; apply Skj in So.
      - destruct Z as [<- Z]. assert (s = s') as <-.
        { apply At. rewrite run_Lex in Er. unfold lex, kw_hard in Er. cbn [srun] in Er. rewrite skip_skip in Er. destruct (strip true (L "IN") (skip t)) as [[y z]|] eqn:Ey; [|discriminate]. apply starts_iff; eauto. }
        eexists. split; [eapply ev_seq_ok; [eapply ev_seq_ok|]; eassumption|]. now split.
      - destruct So as (z & So). eexists. split; [eapply ev_seq_no2; [eapply ev_seq_ok|]; eassumption|]. exact K.
      - eexists. split; [eapply ev_seq_th2; [eapply ev_seq_ok|]; eassumption|]. exact Z. }
    destruct (spaced_view _ _ Y) as [t|c b b' P Nn K' R|c d b b' C D|q w b b' Q B K' R].
    + destruct t as [|c t]; [|destruct (is_space c) eqn:C].
      * intros _. destruct Th as (z & Sz); [discriminate|]. eexists. split; [exact Sz|exact I].
      * intros N. eapply Go; eauto.
      * intros _. destruct Th as (z & Sz); [intros ? ? [= <- <-]; exact C|]. eexists. split; [exact Sz|exact I].
    + apply plain_iff in P as (C & _). rewrite C. intros _. destruct Th as (z & Sz); [intros ? ? [= <- <-]; exact C|]. eexists. split; [exact Sz|exact I].
    + rewrite C. intros N. eapply Go; eauto.
    + assert (C : is_space q = false) by (destruct Q as [-> | ->]; reflexivity). rewrite C. intros _. destruct Th as (z & Sz); [intros ? ? [= <- <-]; exact C|]. eexists. split; [exact Sz|exact I].
  - assert (Ol : EV _ (POptLex s_not_space) j1 (Ok [] (skip j1))) by (eapply ev_olex_no, sev_exp_no, sev_str_no; eassumption).
    pose proof (IN _ _ (spaced_skip _ _ X)) as Z. destruct (RUN _ (PLex (kw_hard "IN")) (skip i1)) as [w r2|r2|x|] eqn:Er; [..|congruence]; intros _; specialize (Z ltac:(discriminate)) as (o & So & Z); destruct o as [w' r2'|r2'|x'|]; cbn [psim] in Z; try contradiction.
    + destruct Z as [<- Z]. eexists. split; [eapply ev_seq_ok; [eapply ev_seq_ok|]; eassumption|]. now split.
    + eexists. split; [eapply ev_seq_no2; [eapply ev_seq_ok|]; eassumption|]. exact K.
    + eexists. split; [eapply ev_seq_th2; [eapply ev_seq_ok|]; eassumption|]. exact Z.
Qed.

(** ** The grammar *)
Notation pg0 := (pg spaced spaced).
Ltac sgt := first [apply sg_identifier|apply sg_tap|apply sg_table|apply sg_qstar|apply sg_literal|apply sg_unsigned|apply sg_sign|apply sg_union
  |apply sg_kw_soft; reflexivity|apply sg_kw_hard; reflexivity|apply sg_kws_hard; reflexivity|apply sg_kws_soft; reflexivity
  |apply sg_held; [reflexivity|first [apply sg_sp|apply sg_nonid]]|apply sg_strs; reflexivity|apply sg_strs_cs; reflexivity|byte
  |apply sg_alt; [apply sg_regular|apply sg_strs; reflexivity]|repeat apply sg_alt; byte].
Ltac headof e := match e with ?f _ => headof f | _ => e end.
Ltac gr1 := match goal with
  | |- pg0 (lit _) => apply pg_lit0; reflexivity
  | |- pg0 (kw _) => apply pg_kw0; reflexivity
  | |- pg0 ident => apply pg_lex0, sg_identifier
  | |- pg0 (PLex _) => apply pg_lex0; sgt
  | |- pg0 (POptLex _) => apply pg_olex0; sgt
  | |- pg0 PSpace => apply pg_space
  | |- pg0 PDbl => apply pg_dbl
  | |- pg0 PTop => apply pg_top
  | |- pg0 (PRet _) => apply pg_ret
  | |- pg0 g_coord_sys => apply pg_coord_sys
  | |- pg0 g_table_valued_function => apply pg_tvf
  | |- pg0 (_ >> POptLex (SExp _ (SChr is_space)) >> PLex (kw_hard "IN")) => apply in_sim
  | |- pg0 (PSeq _ _) => apply pg_seq with spaced
  | |- pg0 (PExp _ _) => apply pg_exp with spaced
  | |- pg0 (PAlt _ _) => apply pg_alt
  | |- pg0 (POpt _) => apply pg_opt
  | |- pg0 (PStar _) => apply pg_star
  | |- pg0 (PPlus _) => apply pg_plus
  | |- pg0 (PList _ _) => apply pg_list with spaced
  | |- pg0 (PMap _ _) => apply pg_map
  | |- pg0 ?e => let h := headof e in unfold h
  end.
Ltac gr := repeat first [assumption|gr1].
Section Rules.
Hypothesis Hr : forall r, pg0 (PRule r).
Lemma w_colref : pg0 (g_column_reference m). Proof. gr. Qed.
Hint Resolve w_colref : wdb.
Ltac gs := repeat first [assumption|exact (Hr R_ve)|exact (Hr R_venb)|exact (Hr R_sc)|exact (Hr R_subq)|exact (Hr R_jt)|exact (Hr R_tref)|solve [eauto 1 with wdb nocore]|gr1].
Lemma w_csae : pg0 (g_csae m). Proof. gs. Qed.
Lemma w_coord : pg0 (g_coord m). Proof. pose proof w_csae. gs. Qed.
Lemma w_point : pg0 (g_point m). Proof. pose proof w_coord. gs. Qed.
Lemma w_shape : pg0 (g_shape m). Proof. pose proof w_coord. pose proof w_csae. pose proof w_point. gs. Qed.
Lemma w_geometry : pg0 (g_geometry m). Proof. pose proof w_shape. gs. Qed.
Lemma w_nvf : pg0 (g_numeric_value_function m). Proof. pose proof w_point. gs. Qed.
Lemma w_vep : pg0 (g_value_expression_primary m). Proof. gs. Qed.
Lemma w_factor : pg0 (g_factor m). Proof. pose proof w_vep. pose proof w_nvf. gs. Qed.
Lemma w_venb : pg0 (g_value_expression_non_bool m). Proof. pose proof w_factor. gs. Qed.
Lemma w_pred : pg0 g_predicate. Proof. gs. Qed.
Lemma w_sc : pg0 g_search_condition. Proof. pose proof w_pred. gs. Qed.
Lemma w_jt : pg0 (g_joined_table m). Proof. gs. Qed.
Lemma w_tref : pg0 (g_table_reference m). Proof. gs. Qed.
Lemma w_query w : pg0 w -> pg0 (g_query_gen m w).
Proof. intros Hw. gs. Qed.
Lemma w_body r : pg0 (g_body m r).
Proof.
  destruct r; cbn [g_body]; [gs|apply w_venb|apply w_sc| |apply w_jt|apply w_tref].
  assert (X : pg0 (g_query_no_geometry m)) by (apply w_query; gs). gs.
Qed.
Lemma w_top : pg0 (g_query m).
Proof. apply w_query. pose proof w_geometry. gs. Qed.
End Rules.
End Peg.

Lemma rules_sim m n : forall r, pg m n spaced spaced (PRule r).
Proof.
  induction n as [|n IH]; intros r i j K N; [now rewrite run_Rule_0 in N|]. rewrite run_Rule in *.
  destruct (w_body m n IH r i j K N) as (o & S & X). exists o. split; [now apply ev_rule|exact X].
Qed.
Lemma query_sim m n : pg m n spaced spaced (g_query m).
Proof. apply w_top, rules_sim. Qed.
