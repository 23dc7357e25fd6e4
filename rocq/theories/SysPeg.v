(** The spelling of coordinate systems does not matter: the rules with skipper (C24). *)
From Verif Require Import Query Grammar PegProps PegSpec PegEquiv TextLemmas LexProofs Spec SpecLexical SpecSpelling SpecWhite SpecSystem WhiteLex WhitePeg SysLex Invert First Calc CanonBase Written.

(** related behind white space *)
Definition rs (i j : text) : Prop := rf (skip i) (skip j).
Lemma rs_of b i j : respelt b i j -> rs i j. Proof. apply rs_skip. Qed.
Lemma rs_skips i j : rs i j -> rs (skip i) (skip j).
Proof. unfold rs. now rewrite !skip_skip. Qed.
Lemma rf_skip i j : rf i j -> rf (skip i) (skip j). Proof. apply rs_skip. Qed.

Section Peg.
Variable tm : mapping.
Notation m := (lookup tm).
Notation EV := (ev (g_body m)).
Variable n : nat.
Notation RUN := (run (g_body m) n).
Notation pg := (pg m n).

(** leaves *)
Lemma pg_lits (R R1 : rel) nc s : (forall i j, R i j -> R (skip i) (skip j)) -> (forall i j, R i j -> strip_sim R1 (strip nc s (skip i)) (strip nc s (skip j))) -> pg R R1 (PLit nc s).
Proof.
  intros Sk H i j K N. rewrite run_Lit in *. specialize (H _ _ K).
  destruct (strip nc s (skip i)) as [[? r]|] eqn:Ei, (strip nc s (skip j)) as [[? r']|] eqn:Ej; cbn in H; try contradiction.
  - eexists. split; [econstructor; eassumption|]. now split.
  - eexists. split; [eapply ev_lit_no; eassumption|]. cbn. auto.
Qed.
Lemma rp_lit (R : rel) nc s : (forall i j, rf i j -> strip_sim R (strip nc s i) (strip nc s j)) -> pg rs R (PLit nc s).
Proof.
  intros H i j K N. rewrite run_Lit in *. specialize (H _ _ K).
  destruct (strip nc s (skip i)) as [[? r]|] eqn:Ei, (strip nc s (skip j)) as [[? r']|] eqn:Ej; cbn in H; try contradiction.
  - eexists. split; [econstructor; eassumption|]. now split.
  - eexists. split; [eapply ev_lit_no; eassumption|]. cbn. now apply rs_skips.
Qed.
Lemma rp_lex (R : rel) e : sgood rf R e -> pg rs R (PLex e).
Proof.
  intros H i j K N. rewrite run_Lex in *. unfold lex in *. destruct (srun e [] (skip i)) as [v r|v|x|] eqn:E; [..|congruence];
    (assert (S : sev e [] (skip i) (srun e [] (skip i))) by (apply srun_sev; rewrite E; discriminate)); rewrite E in S; destruct (H _ _ _ _ K S) as (o & S' & X); destruct o; cbn [osim] in X; try contradiction.
  - destruct X as [<- X]. eexists. split; [econstructor; eassumption|]. now split.
  - subst. eexists. split; [eapply ev_lex_no; eassumption|]. cbn. now apply rs_skips.
  - eexists. split; [eapply ev_lex_th; eassumption|]. exact X.
Qed.
Definition rpair (x y : text * text) : Prop := fst x = fst y /\ rf (snd x) (snd y).
Lemma rspan f : (forall c, f c = true -> noq c = true /\ starter c = false) -> forall i j, rf i j -> rpair (span f i) (span f j).
Proof.
  intros F i. induction i as [|c i IH]; intros j K; destruct (rs_cases _ _ _ K) as [V|[_ V]].
  - pose proof (rt_view _ _ V) as X. inversion X; subst. split; [reflexivity|constructor].
  - destruct (shaped_first _ _ V) as (x & ? & ? & ? & _). discriminate.
  - pose proof (rt_view _ _ V) as X. inversion X as [t|c' i' j' N M R|q t i' j' Q B M R]; subst.
    + split; [reflexivity|constructor].
    + cbn [span]. destruct (f c); [|now split]. specialize (IH _ (rs_weak2 _ _ _ R)). destruct (span f i), (span f j'); unfold rpair in *; cbn [fst snd] in *. destruct IH as [-> IH]. now split.
    + cbn [span]. destruct (f c) eqn:E; [apply F in E as [E _]; rewrite quote_noq in E by exact Q; discriminate|]. now split.
  - destruct (shaped_first _ _ V) as (x & i' & j' & [= <- <-] & -> & S). cbn [span]. destruct (f c) eqn:E; [apply F in E as [_ E]; congruence|]. now split.
Qed.
Lemma rdigits i j : rf i j -> rpair (span is_digit i) (span is_digit j).
Proof. apply rspan, rcls. vm_compute. reflexivity. Qed.
Lemma rp_space : pg rf rf PSpace.
Proof.
  intros i j K _. rewrite run_Space. destruct (same_first _ _ _ K) as [-> |(c & i' & j' & -> & ->)].
  - destruct j as [|c t]; [eexists; split; [constructor|constructor]|]. destruct (is_space c) eqn:C; (eexists; split; [now constructor|]); cbn; auto.
  - destruct (is_space c) eqn:C; (eexists; split; [now constructor|]); cbn; auto.
Qed.
Lemma rp_top : pg rf rf PTop.
Proof.
  intros i j K _. rewrite run_Top. pose proof (rf_skip _ _ K) as Ks. pose proof (rdigits _ _ Ks) as [E R].
  destruct (ulong (skip i)) as [[v r]|] eqn:U.
  - assert (exists r', ulong (skip j) = Some (v, r') /\ rf r r') as (r' & U' & Rr).
    { unfold ulong in *. destruct (span is_digit (skip i)) as [ds ri], (span is_digit (skip j)) as [ds' rj]. cbn [fst snd] in *. subst ds'.
      destruct (is_nil ds); [discriminate|]. destruct (dec_value ds <? ull_mod)%N; [|discriminate]. injection U as <- <-. eauto. }
    destruct (same_first _ _ _ Rr) as [-> |(c & a & b & -> & ->)].
    + destruct r' as [|c t]; [eexists; split; [eapply ev_top_end; eassumption|exact I]|]. destruct (is_space c) eqn:C.
      * eexists. split; [eapply ev_top_ok; eassumption|]. split; [reflexivity|constructor].
      * eexists. split; [eapply ev_top_unmet; eassumption|exact I].
    + destruct (is_space c) eqn:C; eexists; (split; [first [eapply ev_top_ok; eassumption|eapply ev_top_unmet; eassumption]|]); cbn; auto.
  - eexists. split; [eapply ev_top_no|exact Ks]. unfold ulong in *. destruct (span is_digit (skip i)) as [ds ri], (span is_digit (skip j)) as [ds' rj]. cbn [fst snd] in *. subst ds'.
    destruct (is_nil ds); [reflexivity|]. destruct (dec_value ds <? ull_mod)%N; [discriminate|reflexivity].
Qed.
(** the next byte, if it is not the beginning of a shape or a quote *)
Definition next_byte (f : ascii -> bool) (i : text) : option (ascii * text) := match i with c :: r => if f c then Some (c, r) else None | [] => None end.
Lemma rnext f i j : (forall c, f c = true -> noq c = true /\ starter c = false) -> rf i j ->
  match next_byte f i, next_byte f j with Some (c, r), Some (c', r') => c = c' /\ rf r r' | None, None => True | _, _ => False end.
Proof.
  intros F K. destruct (rs_cases _ _ _ K) as [V|[_ V]].
  - destruct (rt_view _ _ V) as [t|c i' j' N M R|q t i' j' Q B M R]; cbn [next_byte].
    + destruct t as [|c t]; cbn [next_byte]; [exact I|]. destruct (f c); [split; [reflexivity|constructor]|exact I].
    + destruct (f c); [split; [reflexivity|now apply rs_weak2 with (goes_on c)]|exact I].
    + destruct (f q) eqn:E; [apply F in E as [E _]; rewrite quote_noq in E by exact Q; discriminate|exact I].
  - destruct (shaped_first _ _ V) as (c & i' & j' & -> & -> & S). cbn [next_byte]. destruct (f c) eqn:E; [apply F in E as [_ E]; congruence|exact I].
Qed.
Lemma rdbl_exp i j : rf i j -> rpair (dbl_exp i) (dbl_exp j).
Proof.
  intros K. pose proof (rnext (fun c => Ascii.eqb c "e" || Ascii.eqb c "E") i j ltac:(apply rcls; vm_compute; reflexivity) K) as X.
  assert (E1 : forall t, dbl_exp t = match next_byte (fun c => Ascii.eqb c "e" || Ascii.eqb c "E") t with
    | Some (c, r) => let (sg, r2) := match next_byte (fun s => Ascii.eqb s "+" || Ascii.eqb s "-") r with Some (s, r') => ([s], r') | None => ([], r) end in
        let (ds, r3) := span is_digit r2 in if is_nil ds then ([], t) else (c :: sg ++ ds, r3)
    | None => ([], t) end).
  { intros [|c t]; [reflexivity|]. cbn [next_byte dbl_exp]. destruct (Ascii.eqb c "e" || Ascii.eqb c "E"); [|reflexivity]. destruct t as [|s t]; [reflexivity|]. cbn [next_byte]. destruct (Ascii.eqb s "+" || Ascii.eqb s "-"); reflexivity. }
  rewrite !E1. destruct (next_byte _ i) as [[c r]|], (next_byte _ j) as [[c' r']|]; try contradiction; [|now split]. destruct X as [<- R].
  pose proof (rnext (fun s => Ascii.eqb s "+" || Ascii.eqb s "-") r r' ltac:(apply rcls; vm_compute; reflexivity) R) as Y.
  assert (Z : exists sg r2 r2', (match next_byte (fun s => Ascii.eqb s "+" || Ascii.eqb s "-") r with Some (s, r0) => ([s], r0) | None => ([], r) end) = (sg, r2) /\
    (match next_byte (fun s => Ascii.eqb s "+" || Ascii.eqb s "-") r' with Some (s, r0) => ([s], r0) | None => ([], r') end) = (sg, r2') /\ rf r2 r2').
  { destruct (next_byte (fun s => Ascii.eqb s "+" || Ascii.eqb s "-") r) as [[s u]|], (next_byte (fun s => Ascii.eqb s "+" || Ascii.eqb s "-") r') as [[s' u']|]; try contradiction; [destruct Y as [<- Y]|]; eauto 7. }
  destruct Z as (sg & r2 & r2' & -> & -> & R2). pose proof (rdigits _ _ R2) as W. destruct (span is_digit r2) as [ds r3], (span is_digit r2') as [ds' r3'], W as [E W]. cbn [fst snd] in *. subst ds'.
  destruct (is_nil ds); now split.
Qed.
Lemma rdecimal ds i j : rf i j -> strip_sim rf (decimal ds i) (decimal ds j).
Proof.
  intros K. unfold decimal. rewrite !dot_eq.
  assert (D : strip_sim rf (if is_nil ds then None else let (ex, i4) := dbl_exp i in Some (ds ++ ex, i4)) (if is_nil ds then None else let (ex, i4) := dbl_exp j in Some (ds ++ ex, i4))).
  { destruct (is_nil ds); [exact I|]. pose proof (rdbl_exp _ _ K) as X. destruct (dbl_exp i), (dbl_exp j), X as [E X]. cbn [fst snd] in *. subst. now split. }
  pose proof (rnext (fun c => Ascii.eqb c ".") i j ltac:(apply rcls; vm_compute; reflexivity) K) as X.
  assert (E1 : forall A (f : text -> A) g t, match t with [] => g | c :: r => if Ascii.eqb c "." then f r else g end = match next_byte (fun c => Ascii.eqb c ".") t with Some (_, r) => f r | None => g end).
  { intros A f g [|c t]; [reflexivity|]. cbn [next_byte]. destruct (Ascii.eqb c "."); reflexivity. }
  rewrite !E1. destruct (next_byte _ i) as [[c r]|], (next_byte _ j) as [[c' r']|]; try contradiction; [|exact D]. destruct X as [_ R].
  pose proof (rdigits _ _ R) as X. destruct (span is_digit r) as [fs i3], (span is_digit r') as [fs' j3], X as [E X]. cbn [fst snd] in *. subst fs'.
  destruct (is_nil ds && is_nil fs); [exact I|]. pose proof (rdbl_exp _ _ X) as Y. destruct (dbl_exp i3), (dbl_exp j3), Y as [E Y]. cbn [fst snd] in *. subst. now split.
Qed.
Lemma rspecial i j : rf i j -> strip_sim rf (special i) (special j).
Proof.
  intros K. assert (Inf : strip_sim rf
    (match strip true (L "inf") i with Some (m, r) => match strip true (L "inity") r with Some (m', r') => Some (m ++ m', r') | None => Some (m, r) end | None => None end)
    (match strip true (L "inf") j with Some (m, r) => match strip true (L "inity") r with Some (m', r') => Some (m ++ m', r') | None => Some (m, r) end | None => None end)).
  { pose proof (rstrip true (L "inf") false _ _ eq_refl K) as X. destruct (strip true (L "inf") i) as [[a b]|], (strip true (L "inf") j) as [[a' b']|]; cbn [strip_sim] in X; try contradiction; [|exact I]. destruct X as [<- X].
    pose proof (rstrip true (L "inity") false _ _ eq_refl X) as Y. destruct (strip true (L "inity") b) as [[c d]|], (strip true (L "inity") b') as [[c' d']|]; cbn [strip_sim] in Y; try contradiction; [|now split]. destruct Y as [<- Y]. now split. }
  unfold special. pose proof (rstrip true (L "nan") false _ _ eq_refl K) as X. destruct (strip true (L "nan") i) as [[a b]|] eqn:Ei, (strip true (L "nan") j) as [[a' b']|] eqn:Ej; cbn [strip_sim] in X; try contradiction; [|exact Inf].
  destruct X as [<- X]. rewrite !paren_eq.
  destruct (rs_cases _ _ _ K) as [V|[_ V]]; [|destruct (shaped_strip true (L "nan") _ _ V eq_refl); congruence].
  destruct (rt_view _ _ V) as [t|c i j N M R|q t i j Q B M R].
  - rewrite Ei in Ej. injection Ej as <-. apply strip_refl. intros x. apply rs_same.
  - assert (NP : match b with c :: _ => Ascii.eqb c "(" = false | [] => True end).
    { destruct b as [|x b]; [exact I|]. apply Ascii.eqb_neq. intros ->. apply M. apply strip_nc_iff in Ei as [Ei Ua]. exists (a ++ ["("%char]), b. split; [rewrite <- app_assoc; exact Ei|].
      unfold upper in *. rewrite map_app, Ua. reflexivity. }
    assert (NP' : match b' with c :: _ => Ascii.eqb c "(" = false | [] => True end).
    { destruct (same_first _ _ _ X) as [<- |(x & u & u' & -> & ->)]; auto. }
    destruct b as [|x b], b' as [|x' b']; rewrite ?NP, ?NP'; now split.
  - exfalso. cbn [L list_ascii_of_string strip eq_ch] in Ei. destruct Q as [-> | ->]; discriminate.
Qed.
Lemma rdbl_unsigned i j : rf i j -> strip_sim rf (dbl_unsigned i) (dbl_unsigned j).
Proof.
  intros K. rewrite !dbl_unsigned_eq. pose proof (rdigits _ _ K) as X. destruct (span is_digit i) as [ds i1], (span is_digit j) as [ds' j1], X as [E X]. cbn [fst snd] in *. subst ds'.
  destruct (is_nil ds); [|now apply rdecimal]. pose proof (rspecial _ _ K) as Y. destruct (special i) as [[? ?]|], (special j) as [[? ?]|]; cbn [strip_sim] in Y; try contradiction; [exact Y|]. now apply rdecimal.
Qed.
Lemma rdbl i j : rf i j -> strip_sim rf (dbl i) (dbl j).
Proof.
  intros K. pose proof (rdbl_unsigned _ _ K) as U. pose proof (rnext (fun c => Ascii.eqb c "+" || Ascii.eqb c "-") i j ltac:(apply rcls; vm_compute; reflexivity) K) as X.
  assert (E1 : forall t, dbl t = match next_byte (fun c => Ascii.eqb c "+" || Ascii.eqb c "-") t with
     | Some (c, r) => match dbl_unsigned r with Some (u, r') => Some (c :: u, r') | None => None end | None => dbl_unsigned t end).
  { intros [|c t]; [reflexivity|]. unfold dbl. cbn [next_byte]. destruct (Ascii.eqb c "+" || Ascii.eqb c "-"); reflexivity. }
  rewrite !E1. destruct (next_byte _ i) as [[c r]|], (next_byte _ j) as [[c' r']|]; try contradiction; [|exact U]. destruct X as [<- R].
  pose proof (rdbl_unsigned _ _ R) as X. destruct (dbl_unsigned r) as [[? ?]|], (dbl_unsigned r') as [[? ?]|]; cbn [strip_sim] in X; try contradiction; [|exact I]. destruct X as [<- X]. now split.
Qed.
Lemma rp_dbl : pg rs rf PDbl.
Proof.
  intros i j K _. rewrite run_Dbl. pose proof (rdbl _ _ K) as X.
  destruct (dbl (skip i)) as [[u r]|] eqn:Ei, (dbl (skip j)) as [[u' r']|] eqn:Ej; cbn [strip_sim] in X; try contradiction.
  - destruct X as [<- X]. eexists. split; [econstructor; eassumption|]. now split.
  - eexists. split; [eapply ev_dbl_no; eassumption|]. cbn. now apply rs_skips.
Qed.

(** ** Quoted parts *)
Lemma rinq_skip q i j : isq q -> rinq q i j -> rinq q (skip i) (skip j).
Proof.
  intros Q [-> |(b & i' & j' & B & -> & -> & K)]; [now left|]. assert (Sq : is_space q = false) by (destruct Q as [-> | ->]; reflexivity).
  induction b as [|c b IH]; cbn [app skip].
  - rewrite Sq. right. exists [], i', j'. auto.
  - assert (B' : ~ In q b) by (intros I; apply B; now right). destruct (is_space c); [now apply IH|]. right. exists (c :: b), i', j'. auto.
Qed.
Lemma rstrip_inside q nc s : isq q -> forallb noq s = true -> forall i j, rinq q i j -> strip_sim (rinq q) (strip nc s i) (strip nc s j).
Proof.
  intros Q. induction s as [|a s IH]; intros P i j K; [cbn; auto|]. cbn [forallb] in P. apply andb_true_iff in P as [Pa P]. specialize (IH P).
  destruct K as [-> |(b & i' & j' & B & -> & -> & K)]; [apply strip_refl, rinq_refl|]. destruct b as [|c b]; cbn [app strip].
  - destruct (eq_ch nc a q) eqn:E; [|exact I]. apply (noq_eq nc a q Pa) in E as [E _]. rewrite quote_noq in E by exact Q. discriminate.
  - destruct (eq_ch nc a c); [|exact I]. specialize (IH _ _ (rinq_cons _ _ _ _ _ B K)).
    destruct (strip nc s (b ++ q :: i')) as [[? ?]|], (strip nc s (b ++ q :: j')) as [[? ?]|]; cbn in *; try contradiction; auto. now destruct IH as [-> IH].
Qed.
Notation rq := (rinq quote).
Lemma rq_skip i j : rq i j -> rq (skip i) (skip j).
Proof. apply rinq_skip. now left. Qed.
Lemma rp_open : pg rf rq (lit "'").
Proof. apply pg_lit; [apply rf_skip|]. intros i j K. apply rstrip_quote; [now left|exact K]. Qed.
Lemma rp_close : pg rq rf (lit "'").
Proof.
  apply pg_weak with (routq quote); [apply routq_rf|]. apply pg_lit; [apply rq_skip|]. intros i j K. apply rstrip_unquote; [now left|exact K].
Qed.
Lemma rp_inside s : forallb noq (L s) = true -> pg rq rq (kw s).
Proof. intros P. apply pg_lit; [apply rq_skip|]. apply rstrip_inside; [now left|exact P]. Qed.
Lemma rp_coord_sys : pg rf rf g_coord_sys.
Proof.
  apply pg_map. eapply pg_seq; [|apply rp_close]. eapply pg_seq; [eapply pg_seq; [apply rp_open|]|]; apply pg_opt.
  - repeat apply pg_alt; apply pg_map, rp_inside; reflexivity.
  - apply rp_inside. reflexivity.
Qed.
Lemma rp_lit0 s : okw false (L s) = true -> pg rf rf (lit s).
Proof. intros P. apply pg_lit; [apply rf_skip|]. intros i j K. now apply rstrip with false. Qed.
Lemma rp_kw0 s : okw false (L s) = true -> pg rf rf (kw s).
Proof. intros P. apply pg_lit; [apply rf_skip|]. intros i j K. now apply rstrip with false. Qed.
Lemma rp_lex0 e : sgood rf rf e -> pg rf rf (PLex e).
Proof. apply pg_lex, rf_skip. Qed.
Lemma rp_olex0 e : sgood rf rf e -> pg rf rf (POptLex e).
Proof. apply pg_olex, rf_skip. Qed.

(** ** Names of shapes *)
Definition nsk (i j : text) : Prop := rf i j /\ rt (skip i) (skip j).
Lemma nsk_skip i j : nsk i j -> nsk (skip i) (skip j).
Proof. intros [A B]. split; [now apply rf_skip|now rewrite !skip_skip]. Qed.
Lemma run_of {A : Set} (e : PE A) i o : EV A e i o -> RUN A e i <> OOF -> RUN A e i = o.
Proof. intros H N. now apply ev_iff_run. Qed.
Lemma strip_head w v k : upper v <> L w -> In (upper v) (map L shape_names) -> In w shape_names -> strip true (L w) (v ++ k) = None.
Proof.
  intros N I Iw. apply clash_strip with (upper v); [reflexivity|]. apply in_map_iff in I as (x & E & I). rewrite <- E in *. clear E.
  assert (H : forallb (fun w => forallb (fun x => String.eqb x w || clash (L w) (L x)) shape_names) shape_names = true) by (vm_compute; reflexivity).
  rewrite forallb_forall in H. specialize (H w Iw). rewrite forallb_forall in H. specialize (H x I). destruct (String.eqb_spec x w) as [-> |]; [contradiction|exact H].
Qed.
Lemma upper_lit w : In w shape_names -> upper (L w) = L w /\ dark (L w) /\ okw true (L w) = true.
Proof. intros [<- |[<- |[<- |[<- |[]]]]]; repeat split. Qed.
Lemma quote_next k : ~ followed "'" k -> strip false (L "'") (skip k) = None.
Proof.
  intros N. destruct (strip false (L "'") (skip k)) as [[x y]|] eqn:E; [|reflexivity]. destruct N. apply followed_iff; [reflexivity|reflexivity|]. apply quote_starts.
  destruct (skip k) as [|c r]; [discriminate|]. cbn [L list_ascii_of_string strip eq_ch] in E. destruct (Ascii.eqb_spec "'" c) as [<- |]; [eauto|discriminate].
Qed.
Lemma rp_head w : In w shape_names -> pg rf rs (g_shape_head w).
Proof.
  intros Iw i j K N. destruct (upper_lit w Iw) as (Uw & Dw & Ow).
  destruct (rs_cases _ _ _ (rf_skip _ _ K)) as [V|[_ V]].
  - assert (G : pg nsk rs (g_shape_head w)).
    { apply pg_weak with rf; [apply rs_of|]. apply pg_map. eapply pg_seq; [eapply pg_seq; [apply pg_lits; [apply nsk_skip|]|apply rp_lit0; reflexivity]|].
      - intros a b [_ Kab]. now apply rstrip with true.
      - apply pg_opt, pg_map. eapply pg_exp; [apply rp_coord_sys|apply rp_lit0; reflexivity]. }
    destruct (G i j (conj K V) N) as (o & S & X). exists o. split; [exact S|]. destruct (RUN _ (g_shape_head w) i), o; cbn [psim] in *; auto. apply X.
  - destruct V as (v & sp & a & a' & f & i' & j' & I & W & A & A' & F & F' & R & Ei & Ej).
    destruct (list_eq_dec Ascii.ascii_dec (upper v) (L w)) as [E|E].
    + assert (Hi : reads m (g_shape_head w) i f (skip i')) by (eapply rd_head_nc with (word := v); [exact Dw|now rewrite E, Uw|exact W|exact A|now apply quote_next|rewrite <- (skip_skip i), Ei; reflexivity]).
      assert (Hj : reads m (g_shape_head w) j f (skip j')) by (eapply rd_head_nc with (word := v); [exact Dw|now rewrite E, Uw|exact W|exact A'|now apply quote_next|rewrite <- (skip_skip j), Ej; reflexivity]).
      destruct Hi as (r & Hi & Er), Hj as (r' & Hj & Er'). rewrite (run_of _ _ _ Hi N). eexists. split; [exact Hj|]. split; [reflexivity|]. unfold rs. rewrite Er, Er'. now apply rf_skip.
    + assert (No : forall t k, skip t = v ++ k -> EV _ (g_shape_head w) t (Fail t)).
      { intros t k Et. unfold g_shape_head. apply ev_map_no. eapply ev_seq_no, ev_seq_no, ev_lit_no. rewrite Et. now apply strip_head. }
      rewrite (run_of _ _ _ (No _ _ Ei) N). eexists. split; [eapply No; exact Ej|]. exact K.
Qed.

(** ** Table-valued functions: a shape is not a function *)
Fixpoint mild (e : se) : bool :=
  match e with
  | SExp _ _ | SMap _ _ => false
  | SSeq a b | SAlt a b | SDiff a b => mild a && mild b
  | SStar a | SPlus a | SOpt a | SHold a | SAnd a | SNot a => mild a
  | _ => true
  end.
Lemma sev_mild e acc i o : sev e acc i o -> mild e = true -> forall x, o <> SThrow x.
Proof.
  induction 1; intros M y E; cbn [mild] in *; rewrite ?andb_true_iff in M; try discriminate; try (match goal with X : _ /\ _ |- _ => destruct X end);
    subst; repeat match goal with IH : ?P = true -> forall x, _ <> SThrow x, X : ?P = true |- _ => specialize (IH X) end; congruence.
Qed.
Section Stuck.
Variable k : text.
Hypothesis Hk : ~ followed "'" k.
(** inside of the quotes of a coordinate system in front of [k] *)
Definition stuck (i : text) : Prop := exists b w, ~ In quote b /\ white w /\ i = b ++ quote :: w ++ ","%char :: k.
Definition stuck2 (i j : text) : Prop := i = j /\ stuck i.
Lemma stuck_skip i : stuck i -> stuck (skip i).
Proof.
  intros (b & w & B & W & ->). induction b as [|c b IH]; cbn [app skip]; [exists [], w; auto|].
  destruct (is_space c); [apply IH; intros I; apply B; now right|]. exists (c :: b), w. auto.
Qed.
Lemma stuck_chr f : f quote = false -> sgood stuck2 stuck2 (SChr f).
Proof.
  intros F acc i j o [<- (b & w & B & W & ->)] H. exists o. split; [exact H|]. destruct b as [|c b]; cbn [app] in *; destruct (chr_inv _ _ _ _ _ H) as [[E ->]|[E ->]]; cbn; auto.
  - congruence.
  - split; [reflexivity|]. split; [reflexivity|]. exists b, w. split; [intros I; apply B; now right|auto].
Qed.
Lemma stuck_pqi : sgood stuck2 stuck2 s_pqi.
Proof. eapply sg_seq; [now apply stuck_chr|]. apply sg_star. now apply stuck_chr. Qed.
Lemma stuck_lit i : stuck i -> strip false (L "','") i = None /\ strip false (L "')") i = None.
Proof.
  intros (b & w & B & W & ->). destruct b as [|c b]; cbn [app L list_ascii_of_string strip eq_ch].
  - change (Ascii.eqb "'" quote) with true. cbn iota. destruct W as [|d w D W]; cbn [app].
    + change (Ascii.eqb "," ",") with true. change (Ascii.eqb ")" ",") with false. cbn iota. split; [|reflexivity]. destruct k as [|x r]; [reflexivity|].
      destruct (Ascii.eqb_spec "'" x) as [<- |]; [|reflexivity]. exfalso. apply Hk. apply followed_iff; [reflexivity|reflexivity|]. apply quote_starts. exists r. reflexivity.
    + destruct (Ascii.eqb_spec "," d) as [<- |]; [discriminate|]. destruct (Ascii.eqb_spec ")" d) as [<- |]; [discriminate|]. auto.
  - destruct (Ascii.eqb_spec "'" c) as [<- |]; [destruct B; now left|]. auto.
Qed.
Lemma stuck_list i : stuck i -> exists v r, EV _ (POpt (PList (PLex s_pqi) (lit "','"))) i (Ok v r) /\ stuck r.
Proof.
  intros S. pose proof (stuck_skip _ S) as Ss. assert (X : sev s_pqi [] (skip i) (srun s_pqi [] (skip i))) by (apply sev_iff; reflexivity).
  pose proof (sev_mild _ _ _ _ X eq_refl) as Nt. pose proof (sev_noloop _ _ _ _ X) as Nl. destruct (stuck_pqi [] (skip i) (skip i) _ (conj eq_refl Ss) X) as (o & Xo & Z).
  destruct (srun s_pqi [] (skip i)) as [v r|v|x|]; [| |now destruct (Nt x)|contradiction].
  - destruct o; cbn [osim] in Z; try contradiction. destruct Z as [_ [_ Sr]]. exists (Some [v]), r. split; [|exact Sr]. apply ev_opt_ok. eapply ev_list_ok; [apply ev_lex_ok; exact X|].
    eapply evl_stop, ev_lit_no. apply stuck_lit. now apply stuck_skip.
  - exists None, i. split; [|exact S]. eapply ev_opt_no, ev_list_no, ev_lex_no; exact X.
Qed.
End Stuck.
Lemma pqi_word v t : v <> [] -> forallb is_letter v = true -> match t with c :: _ => is_idchar c || Ascii.eqb c "." = false | [] => True end -> srun s_pqi [] (v ++ t) = SOk v t.
Proof.
  intros N A T. destruct v as [|c v]; [contradiction|]. cbn [forallb] in A. apply andb_true_iff in A as [Ac A]. unfold s_pqi. cbn [srun app]. rewrite Ac.
  pose proof (star_chr (fun c => is_idchar c || Ascii.eqb c ".") v t [c]) as H. apply H; [|exact T]. apply Forall_forall. intros x X. rewrite forallb_forall in A. specialize (A x X).
  unfold is_idchar, is_letter in *. rewrite A. destruct (is_digit x); reflexivity.
Qed.

Lemma shape_letters v : In (upper v) (map L shape_names) -> v <> [] /\ forallb is_letter v = true.
Proof.
  intros I. destruct (word_first v I) as (c & t & E & _). split; [subst; discriminate|]. clear E c t. apply in_map_iff in I as (x & E & I).
  assert (A : forallb is_letter (L x) = true) by (cbn in I; destruct I as [<- |[<- |[<- |[<- |[]]]]]; reflexivity). rewrite E in A. clear -A. revert A. induction v as [|c v IH]; [auto|]. cbn [upper map forallb].
  rewrite !andb_true_iff. intros [A1 A2]. split; [|now apply IH]. assert (H : forallb (fun c => implb (is_letter (upc c)) (is_letter c)) all_bytes = true) by (vm_compute; reflexivity).
  rewrite forallb_forall in H. specialize (H c (all_bytes_in c)). now rewrite A1 in H.
Qed.
Lemma not_in_app (q : ascii) a b : ~ In q a -> ~ In q b -> ~ In q (a ++ b).
Proof. intros A B I. apply in_app_iff in I as [I|I]; auto. Qed.
Lemma white_no_quote w : white w -> ~ In quote w.
Proof. intros W I. pose proof (proj1 (Forall_forall _ _) W _ I). discriminate. Qed.
Lemma upper_no_quote t s : upper t = s -> ~ In quote s -> ~ In quote t.
Proof. intros <- N I. apply N. unfold upper. change quote with (upc quote). now apply in_map. Qed.
Lemma head_stuck sp a f k : white sp -> system_argument a f -> ~ followed "'" k ->
  match strip false (L "('") (sp ++ L "(" ++ a ++ k) with Some (_, r) => stuck k r | None => True end.
Proof.
  intros W A N. destruct W as [|c sp C W]; cbn [app L list_ascii_of_string strip eq_ch].
  2: { destruct (Ascii.eqb_spec "(" c) as [<- |]; [discriminate|exact I]. }
  change (Ascii.eqb "(" "(") with true. cbn iota. destruct A as [[-> ->]|(w & st & w' & -> & Ww & Ww' & St)]; cbn [app].
  - destruct k as [|c k]; [exact I|]. destruct (Ascii.eqb_spec "'" c) as [<- |]; [|exact I]. exfalso. apply N. apply followed_iff; [reflexivity|reflexivity|]. apply quote_starts. exists k. reflexivity.
  - destruct Ww as [|c w C Ww]; cbn [app]; [|destruct (Ascii.eqb_spec "'" c) as [<- |]; [discriminate|exact I]].
    destruct St as (w1 & fr & w2 & ps & w3 & -> & W1 & W2 & W3 & F & P). cbn [app L list_ascii_of_string]. change (Ascii.eqb "'" "'") with true. cbn iota.
    exists (w1 ++ fr ++ w2 ++ ps ++ w3), w'. split; [|split; [exact Ww'|]].
    + repeat apply not_in_app; try (now apply white_no_quote).
      * destruct F as [F|[-> _]]; [|auto]. eapply upper_no_quote; [exact F|]. destruct f; cbn; intuition discriminate.
      * destruct P as [P| ->]; [|auto]. eapply upper_no_quote; [exact P|]. cbn. intuition discriminate.
    + rewrite <- !app_assoc. reflexivity.
Qed.
Lemma tvf_no t tb v sp a f k : skip t = tb ++ v ++ sp ++ L "(" ++ a ++ k -> upper tb = L "TABLE(" -> In (upper v) (map L shape_names) -> white sp -> system_argument a f -> ~ followed "'" k ->
  EV _ g_table_valued_function t (Fail t).
Proof.
  intros Et Ut Iv W A N. destruct (shape_letters v Iv) as [Nv Lv].
  assert (H : exists o, sev s_tvf_head [] (skip t) o /\ ((exists x, o = SFail x) \/ exists x r, o = SOk x r /\ stuck k r)).
  { exists (srun s_tvf_head [] (skip t)). split; [apply sev_iff; reflexivity|]. unfold s_tvf_head.
    cbn [srun].
    assert (E : strip true (L "table(") (skip t) = Some (tb, v ++ sp ++ L "(" ++ a ++ k)) by (apply strip_nc_iff; rewrite Et; auto). rewrite E.
    rewrite pqi_word; [|exact Nv|exact Lv|].
    - pose proof (head_stuck sp a f k W A N) as X. destruct (strip false (L "('") (sp ++ L "(" ++ a ++ k)) as [[y r]|]; [right; eauto|left; eauto].
    - destruct W as [|c w C _]; cbn; [reflexivity|]. assert (X : forallb (fun c => implb (is_space c) (negb (is_idchar c || Ascii.eqb c "."))) all_bytes = true) by (vm_compute; reflexivity).
      rewrite forallb_forall in X. specialize (X c (all_bytes_in c)). rewrite C in X. now apply negb_true_iff. }
  destruct H as (o & H & [(x & ->)|(x & r & -> & S)]).
  - eapply ev_map_no. eapply ev_seq_no, ev_seq_no, ev_seq_no, ev_lex_no. exact H.
  - destruct (stuck_list k N r S) as (y & r2 & Hl & S2). eapply ev_map_no. eapply ev_seq_no, ev_seq_no2; [eapply ev_seq_ok; [apply ev_lex_ok; exact H|exact Hl]|].
    eapply ev_lit_no. eapply stuck_lit; [exact N|]. now apply stuck_skip.
Qed.
(** behind "TABLE(" there is no shape *)
Definition tsk (i j : text) : Prop := rf i j /\ forall x r r', strip true (L "table(") (skip i) = Some (x, r) -> strip true (L "table(") (skip j) = Some (x, r') -> rt r r'.
Lemma tsk_skip i j : tsk i j -> tsk (skip i) (skip j).
Proof. intros [A B]. split; [now apply rf_skip|rewrite !skip_skip; exact B]. Qed.
Definition tsk0 (i j : text) : Prop := rf i j /\ forall x r r', strip true (L "table(") i = Some (x, r) -> strip true (L "table(") j = Some (x, r') -> rt r r'.
Lemma rg_tvf_head : sgood tsk0 rq s_tvf_head.
Proof.
  unfold s_tvf_head. apply sg_hold. eapply sg_seq with rt.
  - apply sg_strip. intros i j [K T]. pose proof (rstrip true (L "table(") false i j eq_refl K) as X.
    destruct (strip true (L "table(") i) as [[x r]|] eqn:Ei, (strip true (L "table(") j) as [[x' r']|] eqn:Ej; cbn [strip_sim] in X |- *; try contradiction; [|exact I].
    destruct X as [<- _]. split; [reflexivity|]. now apply (T x).
  - eapply sg_seq with rt.
    + eapply sg_seq; [apply rg_letter|]. apply sg_star. apply rg_word, wcls. vm_compute. reflexivity.
    + apply sg_strip. apply (strip_seq rt rf rq); [intros i j K; now apply rstrip with true|]. intros i j K. apply rstrip_quote; [now left|exact K].
Qed.
Lemma rp_comma : pg rq rq (lit "','").
Proof.
  apply pg_lit; [apply rq_skip|]. apply (strip_seq rq rf rq); [intros i j K; eapply rweaken, rstrip_unquote; [now left|exact K]|].
  apply (strip_seq rf rf rq); [intros i j K; now apply rstrip with false|]. intros i j K. apply rstrip_quote; [now left|exact K].
Qed.
Lemma rp_end : pg rq rf (lit "')").
Proof.
  apply pg_lit; [apply rq_skip|]. apply (strip_seq rq rf rf); [intros i j K; eapply rweaken, rstrip_unquote; [now left|exact K]|].
  intros i j K. now apply rstrip with false.
Qed.
Lemma rq_pqi : sgood rq rq s_pqi.
Proof. eapply sg_seq; [now apply rchr_inside|]. apply sg_star. now apply rchr_inside. Qed.
Lemma pg_lexs (R R0 R1 : rel) e : (forall i j, R i j -> R (skip i) (skip j)) -> (forall i j, R i j -> R0 (skip i) (skip j)) -> sgood R0 R1 e -> pg R R1 (PLex e).
Proof.
  intros Sk S0 H i j K N. rewrite run_Lex in *. unfold lex in *. destruct (srun e [] (skip i)) as [v r|v|x|] eqn:E; [..|congruence];
    (assert (S : sev e [] (skip i) (srun e [] (skip i))) by (apply srun_sev; rewrite E; discriminate)); rewrite E in S; destruct (H _ _ _ _ (S0 _ _ K) S) as (o & S' & X); destruct o; cbn [osim] in X; try contradiction.
  - destruct X as [<- X]. eexists. split; [econstructor; eassumption|]. now split.
  - subst. eexists. split; [eapply ev_lex_no; eassumption|]. cbn. auto.
  - eexists. split; [eapply ev_lex_th; eassumption|]. exact X.
Qed.
Lemma rp_tvf : pg rf rf g_table_valued_function.
Proof.
  assert (G : pg tsk rf g_table_valued_function).
  { apply pg_map. eapply pg_seq; [|now apply rp_lit0]. eapply pg_seq; [|apply rp_end]. eapply pg_seq.
    - eapply pg_lexs; [apply tsk_skip| |apply rg_tvf_head]. intros i j [A B]. split; [now apply rf_skip|exact B].
    - apply pg_opt. apply pg_list with rq; [| |apply rp_comma]; apply pg_lex; (apply rq_skip || apply rq_pqi). }
  intros i j K N. pose proof (rstrip true (L "table(") false _ _ eq_refl (rf_skip _ _ K)) as X.
  destruct (strip true (L "table(") (skip i)) as [[x r]|] eqn:Ei, (strip true (L "table(") (skip j)) as [[x' r']|] eqn:Ej; cbn [strip_sim] in X; try contradiction.
  - destruct X as [<- R]. destruct (rs_cases _ _ _ R) as [V|[_ V]].
    + destruct (G i j) as (o & S & Y); [|exact N|].
      * split; [exact K|]. intros y u u' Eu Eu'. rewrite Ei in Eu. rewrite Ej in Eu'. injection Eu as <- <-. injection Eu' as <-. exact V.
      * exists o. split; [exact S|]. destruct (RUN _ g_table_valued_function i), o; cbn [psim] in *; auto. apply Y.
    + destruct V as (v & sp & a & a' & f & i' & j' & I & W & A & A' & F & F' & R' & -> & ->). apply strip_nc_iff in Ei as [Ei U], Ej as [Ej _].
      rewrite (run_of _ _ _ (tvf_no i x v sp a f i' Ei U I W A F) N). eexists. split; [eapply tvf_no; eauto|]. exact K.
  - destruct (G i j) as (o & S & Y); [|exact N|].
    + split; [exact K|]. intros y u u' Eu _. congruence.
    + exists o. split; [exact S|]. destruct (RUN _ g_table_valued_function i), o; cbn [psim] in *; auto. apply Y.
Qed.

(** ** The grammar *)
Notation pr0 := (pg rf rf).
Ltac rgt := first [apply rg_identifier|apply rg_tap|apply rg_table|apply rg_qstar|apply rg_literal|apply rg_unsigned|apply rg_sign|apply rg_union|apply rg_not
  |apply rg_kw_soft; reflexivity|apply rg_kw_hard; reflexivity|apply rg_kws_hard; reflexivity|apply rg_kws_soft; reflexivity
  |apply rg_held; [reflexivity|first [apply rg_sp|apply rg_nonid]]|apply rg_strs; reflexivity|apply rg_strs_cs; reflexivity|rbyte
  |apply sg_alt; [apply rg_regular|apply rg_strs; reflexivity]|repeat apply sg_alt; rbyte].
Ltac headof e := match e with ?f _ => headof f | _ => e end.
Ltac gr1 := match goal with
  | |- pr0 (lit _) => apply rp_lit0; reflexivity
  | |- pr0 (kw _) => apply rp_kw0; reflexivity
  | |- pr0 ident => apply rp_lex0, rg_identifier
  | |- pr0 (PLex _) => apply rp_lex0; rgt
  | |- pr0 (POptLex _) => apply rp_olex0; rgt
  | |- pr0 PSpace => apply rp_space
  | |- pr0 PTop => apply rp_top
  | |- pr0 (PRet _) => apply pg_ret
  | |- pr0 g_coord_sys => apply rp_coord_sys
  | |- pr0 g_table_valued_function => apply rp_tvf
  | |- pr0 (PSeq _ _) => apply pg_seq with rf
  | |- pr0 (PExp _ _) => apply pg_exp with rf
  | |- pr0 (PAlt _ _) => apply pg_alt
  | |- pr0 (POpt _) => apply pg_opt
  | |- pr0 (PStar _) => apply pg_star
  | |- pr0 (PPlus _) => apply pg_plus
  | |- pr0 (PList _ _) => apply pg_list with rf
  | |- pr0 (PMap _ _) => apply pg_map
  | |- pr0 ?e => let h := headof e in unfold h
  end.
Ltac gr := repeat first [assumption|gr1].
(** behind the name of a shape *)
Notation prs := (pg rs rs).
Lemma rp_out {A : Set} (e : PE A) : pg rs rf e -> prs e.
Proof. apply pg_weak. intros i j. apply rs_of. Qed.
Lemma rp_lits s : okw false (L s) = true -> pg rs rf (lit s).
Proof. intros P. apply rp_lit. intros i j K. now apply rstrip with false. Qed.
Lemma c_ident : pg rs rf ident. Proof. apply rp_lex, rg_identifier. Qed.
Lemma rp_dbl0 : pr0 PDbl.
Proof.
  intros i j K _. rewrite run_Dbl. pose proof (rdbl _ _ (rs_of _ _ _ K)) as X.
  destruct (dbl (skip i)) as [[u r]|] eqn:Ei, (dbl (skip j)) as [[u' r']|] eqn:Ej; cbn [strip_sim] in X; try contradiction.
  - destruct X as [<- X]. eexists. split; [econstructor; eassumption|]. now split.
  - eexists. split; [eapply ev_dbl_no; eassumption|]. cbn. now apply rf_skip.
Qed.
Ltac tailg := repeat (apply pg_seq with rf; [|solve [gr]]).
Lemma c_colref : prs (g_column_reference m).
Proof.
  unfold g_column_reference, g_catalog_schema_qualifier_column, g_schema_qualifier_column, g_qualifier_column. apply rp_out.
  repeat apply pg_alt; apply pg_map; tailg; try apply c_ident. apply pg_alt; [apply rp_lex, rg_tap|apply c_ident].
Qed.
Lemma c_csae : prs (g_csae m).
Proof.
  unfold g_csae, g_binary_arithmetic_expression. repeat apply pg_alt; apply pg_map.
  - apply rp_out. apply pg_seq with rf; [|apply rp_dbl0]. tailg. apply rp_dbl.
  - apply c_colref.
  - apply rp_out, rp_dbl.
Qed.
Lemma c_coord : prs (g_coord m).
Proof. unfold g_coord. apply pg_map. apply pg_seq with rs; [|apply c_csae]. apply pg_seq with rs; [apply c_csae|apply rp_out, rp_lits; reflexivity]. Qed.
Lemma r_point : pr0 (g_point m).
Proof.
  unfold g_point. apply pg_map. apply pg_exp with rs; [|apply rp_lits; reflexivity]. apply pg_exp with rs; [apply rp_head; cbn; auto|apply c_coord].
Qed.
Ltac shp := repeat (apply pg_exp with rs; [|first [apply c_csae|apply c_coord|apply rp_out, rp_lits; reflexivity]]).
Lemma r_head_ellipse : pg rf rs (g_shape_head "ELLIPSE").
Proof. apply pg_weak with rf; [apply rs_of|]. gr. Qed.
Lemma r_shape : pr0 (g_shape m).
Proof.
  unfold g_shape, g_circle, g_box, g_ellipse, g_polygon. repeat apply pg_alt; apply pg_map; [apply r_point|..]; (apply pg_exp with rs; [|apply rp_lits; reflexivity]).
  - shp. apply rp_head. cbn. auto.
  - shp. apply rp_head. cbn. auto.
  - shp. apply r_head_ellipse.
  - apply pg_exp with rs; [apply rp_head; cbn; auto|]. apply pg_list with rs; [apply c_coord|apply c_coord|apply rp_out, rp_lits; reflexivity].
Qed.
Section Rules.
Hypothesis Hr : forall r, pr0 (PRule r).
Lemma r_colref : pr0 (g_column_reference m). Proof. gr. Qed.
Hint Resolve r_colref : rdb.
Ltac gs := repeat first [assumption|exact (Hr R_ve)|exact (Hr R_venb)|exact (Hr R_sc)|exact (Hr R_subq)|exact (Hr R_jt)|exact (Hr R_tref)|solve [eauto 1 with rdb nocore]|gr1].
Lemma r_geometry : pr0 (g_geometry m). Proof. pose proof r_shape. gs. Qed.
Lemma r_nvf : pr0 (g_numeric_value_function m). Proof. pose proof r_point. gs. Qed.
Lemma r_vep : pr0 (g_value_expression_primary m). Proof. gs. Qed.
Lemma r_factor : pr0 (g_factor m). Proof. pose proof r_vep. pose proof r_nvf. gs. Qed.
Lemma r_venb : pr0 (g_value_expression_non_bool m). Proof. pose proof r_factor. gs. Qed.
Lemma r_pred : pr0 g_predicate. Proof. gs. Qed.
Lemma r_sc : pr0 g_search_condition. Proof. pose proof r_pred. gs. Qed.
Lemma r_jt : pr0 (g_joined_table m). Proof. gs. Qed.
Lemma r_tref : pr0 (g_table_reference m). Proof. gs. Qed.
Lemma r_query w : pr0 w -> pr0 (g_query_gen m w).
Proof. intros Hw. gs. Qed.
Lemma r_body r : pr0 (g_body m r).
Proof.
  destruct r; cbn [g_body]; [gs|apply r_venb|apply r_sc| |apply r_jt|apply r_tref].
  assert (X : pr0 (g_query_no_geometry m)) by (apply r_query; gs). gs.
Qed.
Lemma r_top : pr0 (g_query m).
Proof. apply r_query. pose proof r_geometry. gs. Qed.
End Rules.
End Peg.

Lemma rules_like tm n : forall r, pg (lookup tm) n rf rf (PRule r).
Proof.
  induction n as [|n IH]; intros r i j K N; [now rewrite run_Rule_0 in N|]. rewrite run_Rule in *.
  destruct (r_body tm n IH r i j K N) as (o & S & X). exists o. split; [now apply ev_rule|exact X].
Qed.
Lemma query_like tm n : pg (lookup tm) n rf rf (g_query (lookup tm)).
Proof. apply r_top, rules_like. Qed.
