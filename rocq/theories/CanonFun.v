(** What may follow a value, and the functions: printed calls are read back. *)
From Verif Require Import Grammar Print PegProps PegSpec PegEquiv TextLemmas SpecLexical LexProofs LexProofs2 First Calc Look Tight Operand TopProofs SpecCanon PrintEq CanonBase CanonLex CanonGeo CanonHead CanonLead.

(** ** What may follow *)
Definition bnd (k : text) : bool := match k with [] => true | c :: _ => brk c end.
Definition nostart (cs : string) (k : text) : bool := match skip k with [] => true | c :: _ => negb (existsb (Ascii.eqb c) (L cs)) end.
(** behind a primary value without index, behind a factor, behind a value *)
Definition stop1 (k : text) : bool := bnd k && nostart ".(" k.
Definition stop2 (k : text) : bool := bnd k && nostart ".([" k.
Definition vstop (k : text) : bool := bnd k && nostart ".([*/+-|'" k.
Definition sfail (e : se) (k : text) : bool := match srun e [] (skip k) with SFail _ => true | _ => false end.
(** no AND or OR, no operator of a predicate *)
Definition bstop (k : text) : bool := sfail (kws_soft ["AND"; "OR"]%string) k.
Definition pstop (k : text) : bool :=
  sfail s_comparison k && sfail (kws_hard "NOT") k && sfail (kw_hard "BETWEEN") k && sfail (SExp (SStr true (L "NOT")) (SChr is_space)) k && sfail (kw_hard "IN") k &&
  sfail (kw_hard "IS") k && sfail (kws_soft ["NOT"]%string) k && sfail (kw_soft "LIKE") k.
Definition astop (k : text) : bool := vstop k && bstop k && pstop k.
Lemma bnd_ok k : bnd k = true -> boundary k.
Proof. now destruct k. Qed.
Lemma nostart_sub cs cs' k : forallb (fun c => existsb (Ascii.eqb c) (L cs)) (L cs') = true -> nostart cs k = true -> nostart cs' k = true.
Proof.
  unfold nostart. destruct (skip k) as [|c t]; [auto|]. intros F H. apply negb_true_iff in H. apply negb_true_iff. destruct (existsb (Ascii.eqb c) (L cs')) eqn:E; [|reflexivity].
  apply existsb_exists in E as (x & I & X). apply Ascii.eqb_eq in X as <-. apply (proj1 (forallb_forall _ _) F) in I. congruence.
Qed.
Lemma stop21 k : stop2 k = true -> stop1 k = true.
Proof. unfold stop1, stop2. intros [A B]%andb_true_iff. rewrite A. cbn. eapply nostart_sub; [|exact B]. reflexivity. Qed.
Lemma vstop2 k : vstop k = true -> stop2 k = true.
Proof. unfold vstop, stop2. intros [A B]%andb_true_iff. rewrite A. cbn. eapply nostart_sub; [|exact B]. reflexivity. Qed.
Lemma vstop1 k : vstop k = true -> stop1 k = true.
Proof. intros H. apply stop21, vstop2, H. Qed.
Lemma astop_v k : astop k = true -> vstop k = true. Proof. unfold astop. intros H. now ands. Qed.
Lemma astop_b k : astop k = true -> bstop k = true. Proof. unfold astop. intros H. now ands. Qed.
Lemma astop_p k : astop k = true -> pstop k = true. Proof. unfold astop. intros H. now ands. Qed.
Lemma stop1_bnd k : stop1 k = true -> boundary k.
Proof. unfold stop1. intros H. ands. now apply bnd_ok. Qed.
Lemma stop1_nstop k : stop1 k = true -> nstop k.
Proof. intros H. now apply boundary_nstop, stop1_bnd. Qed.
Lemma nostart_lit cs s k : nostart cs k = true -> match L s with c :: _ => existsb (Ascii.eqb c) (L cs) = true | [] => False end -> strip false (L s) (skip k) = None.
Proof.
  unfold nostart. intros H C. destruct (L s) as [|x l]; [easy|]. destruct (skip k) as [|c t]; [reflexivity|]. apply negb_true_iff in H. cbn. destruct (Ascii.eqb x c) eqn:E; [|reflexivity].
  apply Ascii.eqb_eq in E as ->. congruence.
Qed.
Lemma stop1_nodot k : stop1 k = true -> nodot k.
Proof. unfold stop1. intros H. ands. unfold nodot. eapply nostart_lit; [eassumption|reflexivity]. Qed.
Lemma bnd_word k : bnd k = true -> stops word_char k.
Proof. destruct k as [|c k]; [easy|]. cbn. intros H. apply (no_word_char c k). now destruct (brk_no _ H). Qed.
Lemma stop1_word k : stop1 k = true -> stops word_char k.
Proof. unfold stop1. intros H. ands. now apply bnd_word. Qed.
Lemma stop1_number k : stop1 k = true -> after_number k.
Proof.
  unfold stop1. intros H. ands. destruct k as [|c k]; [easy|]. cbn in *. intros [X|X].
  - apply is_idchar_iff in X. destruct (brk_no _ H). congruence.
  - subst c. vm_compute in H. discriminate.
Qed.

Section Fun.
Variable m : text -> option text.
Variable fmt : text -> text.
Notation reads := (reads m).
Notation fails := (fails m).
Definition arg (v : ve) : Prop := forall i k, astop k = true -> skip i = skip (pr_ve fmt v ++ k) -> reads p_ve i v (skip k).
Lemma rd_args l i k : l <> [] -> Forall arg l -> astop k = true -> strip false (L ",") (skip k) = None -> skip i = skip (join (L ",") (map (pr_ve fmt) l) ++ k) ->
  reads (PList p_ve (lit ",")) i l (skip k).
Proof.
  intros N F K Kc H. eapply (rd_list m _ _ (L ",") (pr_ve fmt) (fun k => astop k = true)); [exact N| | | | | |exact H].
  - exact F. - intros t. reflexivity. - intros r t Ht. now apply rd_comma. - exact K. - intros r Hr. eapply no_lit; eauto.
Qed.
Lemma rd_args_sp l i k : l <> [] -> Forall arg l -> astop k = true -> strip false (L ",") (skip k) = None -> skip i = skip (join (L ", ") (map (pr_ve fmt) l) ++ k) ->
  reads (PList p_ve (lit ",")) i l (skip k).
Proof.
  intros N F K Kc H. eapply (rd_list m _ _ (L ", ") (pr_ve fmt) (fun k => astop k = true)); [exact N| | | | | |exact H].
  - exact F. - intros t. reflexivity. - intros r t Ht. change (skip t) with (skip (L " " ++ t)). now apply rd_comma. - exact K. - intros r Hr. eapply no_lit; eauto.
Qed.
(** the name of a function, in any letter case, and a parenthesis *)
Lemma starts_call f i k : skip i = skip (f ++ L "(" ++ k) -> starts_as false i (upper f ++ L "(").
Proof. intros H. exists (f ++ L "("), k. rewrite <- app_assoc. repeat split; auto; [|discriminate]. unfold upper. now rewrite map_app. Qed.
Lemma starts_bnd f i k : boundary k -> skip i = skip (f ++ k) -> starts_as true i (upper f).
Proof. intros B H. now exists f, k. Qed.
Lemma starts_text p i k : upper p = p -> skip i = skip (p ++ k) -> starts_as false i p.
Proof. intros U H. exists p, k. repeat split; auto. discriminate. Qed.
Lemma word_dark' f : word f -> dark f.
Proof. intros W. destruct (word_starts _ W) as (c & w & -> & Hc). cbn. now apply idchar_space, letter_idchar. Qed.
Lemma call_run ws f k : clear_of ws (upper f) = true -> forallb (fun w => all_id (L w)) ws = true -> forallb (fun w => text_eqb (upper (L w)) (L w)) ws = true ->
  srun (strs_nc ws) [] (f ++ L "(" ++ k) = SOk f (L "(" ++ k).
Proof. intros A B C. apply strs_pick; auto. right. eexists "("%char, k. auto. Qed.
Lemma held_call ws f k : clear_of ws (upper f) = true -> forallb (fun w => all_id (L w)) ws = true -> forallb (fun w => text_eqb (upper (L w)) (L w)) ws = true ->
  srun (SHold (SSeq (strs_nc ws) ahead_nonid)) [] (f ++ L "(" ++ k) = SOk f (L "(" ++ k).
Proof. intros A B C. cbn [srun]. rewrite call_run by auto. reflexivity. Qed.
Lemma clear_listed ws f : clear_of ws (upper f) = true -> forallb (fun u => is_word (L u)) ws = true -> word f.
Proof.
  intros H F. eapply (listed_word ws); [exact F|]. clear F. induction ws as [|w ws IH]; [discriminate|]. cbn in *. destruct (text_eqb (upper f) (L w)) eqn:E; [left; symmetry; now apply text_eqb_iff|].
  right. apply IH. now destruct (llook _ _ _ _).
Qed.
Lemma rd_name_call ws f i k : clear_of ws (upper f) = true -> forallb (fun u => is_word (L u)) ws = true -> forallb (fun w => all_id (L w)) ws = true -> forallb (fun w => text_eqb (upper (L w)) (L w)) ws = true ->
  skip i = skip (f ++ L "(" ++ k) -> reads (PLex (strs_nc ws)) i f (skip (L "(" ++ k)).
Proof.
  intros A W B C H. eapply reads_lex; [apply swf_strs_nc|]. rewrite H, dark_skip by (apply word_dark'; eapply clear_listed; eauto). now apply call_run.
Qed.
Lemma rd_held_call ws f i k : clear_of ws (upper f) = true -> forallb (fun u => is_word (L u)) ws = true -> forallb (fun w => all_id (L w)) ws = true -> forallb (fun w => text_eqb (upper (L w)) (L w)) ws = true ->
  skip i = skip (f ++ L "(" ++ k) -> reads (PLex (SHold (SSeq (strs_nc ws) ahead_nonid))) i f (skip (L "(" ++ k)).
Proof.
  intros A W B C H. eapply reads_lex; [cbn [swf]; rewrite swf_strs_nc; reflexivity|]. rewrite H, dark_skip by (apply word_dark'; eapply clear_listed; eauto). now apply held_call.
Qed.
(** every name of the list [I : In (upper f) ...] in turn *)
Ltac names I := repeat (destruct I as [I|I]); [..|destruct I]; symmetry in I.
Ltac look H I := eapply look_fail; [eapply starts_call; exact H|rewrite I; reflexivity].
Ltac name_list I := (rewrite I; reflexivity).
Lemma rd_trig1 f a i k : one_of_nc f ["ACOS"; "ASIN"; "ATAN"; "COS"; "COT"; "SIN"; "TAN"]%string = true -> arg a -> skip i = skip (pr_nvf fmt (NV_trig1 f a) ++ k) ->
  reads (g_numeric_value_function m) i (NV_trig1 f a) (skip k).
Proof.
  intros I A H. rewrite pr_nvf_NV_trig1, <- !app_assoc in H. apply one_of_nc_iff in I. do 2 apply reads_alt1.
  eapply reads_map with (v := (f, tt, a, tt)); [|reflexivity]. eapply reads_exp; [eapply reads_exp; [eapply reads_exp|]|].
  - eapply rd_held_call; [..|exact H]; try reflexivity. names I; name_list I.
  - intros r Hr. eapply rd_open; exact Hr. - intros r Hr. eapply A; [|exact Hr]. reflexivity. - intros r Hr. eapply rd_close; exact Hr.
Qed.
Lemma rd_trig2 f a b i k : one_of_nc f ["ATAN2"]%string = true -> arg a -> arg b -> skip i = skip (pr_nvf fmt (NV_trig2 f a b) ++ k) ->
  reads (g_numeric_value_function m) i (NV_trig2 f a b) (skip k).
Proof.
  intros I A B H. rewrite pr_nvf_NV_trig2, <- !app_assoc in H. apply one_of_nc_iff in I. apply reads_alt1. apply reads_alt2; [names I; look H I|]. intros r0 H0. rewrite <- H0 in H.
  eapply reads_map with (v := (f, tt, a, tt, b, tt)); [|reflexivity]. eapply reads_exp; [eapply reads_exp; [eapply reads_exp; [eapply reads_exp; [eapply reads_exp|]|]|]|].
  - eapply rd_held_call; [..|exact H]; try reflexivity. names I; name_list I.
  - intros r Hr. eapply rd_open; exact Hr. - intros r Hr. eapply A; [|exact Hr]. reflexivity. - intros r Hr. eapply rd_comma; exact Hr.
  - intros r Hr. eapply B; [|exact Hr]. reflexivity. - intros r Hr. eapply rd_close; exact Hr.
Qed.
Lemma rd_math0 f i k : one_of_nc f ["PI"; "RAND"]%string = true -> skip i = skip (pr_nvf fmt (NV_math0 f) ++ k) -> reads (g_numeric_value_function m) i (NV_math0 f) (skip k).
Proof.
  intros I H. rewrite pr_nvf_NV_math0, <- !app_assoc in H. change (L "()" ++ k) with (L "(" ++ L ")" ++ k) in H. apply one_of_nc_iff in I.
  apply reads_alt2; [names I; look H I|]. intros r0 H0. rewrite <- H0 in H. do 2 apply reads_alt1.
  eapply reads_map with (v := (f, tt, tt)); [|reflexivity]. eapply reads_seq; [eapply reads_seq|].
  - eapply rd_name_call; [..|exact H]; try reflexivity. names I; name_list I.
  - intros r Hr. eapply rd_open; exact Hr. - intros r Hr. eapply rd_close; exact Hr.
Qed.
Lemma rd_math1 f a i k : one_of_nc f ["ABS"; "CEILING"; "DEGREES"; "EXP"; "FLOOR"; "LOG"; "LOG10"; "RADIANS"; "RAND"; "ROUND"; "SQRT"; "TRUNCATE"]%string = true -> arg a -> lead (pr_ve fmt a ++ L ")" ++ k) ->
  skip i = skip (pr_nvf fmt (NV_math1 f a) ++ k) -> reads (g_numeric_value_function m) i (NV_math1 f a) (skip k).
Proof.
  intros I A LA H. rewrite pr_nvf_NV_math1, <- !app_assoc in H. apply one_of_nc_iff in I.
  apply reads_alt2; [names I; look H I|]. intros r0 H0. rewrite <- H0 in H. apply reads_alt1.
  apply reads_alt2.
  { destruct (list_eq_dec ascii_dec (upper f) (L "RAND")) as [R|R].
    - apply fails_map. eapply fails_seq2; [eapply reads_seq|].
      + eapply rd_name_call; [..|exact H]; try reflexivity. rewrite R. reflexivity.
      + intros r Hr. eapply rd_open; exact Hr.
      + intros r Hr. eapply lead_no_char; [exact LA|reflexivity|exact Hr].
    - names I; try (look H I). congruence. }
  intros r1 H1. rewrite <- H1 in H. apply reads_alt1.
  eapply reads_map with (v := (f, tt, a, tt)); [|reflexivity]. eapply reads_seq; [eapply reads_seq; [eapply reads_seq|]|].
  - eapply rd_name_call; [..|exact H]; try reflexivity. names I; name_list I.
  - intros r Hr. eapply rd_open; exact Hr. - intros r Hr. eapply A; [|exact Hr]. reflexivity. - intros r Hr. eapply rd_close; exact Hr.
Qed.
Lemma rd_math2 f a b i k : one_of_nc f ["MOD"; "POWER"; "ROUND"; "TRUNCATE"]%string = true -> arg a -> arg b ->
  skip i = skip (pr_nvf fmt (NV_math2 f a b) ++ k) -> reads (g_numeric_value_function m) i (NV_math2 f a b) (skip k).
Proof.
  intros I A B H. rewrite pr_nvf_NV_math2, <- !app_assoc in H. apply one_of_nc_iff in I.
  apply reads_alt2; [names I; look H I|]. intros r0 H0. rewrite <- H0 in H. apply reads_alt1.
  apply reads_alt2; [names I; look H I|]. intros r1 H1. rewrite <- H1 in H.
  apply reads_alt2.
  { assert (X : In (upper f) (map L ["MOD"; "POWER"]%string) \/ In (upper f) (map L ["ROUND"; "TRUNCATE"]%string)) by (cbn in I |- *; tauto). destruct X as [X|X].
    - names X; look H X.
    - apply fails_map. eapply fails_seq2; [eapply reads_seq; [eapply reads_seq|]|].
      + eapply rd_name_call; [..|exact H]; try reflexivity. names X; name_list X.
      + intros r Hr. eapply rd_open; exact Hr.
      + intros r Hr. eapply A; [|exact Hr]. reflexivity.
      + intros r Hr. eapply no_lit; [|exact Hr]. reflexivity. }
  intros r2 H2. rewrite <- H2 in H.
  eapply reads_map with (v := (f, tt, a, tt, b, tt)); [|reflexivity]. eapply reads_seq; [eapply reads_seq; [eapply reads_seq; [eapply reads_seq; [eapply reads_seq|]|]|]|].
  - eapply rd_name_call; [..|exact H]; try reflexivity. names I; name_list I.
  - intros r Hr. eapply rd_open; exact Hr. - intros r Hr. eapply A; [|exact Hr]. reflexivity. - intros r Hr. eapply rd_comma; exact Hr.
  - intros r Hr. eapply B; [|exact Hr]. reflexivity. - intros r Hr. eapply rd_close; exact Hr.
Qed.

(** CAST *)
Lemma nonid_run ws f c k : clear_of ws (upper f) = true -> is_idchar c = false -> forallb (fun w => all_id (L w)) ws = true -> forallb (fun w => text_eqb (upper (L w)) (L w)) ws = true ->
  srun (strs_nc ws) [] (f ++ c :: k) = SOk f (c :: k).
Proof. intros A B C D. apply strs_pick; auto. right. eexists c, k. auto. Qed.
Lemma rd_cast a t n i k : one_of_nc t ["BIGINT"; "CHAR"; "FLOAT4"; "FLOAT8"; "INTEGER"; "NUMERIC"; "TEXT"; "VARCHAR"; "VARCHAR2"]%string = true -> is_nil n || is_digits n = true -> arg a ->
  skip i = skip (pr_nvf fmt (NV_cast a t n) ++ k) -> reads (g_numeric_value_function m) i (NV_cast a t n) (skip k).
Proof.
  intros T N A H. rewrite pr_nvf_NV_cast, <- !app_assoc in H. apply one_of_nc_iff in T.
  apply reads_alt2; [eapply look_fail; [eapply (starts_text (L "CAST(")); [|exact H]|]; reflexivity|]. intros r0 H0. rewrite <- H0 in H.
  apply reads_alt2; [eapply look_fail; [eapply (starts_text (L "CAST(")); [|exact H]|]; reflexivity|]. intros r1 H1. rewrite <- H1 in H. apply reads_alt1.
  assert (D : dark t) by (eapply word_dark', clear_listed with (ws := ["NUMERIC"; "FLOAT4"; "INTEGER"; "BIGINT"; "FLOAT8"; "VARCHAR2"; "VARCHAR"; "CHAR"; "TEXT"]%string); [names T; name_list T|reflexivity]).
  eapply reads_map with (v := (tt, tt, a, tt, tt, tt, t, if is_nil n then None else Some n, tt)); [|now destruct n].
  eapply reads_seq; [eapply reads_seq; [eapply reads_seq|]|].
  - eapply seq_space with (c := " "%char) (k := t ++ (if is_nil n then [] else L "(" ++ n ++ L ")") ++ L ")" ++ k); [|reflexivity].
    eapply seq_exact; [eapply seq_space_after with (t := L "CAST(" ++ pr_ve fmt a) (c := " "%char) (k := L "AS " ++ t ++ (if is_nil n then [] else L "(" ++ n ++ L ")") ++ L ")" ++ k);
      [reflexivity|reflexivity|rewrite H; rewrite dark_skip by reflexivity; rewrite <- !app_assoc; reflexivity|]|].
    + eapply reads_seq; [eapply reads_seq|].
      * eapply rd_kw with (t := L "CAST"); [reflexivity..|exact H].
      * intros r Hr. eapply rd_open; exact Hr.
      * intros r Hr. pose proof (fun Z => A _ _ Z Hr) as A'. apply A'. reflexivity.
    + intros r Hr. eapply (ev_kw m "AS"); [reflexivity|exact Hr].
  - intros r Hr. eapply (reads_lex m _ _ t ((if is_nil n then [] else L "(" ++ n ++ L ")") ++ L ")" ++ k)); [apply swf_strs_nc|]. rewrite Hr.
    rewrite dark_skip by exact D.
    destruct (is_nil n); (apply nonid_run; [names T; name_list T|reflexivity..]).
  - intros r Hr. instantiate (1 := skip (L ")" ++ k)). destruct n as [|d n].
    + cbn [is_nil app] in *. rewrite <- Hr. apply reads_none. apply fails_map. apply fails_exp1, fails_exp1. eapply no_lit; [|exact Hr]. reflexivity.
    + cbn [is_nil orb] in *. apply is_digits_ok in N. rewrite <- !app_assoc in Hr. apply reads_some. eapply reads_map with (v := (tt, d :: n, tt)); [|reflexivity]. eapply reads_exp; [eapply reads_exp|].
      * eapply rd_open; exact Hr.
      * intros r2 H2. eapply reads_lex; [reflexivity|]. rewrite H2. rewrite dark_skip; [apply digits_run; [exact N|]; cbn; intros X; apply is_digit_iff in X; discriminate X|].
        destruct (digits_starts _ N) as (x & y & E & X). injection E as <- <-. cbn. revert X. clear. destruct d as [[] [] [] [] [] [] [] []]; vm_compute; auto; discriminate.
      * intros r2 H2. eapply rd_close; exact H2.
  - intros r Hr. eapply rd_close. exact Hr.
Qed.
Lemma rd_geo1 f a i k : one_of_nc f ["COORD1"; "COORD2"]%string = true -> c_poc fmt a = true -> skip i = skip (pr_nvf fmt (NV_geo1 f a) ++ k) ->
  reads (g_numeric_value_function m) i (NV_geo1 f a) (skip k).
Proof.
  intros I A H. rewrite pr_nvf_NV_geo1 in H. assert (E : is_nil f = false) by (destruct f; [discriminate I|reflexivity]). rewrite E in H. rewrite <- !app_assoc in H. apply one_of_nc_iff in I.
  apply reads_alt2; [names I; look H I|]. intros r0 H0. rewrite <- H0 in H. apply reads_alt2; [names I; look H I|]. intros r1 H1. rewrite <- H1 in H.
  apply reads_alt2; [names I; look H I|]. intros r2 H2. rewrite <- H2 in H. do 2 apply reads_alt1.
  eapply reads_map with (v := (f, tt, a, tt)); [|reflexivity]. eapply reads_exp; [eapply reads_exp; [eapply reads_exp|]|].
  - eapply rd_held_call; [..|exact H]; try reflexivity. names I; name_list I.
  - intros r Hr. eapply rd_open; exact Hr. - intros r Hr. eapply rd_poc; [exact A| |exact Hr]. apply gstop_close. - intros r Hr. eapply rd_close; exact Hr.
Qed.
Lemma rd_geo2 f a b i k : one_of_nc f ["DISTANCE"]%string = true -> c_poc fmt a = true -> c_poc fmt b = true -> skip i = skip (pr_nvf fmt (NV_geo2 f a b) ++ k) ->
  reads (g_numeric_value_function m) i (NV_geo2 f a b) (skip k).
Proof.
  intros I A B H. rewrite pr_nvf_NV_geo2 in H. assert (E : is_nil f = false) by (destruct f; [discriminate I|reflexivity]). rewrite E in H. rewrite <- !app_assoc in H. apply one_of_nc_iff in I.
  apply reads_alt2; [names I; look H I|]. intros r0 H0. rewrite <- H0 in H. apply reads_alt2; [names I; look H I|]. intros r1 H1. rewrite <- H1 in H.
  apply reads_alt2; [names I; look H I|]. intros r2 H2. rewrite <- H2 in H. apply reads_alt1. apply reads_alt2; [names I; look H I|]. intros r3 H3. rewrite <- H3 in H.
  eapply reads_map with (v := (f, tt, a, tt, b, tt)); [|reflexivity]. eapply reads_exp; [eapply reads_exp; [eapply reads_exp; [eapply reads_exp; [eapply reads_exp|]|]|]|].
  - eapply rd_held_call; [..|exact H]; try reflexivity. names I; name_list I.
  - intros r Hr. eapply rd_open; exact Hr. - intros r Hr. eapply rd_poc; [exact A| |exact Hr]. apply gstop_comma. - intros r Hr. eapply rd_comma; exact Hr.
  - intros r Hr. eapply rd_poc; [exact B| |exact Hr]. apply gstop_close. - intros r Hr. eapply rd_close; exact Hr.
Qed.
(** A free word is none of the built-in functions. *)
Lemma free_no_builtin w k i : word w -> ~ reserved w -> upper w <> L "COT" -> stops word_char k -> skip i = w ++ k ->
  fails (g_trig_function) i /\ fails (g_math_function) i /\ fails g_cast_function i /\ fails (g_geo_function m) i.
Proof.
  intros W R cot K E. pose proof (word_chars w W) as F. repeat split.
  - apply fails_alt; [|intros r1 E1].
    + apply fails_map. repeat apply fails_exp1. eapply fails_lex; [reflexivity|]. rewrite E. apply held_word; auto.
      intros u Hu. destruct (string_dec u "COT") as [->|N]; [split; auto|]. revert u Hu N.
      assert (words_ok ["ACOS"; "ASIN"; "ATAN"; "COS"; "SIN"; "TAN"]%string w) as H by (apply reserved_ne; [exact R|vm_compute; reflexivity]).
      intros u Hu N. apply H. clear - Hu N. cbn [In] in *. intuition congruence.
    + apply fails_map. repeat apply fails_exp1. eapply fails_lex; [reflexivity|]. rewrite E1, E. apply held_word; auto.
      apply reserved_ne; [exact R|vm_compute; reflexivity].
  - apply fails_alt; [|intros r2 E2; apply fails_alt; [|intros r3 E3]]; apply fails_map; inner;
      eapply words_lit_no; eauto; try (apply reserved_ne; [exact R|vm_compute; reflexivity]); try reflexivity; congruence.
  - apply fails_map. inner. eapply kw_lit_no; eauto; try (apply reserved_ne; [exact R|vm_compute; reflexivity]); try reflexivity; congruence.
  - apply fails_alt; [|intros r4 E4]; apply fails_map; repeat apply fails_exp1; (eapply fails_lex; [reflexivity|]);
      rewrite ?E4, ?E; apply held_word; auto; (apply reserved_ne; [exact R|vm_compute; reflexivity]).
Qed.
Lemma udf_free_run w k : word w -> ~ reserved w -> stops word_char k -> srun s_udf_name [] (w ++ k) = SOk w k.
Proof. intros W R K. unfold s_udf_name, s_regular_identifier. cbn [srun]. rewrite free_word_not_keyword by auto. rewrite all_identifiers_run by auto. reflexivity. Qed.
Lemma udf_sql_run f k : In (upper f) (map L ["DISTINCT"; "LEFT"; "LOWER"; "RIGHT"; "TRIM"; "UPPER"]%string) -> srun s_udf_name [] (f ++ L "(" ++ k) = SOk f (L "(" ++ k).
Proof.
  intros I. assert (W : word f) by (eapply (listed_word ["DISTINCT"; "LEFT"; "LOWER"; "RIGHT"; "TRIM"; "UPPER"]%string); [reflexivity|exact I]).
  unfold s_udf_name, s_regular_identifier. cbn [srun].
  destruct (reserved_word_keyword f (L "(" ++ k) W) as (r & ->).
  - now apply (no_word_char "(" k).
  - unfold reserved. apply mem_iff. names I; rewrite I; reflexivity.
  - names I; rewrite I; discriminate.
  - intros S. assert (mem (upper f) shadowed_words = true) as M by now apply mem_iff. clear S. names I; rewrite I in M; discriminate M.
  - change (alts (map (fun w : string => SStr true (L w)) ?ws)) with (strs_nc ws). apply call_run; [names I; name_list I|reflexivity..].
Qed.
Lemma rd_udf f l i k : (free_word f && negb (one_of_nc f ["COT"%string]) || one_of_nc f ["DISTINCT"; "LEFT"; "LOWER"; "RIGHT"; "TRIM"; "UPPER"]%string) = true -> Forall arg l ->
  skip i = skip (pr_nvf fmt (NV_udf f l) ++ k) -> reads (g_numeric_value_function m) i (NV_udf f l) (skip k).
Proof.
  intros I A H. rewrite pr_nvf_NV_udf, <- !app_assoc in H.
  assert (G : forall i, skip i = skip (f ++ L "(" ++ join (L ",") (map (pr_ve fmt) l) ++ L ")" ++ k) ->
    word f /\ srun s_udf_name [] (f ++ L "(" ++ join (L ",") (map (pr_ve fmt) l) ++ L ")" ++ k) = SOk f (L "(" ++ join (L ",") (map (pr_ve fmt) l) ++ L ")" ++ k) /\
    fails (g_trig_function) i /\ fails (g_math_function) i /\ fails g_cast_function i /\ fails (g_geo_function m) i).
  { clear i H. intros i H. apply orb_true_iff in I as [I|I].
    - apply andb_true_iff in I as [I N]. apply free_word_ok in I as [W R]. split; [exact W|]. rewrite (dark_skip f) in H by now apply word_dark'. split.
      + apply udf_free_run; auto. now apply (no_word_char "(").
      + eapply free_no_builtin; [exact W|exact R| | |exact H]; [|now apply (no_word_char "(")]. intros E. unfold one_of_nc in N. rewrite E in N. discriminate N.
    - apply one_of_nc_iff in I. split; [eapply listed_word; [|exact I]; reflexivity|]. split; [now apply udf_sql_run|]. repeat split; names I; look H I. }
  apply reads_alt2; [now apply G|]. intros r0 H0. rewrite <- H0 in H. apply reads_alt2; [now apply G|]. intros r1 H1. rewrite <- H1 in H.
  apply reads_alt2; [now apply G|]. intros r2 H2. rewrite <- H2 in H. apply reads_alt2; [now apply G|]. intros r3 H3. rewrite <- H3 in H. apply reads_alt1.
  destruct (G _ H) as (W & R & _).
  eapply reads_map with (v := (f, tt, (match l with [] => None | _ => Some l end), tt)); [|now destruct l].
  eapply reads_seq; [eapply reads_seq; [eapply reads_seq|]|].
  - eapply (reads_lex m s_udf_name _ f); [reflexivity|]. rewrite H, dark_skip by now apply word_dark'. exact R.
  - intros r Hr. eapply rd_open; exact Hr.
  - intros r Hr. instantiate (1 := skip (L ")" ++ k)). destruct l as [|x l].
    + cbn [map join app] in Hr. rewrite <- Hr. apply reads_none. apply fails_list. eapply look_fail; [eapply (starts_text (L ")")); [|exact Hr]|]; reflexivity.
    + apply reads_some. apply rd_args; auto; discriminate.
  - intros r Hr. eapply rd_close; exact Hr.
Qed.
Lemma rd_noarg s i k : one_of_nc s ["CURRENT_TIMESTAMP"%string] = true -> boundary k -> skip i = skip (pr_nvf fmt (NV_str s) ++ k) ->
  reads (g_numeric_value_function m) i (NV_str s) (skip k).
Proof.
  intros I B H. rewrite pr_nvf_NV_str in H. apply one_of_nc_iff in I. names I.
  assert (S : forall r, skip r = skip i -> starts_as true r (L "CURRENT_TIMESTAMP")) by (intros r Hr; rewrite <- I; eapply starts_bnd; [exact B|now rewrite Hr]).
  assert (W : word s) by (eapply (listed_word ["CURRENT_TIMESTAMP"%string]); [reflexivity|left; auto]).
  do 5 (apply reads_alt2; [eapply look_fail; [apply S; try reflexivity|]; [repeat (match goal with E : skip ?r = skip _ |- skip ?r = _ => rewrite E; clear E end); reflexivity..|reflexivity]|intros ? ?]).
  eapply reads_map with (v := s); [|reflexivity]. eapply reads_lex; [reflexivity|].
  repeat (match goal with E : skip ?r = skip _ |- context [skip ?r] => rewrite E; clear E end). rewrite dark_skip by now apply word_dark'.
  apply strs_pick; [name_list I|now left|reflexivity].
Qed.
End Fun.
