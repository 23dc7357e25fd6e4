(** Tables and joins: printed tables, joins and IN lists are read back. *)
From Verif Require Import Grammar Print PegProps PegSpec PegEquiv TextLemmas SpecLexical LexProofs LexProofs2 First Calc Look Tight Operand TopProofs SpecCanon AstInd PrintEq CanonBase CanonLex CanonGeo CanonHead CanonLead CanonFun CanonPrim CanonVal CanonCond CanonJt.

Section Join.
Variable m : text -> option text.
Variable fmt : text -> text.
Notation reads := (reads m).
Notation fails := (fails m).
Notation noalias := (noalias m).
Notation nosuffix := (nosuffix m).

(** ** Words in front of a blank *)
Lemma sfail_look e w p k : swf e = true -> upper w = p -> dark w -> bnd k = true -> slook true e p = LFail -> sfail e (w ++ k) = true.
Proof.
  intros S U D B E. unfold sfail. rewrite dark_skip by exact D. pose proof (slook_ok true e p w k U (fun _ => bnd_ok _ B) []) as H. rewrite E in H. destruct H as (a & H).
  apply sev_iff in H; [|exact S]. now rewrite H.
Qed.
Lemma sfail_skip e k k' : skip k = skip k' -> sfail e k = sfail e k'.
Proof. unfold sfail. now intros ->. Qed.
Lemma pstop_skip k k' : skip k = skip k' -> pstop k = pstop k'.
Proof. intros H. unfold pstop. now rewrite !(sfail_skip _ k k' H). Qed.
Lemma bstop_skip k k' : skip k = skip k' -> bstop k = bstop k'.
Proof. intros H. unfold bstop. now apply sfail_skip. Qed.
Definition preds : list se := [s_comparison; kws_hard "NOT"; kw_hard "BETWEEN"; SExp (SStr true (L "NOT")) (SChr is_space); kw_hard "IN"; kw_hard "IS"; kws_soft ["NOT"]%string; kw_soft "LIKE"].
Definition lfail (x : lk) : bool := match x with LFail => true | _ => false end.
Lemma lfail_iff x : lfail x = true -> x = LFail. Proof. now destruct x. Qed.
Lemma bstop_word w p k : upper w = p -> dark w -> bnd k = true -> lfail (slook true (kws_soft ["AND"; "OR"]%string) p) = true -> bstop (w ++ k) = true.
Proof. intros U D B F. apply lfail_iff in F. eapply sfail_look; eauto. Qed.
Lemma pstop_word w p k : upper w = p -> dark w -> bnd k = true -> forallb (fun e => lfail (slook true e p)) preds = true -> pstop (w ++ k) = true.
Proof.
  intros U D B F. unfold pstop, preds in *. cbn [forallb] in F. apply andb_true_iff in F as [F1 F]. apply andb_true_iff in F as [F2 F]. apply andb_true_iff in F as [F3 F]. apply andb_true_iff in F as [F4 F].
  apply andb_true_iff in F as [F5 F]. apply andb_true_iff in F as [F6 F]. apply andb_true_iff in F as [F7 F]. apply andb_true_iff in F as [F8 _].
  apply lfail_iff in F1, F2, F3, F4, F5, F6, F7, F8.
  rewrite !(sfail_look _ w p k) by (first [reflexivity|assumption]). reflexivity.
Qed.
Lemma vstop_word w k : word w -> vstop (L " " ++ w ++ k) = true.
Proof.
  intros W. destruct (word_starts w W) as (c & t & -> & Hl). change (L " " ++ (c :: t) ++ k) with (" "%char :: c :: t ++ k). unfold vstop, nostart. rewrite (skip_space " "%char), (dark_skip0 (c :: t ++ k)) by (first [reflexivity|now apply idchar_space, letter_idchar]).
  cbn [bnd]. revert Hl. clear. destruct c as [[] [] [] [] [] [] [] []]; vm_compute; (reflexivity || discriminate).
Qed.

(** no ON or USING *)
Definition nospec (k : text) : Prop := forall i, skip i = skip k -> fails g_join_specification i.
Lemma nospec_word w k t : skip k = w ++ t -> bnd t = true -> glook m true g_join_specification (upper w) = LFail -> nospec k.
Proof. intros K B G i H. eapply look_fail; [|exact G]. exists w, t. split; [|split; [reflexivity|intros _; now apply bnd_ok]]. rewrite H, K. symmetry. rewrite <- K. apply skip_skip. Qed.
Lemma noalias_nc w k t : skip k = w ++ t -> bnd t = true -> glook m true g_correlation_specification (upper w) = LFail -> noalias k.
Proof. intros K B G i H. eapply look_fail; [|exact G]. exists w, t. split; [|split; [reflexivity|intros _; now apply bnd_ok]]. rewrite H, K. symmetry. rewrite <- K. apply skip_skip. Qed.

(** ** How a join goes on *)
Definition suf_words : list string := ["NATURAL"; "JOIN"; "INNER"; "FULL"; "LEFT"; "RIGHT"]%string.
Definition plain_inner (s : jsuf) : bool := match s with JS nat ty _ _ => negb nat && match ty with JTy_plain (_ :: _) => true | _ => false end end.
Lemma suf_start s k : c_jsuf fmt s = true -> exists w t, skip (L " " ++ pr_jsuf fmt s ++ k) = w ++ L " " ++ t /\ word w /\ In (upper w) (map L suf_words) /\ (upper w = L "INNER" -> plain_inner s = true).
Proof.
  destruct s as [nat ty t sp]. intros C. rewrite c_jsuf_JS in C. rewrite pr_jsuf_JS, <- !app_assoc. apply andb_true_iff in C as [C _]. apply andb_true_iff in C as [C _].
  match goal with |- context [L "JOIN " ++ ?x] => generalize x end. intros x. destruct nat.
  - exists (L "NATURAL"), (pr_jtype ty ++ L " " ++ L "JOIN " ++ x). split; [reflexivity|split; [now apply is_word_ok|split; [now left|discriminate]]].
  - destruct ty as [n|n o].
    + destruct (is_nil n) eqn:N.
      * destruct n; [|discriminate]. exists (L "JOIN"), x. split; [reflexivity|split; [now apply is_word_ok|split; [right; now left|discriminate]]].
      * cbn [orb] in C. apply one_of_nc_iff in C. assert (W : word n) by (eapply (listed_word ["INNER"]%string); [reflexivity|exact C]).
        exists n, (L "JOIN " ++ x). cbn [pr_jtype]. split; [|split; [exact W|split]].
        -- cbn [app]. change (L " " ++ n ++ L " " ++ L "JOIN " ++ x) with (" "%char :: n ++ L " " ++ L "JOIN " ++ x). rewrite (skip_space " "%char) by reflexivity. apply dark_skip. now apply word_dark'.
        -- destruct C as [C|[]]. rewrite <- C. right. right. now left.
        -- intros _. cbn. destruct n; [discriminate|reflexivity].
    + apply one_of_nc_iff in C. assert (W : word n) by (eapply (listed_word ["FULL"; "LEFT"; "RIGHT"]%string); [reflexivity|exact C]).
      exists n. cbn [pr_jtype app]. rewrite <- !app_assoc. exists (if o then L "OUTER" ++ L " " ++ L "JOIN " ++ x else L "JOIN " ++ x).
      split; [|split; [exact W|]].
      * change (L " " ++ n ++ ?z) with (" "%char :: n ++ z). rewrite (skip_space " "%char) by reflexivity. rewrite dark_skip by now apply word_dark'. now destruct o.
      * cbn in C. destruct C as [C|[C|[C|[]]]]; rewrite <- C; (split; [cbn; tauto|discriminate]).
Qed.
Lemma suf_follow s k : c_jsuf fmt s = true -> let f := L " " ++ pr_jsuf fmt s ++ k in
  vstop f = true /\ noalias f /\ nospec f /\ bstop f = true /\ (plain_inner s = false -> pstop f = true).
Proof.
  intros C. destruct (suf_start s k C) as (w & t & E & W & I & P). cbn zeta.
  assert (E' : skip (L " " ++ pr_jsuf fmt s ++ k) = skip (w ++ L " " ++ t)) by now rewrite E, dark_skip by now apply word_dark'.
  split; [|split; [|split; [|split]]].
  - unfold vstop, nostart. rewrite E. change (bnd (L " " ++ pr_jsuf fmt s ++ k)) with true. pose proof (vstop_word w (L " " ++ t) W) as V. unfold vstop, nostart in V.
    change (skip (L " " ++ w ++ L " " ++ t)) with (skip (w ++ L " " ++ t)) in V. now rewrite dark_skip in V by now apply word_dark'.
  - eapply noalias_nc; [exact E|reflexivity|]. cbn in I. repeat (destruct I as [<-|I]; [reflexivity|]). destruct I.
  - eapply nospec_word; [exact E|reflexivity|]. cbn in I. repeat (destruct I as [<-|I]; [reflexivity|]). destruct I.
  - rewrite (bstop_skip _ _ E'). eapply bstop_word; [reflexivity|now apply word_dark'|reflexivity|]. cbn in I. repeat (destruct I as [<-|I]; [reflexivity|]). destruct I.
  - intros N. rewrite (pstop_skip _ _ E'). eapply pstop_word; [reflexivity|now apply word_dark'|reflexivity|].
    assert (upper w <> L "INNER") as X by (intros X; rewrite (P X) in N; discriminate). cbn [In map suf_words] in I. destruct I as [I|[I|[I|[I|[I|[I|[]]]]]]]; first [exfalso; apply X; now rewrite <- I|rewrite <- I; reflexivity].
Qed.

(** ** Tables *)
Lemma bnd_tstop k : bnd k = true -> tstop k.
Proof. intros B. split; [now apply boundary_nstop, bnd_ok|]. destruct k as [|c k]; [exact I|]. destruct (Ascii.eqb_spec c "."); [subst c; discriminate B|exact I]. Qed.
Lemma rd_alias a i k : name a -> bnd k = true -> skip i = skip (a ++ k) -> reads g_correlation_specification i a (skip k).
Proof.
  intros N B H. eapply reads_map with (v := (None, a)); [|reflexivity]. eapply (reads_seq m _ _ _ _ (skip (a ++ k))).
  - rewrite <- H. apply reads_none. eapply lead_no_soft; [apply lead_mono, (name_lead a k); [exact N|now apply bnd_word]|reflexivity..|exact H].
  - intros r Hr. apply rd_name; [exact N|now apply boundary_nstop, bnd_ok|exact Hr].
Qed.
Lemma rd_tc n a i k : tname name n -> is_nil a = true \/ name a -> bnd k = true -> (is_nil a = true -> noalias k) -> skip i = skip (pr_tc n a ++ k) ->
  reads (g_table_correlation m) i (n, a) (skip k).
Proof.
  intros T A B K H. unfold pr_tc in H. rewrite <- app_assoc in H. destruct (is_nil a) eqn:E.
  - destruct a; [|discriminate]. cbn [app] in H. eapply reads_map with (v := (n, None)); [|reflexivity]. eapply reads_seq; [eapply rd_table; [exact T| |exact H]; now apply bnd_tstop|].
    intros r Hr. rewrite <- Hr. apply reads_none. now apply K.
  - destruct A as [A|A]; [discriminate|]. eapply reads_map with (v := (n, Some a)); [|reflexivity]. rewrite <- app_assoc in H. eapply reads_seq; [eapply rd_table; [exact T| |exact H]; now apply bnd_tstop|].
    intros r Hr. apply reads_some. now apply rd_alias.
Qed.
Lemma name_first n : name n -> exists c r, n = c :: r /\ c <> "("%char.
Proof.
  intros [[W _]|D]; [destruct (word_starts _ W) as (c & t & -> & Hl); exists c, t; split; [reflexivity|]; intros ->; discriminate|].
  destruct (delimited_starts _ D) as (b & ->). eexists _, _. split; [reflexivity|discriminate].
Qed.
Lemma tname_first n : tname name n -> exists c r, n = c :: r /\ c <> "("%char.
Proof. intros [a H|a b H _|a b c H _ _]; destruct (name_first _ H) as (x & r & -> & X); cbn [app]; eauto. Qed.
Lemma table_not_jt n a i k : tname name n -> is_nil a = true \/ name a -> bnd k = true -> (is_nil a = true -> noalias k) -> nosuffix k -> skip i = skip (pr_tc n a ++ k) -> fails p_jt i.
Proof.
  intros T A B K S H.
  assert (P : strip false (L "(") (skip i) = None).
  { rewrite H. unfold pr_tc. rewrite <- app_assoc, dark_skip by (eapply tname_dark; [apply name_dark|exact T]). destruct (tname_first n T) as (c & r & -> & C). apply strip1_no. congruence. }
  apply (fails_rule m R_jt). apply fails_alt.
  - apply fails_map. eapply fails_seq2.
    + apply reads_alt2; [apply fails_map, fails_seq1, fails_seq1; now apply fails_lit|]. intros r Hr. rewrite H in Hr. eapply reads_map with (v := (n, a)); [|reflexivity]. eapply rd_tc; eauto.
    + intros r Hr. apply fails_plus. now apply S.
  - intros r Hr. apply fails_map, fails_seq1, fails_seq1, fails_lit. now rewrite Hr.
Qed.

(** ** What follows JOIN *)
Definition jt_opt (ty : jtype) : option jtype := match ty with JTy_plain s => if is_nil s then None else Some ty | _ => Some ty end.
Lemma rd_jtype ty i x : match ty with JTy_plain s => is_nil s || one_of_nc s ["INNER"%string] | JTy_outer s _ => one_of_nc s ["FULL"; "LEFT"; "RIGHT"]%string end = true ->
  skip i = skip (pr_jtype ty ++ L " JOIN " ++ x) -> reads (POpt g_join_type) i (jt_opt ty) (skip (L "JOIN " ++ x)).
Proof.
  intros C H. assert (J : forall r, skip r = skip (L "JOIN " ++ x) -> starts_as true r (L "JOIN")) by (intros r Hr; exists (L "JOIN"), (L " " ++ x); split; [exact Hr|split; [reflexivity|intros _; reflexivity]]).
  destruct ty as [s|s o].
  - destruct (is_nil s) eqn:E.
    + destruct s; [|discriminate]. cbn [jt_opt is_nil]. change (skip i = skip (L "JOIN " ++ x)) in H. rewrite <- H. apply reads_none. eapply look_fail; [now apply J|reflexivity].
    + cbn [orb] in C. cbn [jt_opt]. rewrite E. apply reads_some, reads_alt1. eapply reads_map with (v := s); [|reflexivity].
      apply one_of_nc_iff in C as [C|[]]. eapply (rd_softs m ["INNER"]%string s " "%char); [rewrite <- C; reflexivity|eapply (word_dark "INNER"); [reflexivity|symmetry; exact C]|reflexivity|reflexivity|exact H].
  - cbn [jt_opt]. apply reads_some. apply one_of_nc_iff in C. assert (W : word s) by (eapply listed_word; [|exact C]; reflexivity).
    cbn [pr_jtype] in H. rewrite <- app_assoc in H. apply reads_alt2.
    + eapply look_fail with (b := true) (p := upper s); [exists s; eexists; split; [exact H|split; [reflexivity|]]; intros _; now destruct o|]. cbn [map In] in C. destruct C as [C|[C|[C|[]]]]; rewrite <- C; reflexivity.
    + intros r Hr. rewrite H in Hr. eapply reads_map with (v := (s, if o then Some (L "OUTER") else None)); [|now destruct o].
      assert (Z : skip r = skip (s ++ " "%char :: (if o then L "OUTER " else []) ++ L "JOIN " ++ x)) by (rewrite Hr; now destruct o).
      eapply reads_seq; [eapply (rd_softs m ["LEFT"; "RIGHT"; "FULL"]%string s " "%char); [|now apply word_dark'|reflexivity|reflexivity|exact Z]|].
      * cbn [map In] in C. destruct C as [C|[C|[C|[]]]]; rewrite <- C; reflexivity.
      * intros r2 H2. destruct o.
        -- apply reads_some. eapply (rd_softs m ["OUTER"]%string (L "OUTER") " "%char); [reflexivity..|exact H2].
        -- cbn [app] in H2. rewrite <- H2. apply reads_none. eapply look_fail; [now apply J|reflexivity].
Qed.
Definition Rspec (sp : jspec) : Prop := forall i k, vstop k = true -> (match sp with JSp_on s => bstop k = true /\ (bare s = true -> pstop k = true) | JSp_using _ => True end) ->
  skip i = skip (pr_jspec fmt sp ++ k) -> reads g_join_specification i sp (skip k).
Lemma rd_on s : Rsc m fmt s -> Rspec (JSp_on s).
Proof.
  intros R i k V [B P] H. rewrite pr_jspec_JSp_on, <- app_assoc in H. apply reads_alt1. eapply reads_map with (v := ([], s)); [|reflexivity].
  eapply reads_seq; [eapply (rd_soft m "ON" (L "ON") " "%char); [reflexivity..|exact H]|]. intros r Hr. now apply R.
Qed.
Lemma rd_using l : l <> [] -> Forall name l -> Rspec (JSp_using l).
Proof.
  intros N F i k V _ H. rewrite pr_jspec_JSp_using in H. unfold pr_vector in H. rewrite <- !app_assoc in H. apply reads_alt2.
  - eapply look_fail with (b := true) (p := L "USING"); [|reflexivity]. exists (L "USING"). eexists. split; [exact H|split; [reflexivity|intros _; reflexivity]].
  - intros r Hr. rewrite H in Hr. eapply reads_map with (v := ([], tt, l, tt)); [|reflexivity].
    eapply reads_exp; [eapply reads_exp; [eapply reads_seq|]|].
    + eapply (rd_soft m "USING" (L "USING") " "%char); [reflexivity..|exact Hr].
    + intros r2 H2. eapply rd_lit; [|exact H2]. reflexivity.
    + intros r2 H2. eapply (rd_list m _ _ (L ", ") (fun x => x) (fun k => bnd k = true)); [exact N| | | | | |rewrite map_id; exact H2].
      * eapply Forall_impl; [|exact F]. intros a Ha i' k' K. apply rd_name; [exact Ha|]. now apply boundary_nstop, bnd_ok.
      * intros t. reflexivity.
      * intros r3 t Ht. change (skip t) with (skip (L " " ++ t)). now apply rd_comma.
      * reflexivity.
      * intros r3 H3. eapply no_lit; [|exact H3]. reflexivity.
    + intros r2 H2. eapply rd_lit; [|exact H2]. reflexivity.
Qed.

(** ** One more table of a join *)
Definition jfol (k : text) : Prop := noalias k /\ nosuffix k /\ bstop k = true /\ pstop k = true.
Definition Rtref (t : tref) : Prop := forall i k, vstop k = true -> (takes_joins t = true -> jfol k) -> (takes_spec t = true -> nospec k) ->
  skip i = skip (pr_tref fmt t ++ k) -> reads p_tref i t (skip k).
Definition Rjt (j : jt) : Prop := forall i k, vstop k = true -> jfol k -> (takes_spec (TR_jt j) = true -> nospec k) ->
  skip i = skip (pr_jt fmt j ++ k) -> reads p_jt i j (skip k).
Definition after_suf (s : jsuf) (k : text) : Prop :=
  match s with
  | JS _ _ t None => (takes_joins t = true -> jfol k) /\ nospec k
  | JS _ _ _ (Some (JSp_on s)) => bstop k = true /\ (bare s = true -> pstop k = true)
  | JS _ _ _ (Some (JSp_using _)) => True
  end.
Definition Rjsuf (s : jsuf) : Prop := forall i k, vstop k = true -> after_suf s k -> skip i = skip (pr_jsuf fmt s ++ k) -> reads g_join_suffix i s (skip k).
Lemma jspec_nonempty sp : c_jspec fmt sp = true -> jspec_empty sp = false.
Proof. destruct sp as [l|s]; intros C; [rewrite c_jspec_JSp_using in C; ands; cbn; now destruct l|rewrite c_jspec_JSp_on in C; now apply (sc_nonempty fmt)]. Qed.
Lemma jtype_start ty i x : match ty with JTy_plain s => is_nil s || one_of_nc s ["INNER"%string] | JTy_outer s _ => one_of_nc s ["FULL"; "LEFT"; "RIGHT"]%string end = true ->
  skip i = skip (pr_jtype ty ++ L " JOIN " ++ x) -> exists p, starts_as true i p /\ In p (map L ["JOIN"; "INNER"; "FULL"; "LEFT"; "RIGHT"]%string).
Proof.
  intros C H. destruct ty as [s|s o].
  - destruct (is_nil s) eqn:E.
    + destruct s; [|discriminate]. exists (L "JOIN"). split; [|now left]. exists (L "JOIN"), (L " " ++ x). split; [exact H|split; [reflexivity|intros _; reflexivity]].
    + cbn [orb] in C. apply one_of_nc_iff in C as [C|[]]. exists (upper s). split; [|rewrite <- C; right; now left]. exists s, (L " JOIN " ++ x). split; [exact H|split; [reflexivity|intros _; reflexivity]].
  - apply one_of_nc_iff in C. exists (upper s). split; [|right; right; exact C]. cbn [pr_jtype] in H. rewrite <- app_assoc in H. exists s. eexists. split; [exact H|split; [reflexivity|intros _; now destruct o]].
Qed.
Lemma on_follow (sp : jspec) k : let f := L " " ++ pr_jspec fmt sp ++ k in vstop f = true /\ jfol f.
Proof.
  cbn zeta. assert (exists w t, L " " ++ pr_jspec fmt sp ++ k = L " " ++ L w ++ L " " ++ t /\ In w ["ON"; "USING"]%string) as (w & t & -> & I).
  { destruct sp as [l|s]; [rewrite pr_jspec_JSp_using|rewrite pr_jspec_JSp_on]; rewrite <- app_assoc; [exists "USING"%string|exists "ON"%string]; eexists; split; [reflexivity|right; now left|reflexivity|now left]. }
  split; [destruct I as [<-|[<-|[]]]; reflexivity|]. assert (E : skip (L " " ++ L w ++ L " " ++ t) = L w ++ L " " ++ t) by (destruct I as [<-|[<-|[]]]; reflexivity).
  split; [|split; [|split; destruct I as [<-|[<-|[]]]; reflexivity]].
  - eapply (noalias_word m w); [exact E|..]; destruct I as [<-|[<-|[]]]; reflexivity.
  - eapply (nosuffix_word m w); [exact E|..]; destruct I as [<-|[<-|[]]]; reflexivity.
Qed.
Lemma rd_jsuf nat ty t sp : c_jsuf fmt (JS nat ty t sp) = true -> Rtref t -> (forall s, sp = Some s -> Rspec s) -> Rjsuf (JS nat ty t sp).
Proof.
  intros C T S i k V A H. rewrite c_jsuf_JS in C. rewrite pr_jsuf_JS, <- !app_assoc in H. apply andb_true_iff in C as [C Csp]. apply andb_true_iff in C as [Cty Ct].
  set (x := pr_tref fmt t ++ match sp with None => [] | Some s => if jspec_empty s then [] else L " " ++ pr_jspec fmt s end ++ k) in *.
  change (L " " ++ L "JOIN " ++ x) with (L " JOIN " ++ x) in H.
  eapply reads_map with (v := (if nat then Some [] else None, jt_opt ty, [], (t, sp))); [|destruct ty as [[|c n]|]; now destruct nat].
  eapply reads_exp; [eapply reads_seq; [eapply reads_seq|]|].
  - instantiate (1 := skip (pr_jtype ty ++ L " JOIN " ++ x)). destruct nat.
    + apply reads_some. eapply (rd_soft m "NATURAL" (L "NATURAL") " "%char); [reflexivity..|exact H].
    + cbn [app] in H. rewrite <- H. apply reads_none. destruct (jtype_start ty i x Cty H) as (p & P & I). eapply look_fail; [exact P|].
      cbn [map In] in I. destruct I as [<-|[<-|[<-|[<-|[<-|[]]]]]]; reflexivity.
  - intros r Hr. apply (rd_jtype ty r x); assumption.
  - intros r Hr. eapply (rd_soft m "JOIN" (L "JOIN") " "%char); [reflexivity..|exact Hr].
  - intros r Hr. subst x. destruct sp as [sp|].
    + apply andb_true_iff in Csp as [Csp Tsp]. rewrite jspec_nonempty in Hr by exact Csp. rewrite <- app_assoc in Hr. destruct (on_follow sp k) as [F1 F2]. apply negb_true_iff in Tsp.
      eapply reads_seq; [apply T; [exact F1|auto|congruence|exact Hr]|]. intros r2 H2. apply reads_some. apply (S sp eq_refl); [exact V| |exact H2].
      destruct sp; exact A.
    + destruct A as [A1 A2]. eapply reads_seq; [apply T; [exact V|exact A1|auto|exact Hr]|]. intros r2 H2. cbn [app] in *. rewrite <- H2. apply reads_none. now apply A2.
Qed.

(** ** Joins *)
Lemma vstop_sp k : vstop k = true -> vstop (L " " ++ k) = true.
Proof. unfold vstop. intros H. ands. exact H0. Qed.
Lemma jfol_skip k k' : skip k = skip k' -> jfol k' -> jfol k.
Proof. intros E (A & B & C & D). split; [|split; [|split]]; [intros i H; apply A; congruence|intros i H; apply B; congruence|now rewrite (bstop_skip _ _ E)|now rewrite (pstop_skip _ _ E)]. Qed.
Lemma nospec_skip k k' : skip k = skip k' -> nospec k' -> nospec k.
Proof. intros E A i H. apply A. congruence. Qed.
Definition ends_open (ss : list jsuf) : bool := match rev ss with JS _ _ _ None :: _ => true | _ => false end.
Lemma ends_open_more s s2 ss : ends_open (s :: s2 :: ss) = ends_open (s2 :: ss).
Proof. unfold ends_open. cbn [rev]. destruct (rev ss ++ [s2]) eqn:E; [destruct (rev ss); discriminate|reflexivity]. Qed.
Lemma suf_more s s2 k : c_jsuf fmt s2 = true -> joins_in_turn s s2 = true -> after_suf s (L " " ++ pr_jsuf fmt s2 ++ k).
Proof.
  intros C J. destruct (suf_follow s2 k C) as (V & _ & N & B & P). destruct s as [nat ty t [[l|c]|]], s2 as [nat2 ty2 t2 sp2]; cbn in J |- *; [exact I| |].
  - split; [exact B|]. intros X. apply P. rewrite X in J. cbn in J |- *. now apply negb_true_iff in J.
  - apply negb_true_iff in J. split; [congruence|exact N].
Qed.
Definition sufs (ss : list jsuf) : text := concat (map (fun s => pr_jsuf fmt s ++ L " ") ss).
Lemma suf_step s ss i k : Forall (fun s => c_jsuf fmt s = true /\ Rjsuf s) (s :: ss) -> in_turn (s :: ss) = true ->
  vstop k = true -> jfol k -> (ends_open (s :: ss) = true -> nospec k) -> skip i = skip (sufs (s :: ss) ++ k) -> reads g_join_suffix i s (skip (sufs ss ++ k)).
Proof.
  intros F T V J N H. inversion_clear F as [|? ? [Cs Rs] F']. unfold sufs in *. cbn [map concat] in H. rewrite <- !app_assoc in H.
  change (skip (concat (map (fun s => pr_jsuf fmt s ++ L " ") ss) ++ k)) with (skip (L " " ++ concat (map (fun s => pr_jsuf fmt s ++ L " ") ss) ++ k)). eapply Rs; [| |exact H].
  - destruct ss as [|s2 ss]; [now apply vstop_sp|]. cbn [map concat]. rewrite <- !app_assoc. inversion_clear F' as [|? ? [C2 _] _]. now apply suf_follow.
  - destruct ss as [|s2 ss].
    + cbn [map concat app]. assert (E : skip (L " " ++ k) = skip k) by reflexivity. pose proof (jfol_skip _ _ E J) as J'. destruct s as [nat ty t [[l|c]|]]; cbn; [exact I|split; [apply J'|intros _; apply J']|].
      split; [auto|]. eapply nospec_skip; [exact E|]. now apply N.
    + cbn [map concat]. rewrite <- !app_assoc. inversion_clear F' as [|? ? [C2 _] _]. cbn in T. apply andb_true_iff in T as [T _]. now apply suf_more.
Qed.
Lemma in_turn_tl s ss : in_turn (s :: ss) = true -> in_turn ss = true.
Proof. destruct ss; [reflexivity|]. cbn. now intros [_ T]%andb_true_iff. Qed.
Lemma ends_open_tl s ss : ends_open ss = true -> ends_open (s :: ss) = true.
Proof. destruct ss; [discriminate|]. now rewrite ends_open_more. Qed.
Lemma rd_sufs ss : Forall (fun s => c_jsuf fmt s = true /\ Rjsuf s) ss -> in_turn ss = true ->
  forall i k, vstop k = true -> jfol k -> (ends_open ss = true -> nospec k) -> skip i = skip (sufs ss ++ k) -> reads (PStar g_join_suffix) i ss (skip k).
Proof.
  induction ss as [|s ss IH]; intros F T i k V J N H.
  - cbn in H. rewrite <- H. apply reads_star_nil. now apply J.
  - eapply reads_star_cons; [eapply suf_step; eauto|]. intros r Hr. apply IH; auto; [now inversion_clear F|eapply in_turn_tl; eauto|intros X; now apply N, ends_open_tl].
Qed.
Lemma rd_sufs1 ss : ss <> [] -> Forall (fun s => c_jsuf fmt s = true /\ Rjsuf s) ss -> in_turn ss = true ->
  forall i k, vstop k = true -> jfol k -> (ends_open ss = true -> nospec k) -> skip i = skip (sufs ss ++ k) -> reads (PPlus g_join_suffix) i ss (skip k).
Proof.
  intros Ne F T i k V J N H. destruct ss as [|s ss]; [congruence|].
  eapply reads_plus; [eapply suf_step; eauto|]. intros r Hr. apply rd_sufs; auto; [now inversion_clear F|eapply in_turn_tl; eauto|intros X; now apply N, ends_open_tl].
Qed.

Lemma paren_follow k : vstop (L ")" ++ k) = true /\ jfol (L ")" ++ k) /\ nospec (L ")" ++ k).
Proof.
  split; [reflexivity|split; [split; [|split; [|split; reflexivity]]|]].
  - eapply noalias_char; reflexivity.
  - eapply nosuffix_char; reflexivity.
  - intros i H. eapply look_class; [exact H|reflexivity].
Qed.
Lemma rd_jt_paren j i k : Rjt j -> skip i = skip (L "(" ++ pr_jt fmt j ++ L ")" ++ k) -> reads (lit "(" >> p_jt >> lit ")") i (tt, j, tt) (skip k).
Proof.
  intros R H. destruct (paren_follow k) as (V & J & N). eapply reads_seq; [eapply reads_seq|].
  - eapply rd_lit; [|exact H]. reflexivity.
  - intros r Hr. apply (R r (L ")" ++ k)); auto.
  - intros r Hr. eapply rd_lit; [|exact Hr]. reflexivity.
Qed.
Lemma rd_jt_p j : Rjt j -> Rjt (JT_p j).
Proof.
  intros R i k V J N H. rewrite pr_jt_JT_p, <- !app_assoc in H. apply (reads_rule m R_jt). apply reads_alt2.
  - apply fails_map. eapply fails_seq2; [apply reads_alt1; eapply reads_map; [apply rd_jt_paren; [exact R|exact H]|reflexivity]|]. intros r Hr. apply fails_plus. now apply J.
  - intros r Hr. rewrite H in Hr. eapply reads_map; [apply rd_jt_paren; [exact R|exact Hr]|reflexivity].
Qed.
Lemma rd_jt_q h ss : match h with QH_tc n a => tname name n /\ (is_nil a = true \/ name a) | QH_jt (JT_p j) => Rjt j | QH_jt (JT_q _) => False end ->
  ss <> [] -> Forall (fun s => c_jsuf fmt s = true /\ Rjsuf s) ss -> in_turn ss = true -> Rjt (JT_q (QJ h ss)).
Proof.
  intros Hh Ne F T i k V J N H. rewrite pr_jt_JT_q, pr_qjoin_QJ, <- !app_assoc in H. change (concat (map (fun s => pr_jsuf fmt s ++ L " ") ss) ++ k) with (sufs ss ++ k) in H.
  apply (reads_rule m R_jt). apply reads_alt1. eapply reads_map with (v := (h, ss)); [|reflexivity]. eapply reads_seq with (j := skip (sufs ss ++ k)); [|intros r Hr; now apply rd_sufs1].
  destruct h as [n a|[q|j]]; [|easy|].
  - destruct Hh as [Tn Na]. rewrite pr_qjhead_QH_tc in H. apply reads_alt2.
    + apply fails_map, fails_seq1, fails_seq1, fails_lit. rewrite H. unfold pr_tc. rewrite <- app_assoc, dark_skip by (eapply tname_dark; [apply name_dark|exact Tn]). destruct (tname_first n Tn) as (c & r & -> & C). apply strip1_no. congruence.
    + intros r Hr. rewrite H in Hr. eapply reads_map with (v := (n, a)); [|reflexivity]. change (skip (sufs ss ++ k)) with (skip (L " " ++ sufs ss ++ k)). apply rd_tc; auto. intros _.
      destruct ss as [|s ss]; [congruence|]. inversion_clear F as [|? ? [Cs _] _]. unfold sufs. cbn [map concat]. rewrite <- !app_assoc. now apply suf_follow.
  - apply reads_alt1. rewrite pr_qjhead_QH_jt, pr_jt_JT_p, <- !app_assoc in H. eapply reads_map with (v := (tt, j, tt)); [|reflexivity]. change (skip (sufs ss ++ k)) with (skip (L " " ++ sufs ss ++ k)). now apply rd_jt_paren.
Qed.

(** ** References to tables *)
Lemma rd_tref_tc n a : tname name n -> is_nil a = true \/ name a -> Rtref (TR_tc n a).
Proof.
  intros Tn Na i k V J _ H. rewrite pr_tref_TR_tc in H. destruct (J eq_refl) as (A & S & _). apply vstop_bnd in V. apply (reads_rule m R_tref). apply reads_alt2; [apply fails_map; eapply table_not_jt; eauto|].
  intros r Hr. rewrite H in Hr. apply reads_alt1. eapply reads_map with (v := (n, a)); [|reflexivity]. apply rd_tc; auto.
Qed.
Lemma rd_tref_jt j : Rjt j -> Rtref (TR_jt j).
Proof. intros R i k V J N H. rewrite pr_tref_TR_jt in H. apply (reads_rule m R_tref). apply reads_alt1. eapply reads_map; [|reflexivity]. apply R; auto. Qed.
(** a query begins with SELECT or WITH *)
Lemma query_start q : c_qspec fmt false q = true \/ c_qspec fmt true q = true -> exists w t, In w ["SELECT"; "WITH"]%string /\ pr_qspec fmt q = L w ++ L " " ++ t.
Proof.
  intros C. destruct q as [w i ad g h o]. rewrite pr_qspec_QS. destruct w as [w|].
  - assert (Cw : c_with fmt w = true) by (destruct C as [C|C]; rewrite c_qspec_QS in C; ands; assumption). destruct w as [n cols q]. rewrite c_with_With in Cw. apply andb_true_iff in Cw as [Cw _]. apply andb_true_iff in Cw as [Cw _].
    assert (E : with_empty (With n cols q) = false). { cbn. apply is_name_ok in Cw. destruct (name_first _ Cw) as (c & r & -> & _). reflexivity. }
    rewrite E, pr_with_With, <- !app_assoc. exists "WITH"%string. eexists. split; [right; now left|reflexivity].
  - destruct i as [s ts w]. rewrite pr_sfw_SFW. destruct s as [q top c]. rewrite pr_select_Select, <- !app_assoc. exists "SELECT"%string. eexists. split; [now left|reflexivity].
Qed.
Lemma rd_tref_dc q a : Rsubq m fmt (SQ_q q) -> c_qspec fmt false q = true -> name a -> Rtref (TR_dc (SQ_q q) a).
Proof.
  intros R C Na i k V _ _ H. rewrite pr_tref_TR_dc, <- !app_assoc in H. assert (is_nil a = false) as E by (destruct (name_first _ Na) as (c & r & -> & _); reflexivity). rewrite E, <- app_assoc in H.
  assert (P : exists x, pr_subq fmt (SQ_q q) ++ L " " ++ a ++ k = L "(" ++ x /\ nojt m x).
  { rewrite pr_subq_SQ_q, <- !app_assoc. eexists. split; [reflexivity|]. destruct (query_start q (or_introl C)) as (w & t & I & ->). rewrite <- !app_assoc. destruct I as [<-|[<-|[]]].
    - apply (nojt_look m false (L "SELECT ")); [reflexivity|discriminate|reflexivity].
    - apply (nojt_look m false (L "WITH ")); [reflexivity|discriminate|reflexivity]. }
  destruct P as (x & P & Jx). apply (reads_rule m R_tref). apply reads_alt2; [apply fails_map, (nojt_paren m x Jx); now rewrite <- P|].
  intros r Hr. apply reads_alt2; [apply fails_map; eapply look_class; [rewrite Hr, H, P; reflexivity|reflexivity]|]. intros r2 H2. apply reads_alt1. eapply reads_map with (v := (SQ_q q, a)); [|reflexivity].
  eapply reads_seq; [apply R; rewrite H2, Hr; exact H|]. intros r3 H3. apply rd_alias; [exact Na|now apply vstop_bnd|exact H3].
Qed.
Lemma pqi_run f k : is_dotted f = true -> match k with c :: _ => is_idchar c || Ascii.eqb c "." = false | [] => True end -> srun s_pqi [] (f ++ k) = SOk f k.
Proof.
  intros D K. destruct f as [|c f]; [discriminate|]. cbn [is_dotted] in D. apply andb_true_iff in D as [C F]. unfold s_pqi. cbn [app]. erewrite seq_run by (cbn; rewrite C; reflexivity).
  rewrite star_chr; [reflexivity| |exact K]. now apply Forall_forall, forallb_forall.
Qed.
Lemma dotted_dark f : is_dotted f = true -> dark f.
Proof. destruct f as [|c f]; [discriminate|]. cbn [is_dotted]. intros [C _]%andb_true_iff. cbn. now apply idchar_space, letter_idchar. Qed.
Lemma quoted_join l k : l <> [] -> join (L ",") (map (fun a => L "'" ++ a ++ L "'") l) ++ k = L "'" ++ join (L "','") l ++ L "'" ++ k.
Proof.
  induction l as [|a l IH]; [congruence|]. intros _. destruct l as [|b l]; [cbn [map join]; now rewrite <- !app_assoc|].
  change (join (L ",") (map (fun a => L "'" ++ a ++ L "'") (a :: b :: l))) with ((L "'" ++ a ++ L "'") ++ L "," ++ join (L ",") (map (fun a => L "'" ++ a ++ L "'") (b :: l))).
  rewrite <- !app_assoc, IH by discriminate. change (join (L "','") (a :: b :: l)) with (a ++ L "','" ++ join (L "','") (b :: l)). now rewrite <- !app_assoc.
Qed.
Lemma rd_tref_tvf f args : is_dotted f = true -> args <> [] -> forallb is_dotted args = true -> Rtref (TR_tvf f args).
Proof.
  intros D N F i k _ _ _ H. rewrite pr_tref_TR_tvf in H. unfold pr_tvf in H. rewrite <- !app_assoc, quoted_join in H by exact N.
  assert (S : forall r, skip r = skip i -> starts_as false r (L "TABLE(")) by (intros r Hr; exists (L "table("); eexists; split; [rewrite Hr; exact H|split; [reflexivity|discriminate]]).
  apply (reads_rule m R_tref). apply reads_alt2; [eapply look_fail; [now apply S|reflexivity]|]. intros r1 H1. apply reads_alt2; [eapply look_fail; [now apply S|reflexivity]|].
  intros r2 H2. apply reads_alt2; [eapply look_fail; [apply S; now rewrite H2|reflexivity]|]. intros r3 H3. assert (E : skip r3 = skip i) by now rewrite H3, H2. clear r1 H1 r2 H2 H3. rewrite H in E.
  eapply reads_map with (v := (f, Some args, tt, tt)); [|reflexivity].
  eapply reads_seq; [eapply reads_seq; [eapply reads_seq with (j := skip (join (L "','") args ++ L "'" ++ L "))" ++ k))|]|].
  - eapply reads_lex; [reflexivity|]. rewrite E, dark_skip by reflexivity. unfold s_tvf_head. apply hold_ok. erewrite seq_run by reflexivity.
    change (L "(" ++ L "'" ++ ?x) with (L "('" ++ x). erewrite seq_run by (apply pqi_run; [exact D|reflexivity]). reflexivity.
  - intros r Hr. apply reads_some. eapply (rd_list m _ _ (L "','") (fun x => x) (fun k => exists t, k = "'"%char :: t)); [exact N| | | | | |rewrite map_id; exact Hr].
    + apply Forall_forall. intros a Ia i' k' (t & ->) H'. assert (Da : is_dotted a = true) by (apply (proj1 (forallb_forall _ _) F); exact Ia).
      eapply reads_lex; [reflexivity|]. rewrite H', dark_skip by now apply dotted_dark. apply pqi_run; [exact Da|reflexivity].
    + intros t. eexists. reflexivity.
    + intros r' t H'. eapply rd_lit; [|exact H']. reflexivity.
    + eexists. reflexivity.
    + intros r' H'. eapply no_lit; [|exact H']. reflexivity.
  - intros r Hr. change (skip r = skip (L "')" ++ L ")" ++ k)) in Hr. eapply rd_lit; [|exact Hr]. reflexivity.
  - intros r Hr. eapply rd_lit; [|exact Hr]. reflexivity.
Qed.

(** ** Subqueries and the right side of IN *)
Lemma no_query w t i k : bnd k = true -> begins_with_nc "SELECT" t = false -> begins_with_nc "WITH" t = false -> dark t -> skip i = skip (t ++ k) -> fails (g_query_gen m w) i.
Proof.
  intros B S W D H. apply fails_map, fails_seq1, fails_seq1, fails_seq1. eapply (fails_seq2 m _ _ _ _ (skip (t ++ k))).
  - rewrite <- H. apply reads_none. apply fails_map, fails_exp1, fails_exp1, fails_exp1. eapply no_hard; [|exact H]. rewrite dark_skip by exact D. now apply begins_no.
  - intros r Hr. apply fails_seq1, fails_map, fails_exp1, fails_map, fails_exp1, fails_seq1, fails_seq1. eapply no_hard; [|exact Hr]. rewrite dark_skip by exact D. now apply begins_no.
Qed.
Definition Rqspec (geo : bool) (q : qspec) : Prop := forall i k, k = [] \/ (exists t, k = L ")" ++ t) -> skip i = skip (pr_qspec fmt q ++ k) ->
  reads (if geo then g_query m else g_query_no_geometry m) i q (skip k).
Lemma rd_subq_q q : Rqspec false q -> Rsubq m fmt (SQ_q q).
Proof.
  intros R i k H. rewrite pr_subq_SQ_q, <- !app_assoc in H. apply (reads_rule m R_subq). eapply reads_map with (v := (tt, SQ_q q, tt)); [|reflexivity]. eapply reads_seq; [eapply reads_seq|].
  - eapply rd_lit; [|exact H]. reflexivity.
  - intros r Hr. apply reads_alt1. eapply reads_map; [|reflexivity]. apply (R r (L ")" ++ k)); [right; eauto|exact Hr].
  - intros r Hr. eapply rd_lit; [|exact Hr]. reflexivity.
Qed.
Lemma jt_dark j : c_jt fmt j = true -> dark (pr_jt fmt j).
Proof.
  intros C. destruct j as [[h ss]|j]; [|rewrite pr_jt_JT_p; reflexivity]. rewrite pr_jt_JT_q, pr_qjoin_QJ. rewrite c_jt_JT_q, c_qjoin_QJ in C. do 3 apply andb_true_iff in C as [C _]. apply dark_app.
  destruct h as [n a|[q|j]]; [|discriminate|rewrite pr_qjhead_QH_jt, pr_jt_JT_p; reflexivity]. rewrite c_qjhead_QH_tc in C. rewrite pr_qjhead_QH_tc. ands. unfold pr_tc. apply dark_app.
  eapply tname_dark; [apply name_dark|]. now apply is_table_name_ok.
Qed.
Lemma rd_subq_jt j : c_subq fmt (SQ_jt j) = true -> Rjt j -> Rsubq m fmt (SQ_jt j).
Proof.
  intros C R i k H. rewrite pr_subq_SQ_jt, <- !app_assoc in H. rewrite c_subq_SQ_jt in C. apply andb_true_iff in C as [C W]. apply andb_true_iff in C as [C S]. apply negb_true_iff in W. apply negb_true_iff in S.
  apply (reads_rule m R_subq). eapply reads_map with (v := (tt, SQ_jt j, tt)); [|reflexivity]. eapply reads_seq; [eapply reads_seq|].
  - eapply rd_lit; [|exact H]. reflexivity.
  - intros r Hr. apply reads_alt2; [apply fails_map; eapply (no_query _ (pr_jt fmt j)); [|exact S|exact W|now apply jt_dark|exact Hr]; reflexivity|]. intros r2 H2. rewrite Hr in H2.
    eapply reads_map; [|reflexivity]. destruct (paren_follow k) as (V & J & N). apply (R r2 (L ")" ++ k)); auto.
  - intros r Hr. eapply rd_lit; [|exact Hr]. reflexivity.
Qed.
Lemma rd_in_sub q : Rsubq m fmt q -> Rintarget m fmt (In_sub q).
Proof. intros R i k H. rewrite pr_intarget_In_sub in H. apply reads_alt1. eapply reads_map; [|reflexivity]. now apply R. Qed.
Lemma ve_lead v k : c_ve fmt v = true -> stops word_char k -> lead (pr_ve fmt v ++ k).
Proof. intros C K. now apply lead_all. Qed.
Lemma rd_in_list l : c_intarget fmt (In_list l) = true -> Forall (Rve m fmt) l -> Rintarget m fmt (In_list l).
Proof.
  intros C F i k H. rewrite c_intarget_In_list in C. rewrite pr_intarget_In_list in H. unfold pr_vector in H. rewrite <- !app_assoc in H.
  apply andb_true_iff in C as [C Cs]. apply andb_true_iff in C as [Cn Cl]. assert (N : l <> []) by (now intros ->).
  apply reads_alt2.
  - apply fails_map, (fails_rule m R_subq), fails_map, fails_seq1. eapply fails_seq2; [eapply rd_lit; [|exact H]; reflexivity|]. intros r Hr.
    destruct l as [|x l]; [congruence|]. apply andb_true_iff in Cs as [S W]. apply negb_true_iff in S. apply negb_true_iff in W. cbn [forallb] in Cl. apply andb_true_iff in Cl as [Cx _].
    assert (E : exists f, join (L ", ") (map (pr_ve fmt) (x :: l)) ++ L ")" ++ k = pr_ve fmt x ++ f /\ bnd f = true /\ nojoin m f).
    { cbn [map join]. destruct l as [|y l].
      - exists (L ")" ++ k). split; [reflexivity|]. split; [reflexivity|]. eapply nojoin_char; reflexivity.
      - cbn [map]. rewrite <- !app_assoc. eexists. split; [reflexivity|]. split; [reflexivity|]. eapply nojoin_char; reflexivity. }
    destruct E as (f & E & B & J). rewrite E in Hr. apply fails_alt.
    + apply fails_map. eapply (no_query _ (pr_ve fmt x)); [exact B|exact S|exact W| |exact Hr].
      pose proof (lead_dark _ (ve_lead x [] Cx I)) as D. now rewrite app_nil_r in D.
    + intros r2 H2. rewrite Hr in H2. apply fails_map. eapply (proj1 (nj_all m fmt)); [exact Cx|exact J|exact H2].
  - intros r Hr. rewrite H in Hr. eapply reads_map with (v := (tt, l, tt)); [|reflexivity]. eapply reads_seq; [eapply reads_seq|].
    + eapply rd_lit; [|exact Hr]. reflexivity.
    + intros r2 H2. eapply rd_args_sp; [exact N| | | |exact H2]; [|reflexivity..]. eapply Forall_impl; [|exact F]. intros v. apply ve_arg.
    + intros r2 H2. eapply rd_lit; [|exact H2]. reflexivity.
Qed.
End Join.
