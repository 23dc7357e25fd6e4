(** Spellings of geometry conditions and of coordinate systems other than the printed one (for C23 and
    C24). *)
From Verif Require Import Spec SpecSpelling Query Grammar Print Nodes Totality PegSpec PegEquiv TextLemmas SpecLexical LexProofs LexProofs2 First Calc Look Tight SpecCanon PrintEq CanonBase CanonLex CanonGeo CanonHead CanonLead CanonVal CanonCond CanonJt CanonJoin CanonSel CanonGeom CanonQuery CanonAll CanonPrim QueryProofs RewriteSound.

Section Written.
Variable tm : mapping.
Variable fmt : text -> text.
Notation m := (lookup tm).
Notation reads := (Calc.reads m).
Notation fails := (Calc.fails m).

Definition star_from (ts : list tref) (w : wherec) : qspec := QS None (SFW (Select [] top_none (C_star (L "*"))) ts w) [] [] None [].
(** A text [u] that is read as the condition [g], behind WHERE. *)
Lemma where_reads ts u g : forallb (c_tref fmt) ts = true -> ts <> [] -> (forall i, skip i = skip u -> reads (g_geometry m) i g []) ->
  parse_it tm (L "SELECT * FROM " ++ join (L ", ") (map (pr_tref fmt) ts) ++ L " WHERE " ++ u) = Q_ok (star_from ts (Where (Some g) None)).
Proof.
  intros C N Hu. apply parse_it_ok.
  assert (Z : reads (g_query m) (L "SELECT * FROM " ++ join (L ", ") (map (pr_tref fmt) ts) ++ L " WHERE " ++ u) (star_from ts (Where (Some g) None)) []).
  2:{ destruct Z as (r & E & S). exists r. split; [exact E|now apply skip_white]. }
  assert (Fe : forall (A : Set) (e : PE A) i, gclass m e None = C_fail -> skip i = [] -> fails e i) by (intros; now apply end_fails).
  eapply reads_map with (v := (None, (SFW (Select [] top_none (C_star (L "*"))) ts (Where (Some g) None), []), None, None, None)); [|reflexivity].
  eapply (reads_seq m _ _ _ _ []); [|intros r Hr; rewrite <- Hr; apply reads_none, Fe; [reflexivity|exact Hr]].
  eapply (reads_seq m _ _ _ _ []); [|intros r Hr; rewrite <- Hr; apply reads_none, Fe; [reflexivity|exact Hr]].
  eapply (reads_seq m _ _ _ _ []); [|intros r Hr; rewrite <- Hr; apply reads_none, Fe; [reflexivity|exact Hr]].
  set (t := L "SELECT * FROM " ++ _).
  eapply (reads_seq m _ _ _ _ (skip t)).
  - apply reads_none, fails_map. do 3 apply fails_exp1. eapply no_hard; [|exact eq_refl]; reflexivity.
  - intros r Hr. eapply (reads_seq m _ _ _ _ []).
    + eapply reads_map with (v := (Select [] top_none (C_star (L "*")), (ts, Some (Where (Some g) None)))); [|reflexivity].
      eapply reads_exp.
      * apply (rd_select tm fmt [] top_none (C_star (L "*"))); [reflexivity|exact I|]. rewrite pr_select_Select. rewrite Hr. reflexivity.
      * intros r2 H2. eapply reads_seq.
        -- apply (rd_from tm fmt ts r2 (L " WHERE " ++ u)); [exact N| |right; right; exists "WHERE"%string, u; split; [now left|reflexivity]|exact H2].
           apply Forall_forall. intros x X. destruct (all_read tm fmt) as (_ & _ & _ & A & _). apply A. now apply (proj1 (forallb_forall _ _) C).
        -- intros r3 H3. apply reads_some. eapply reads_map with (v := ([], Where (Some g) None)); [|reflexivity]. eapply reads_exp.
           ++ eapply (rd_hard m "WHERE" (L "WHERE") " "%char); [reflexivity..|exact H3].
           ++ intros r4 H4. apply reads_alt1. eapply reads_map with (v := (g, None)); [|reflexivity]. eapply (reads_seq m _ _ _ _ []); [now apply Hu|].
              intros r5 H5. rewrite <- H5. apply reads_none, Fe; [reflexivity|exact H5].
    + intros r2 H2. rewrite <- H2. apply reads_star_nil. apply Fe; [reflexivity|exact H2].
Qed.

Lemma skip_w w t : white w -> skip (w ++ t) = skip t.
Proof. induction 1 as [|c w H W IH]; [reflexivity|]. cbn. now rewrite H. Qed.

(** ** The flag *)
Lemma gpred_reads p : c_gpred fmt p = true -> Rgpred m fmt p.
Proof.
  destruct (all_read tm fmt) as (V & _). intros C. destruct p as [e s|a b]; [rewrite c_gpred_GP_intersects in C|rewrite c_gpred_GP_contains in C]; apply andb_true_iff in C as [C1 C2].
  - apply rd_intersects; [now apply V|exact C2].
  - now apply rd_contains.
Qed.
Definition flag (f : text) : Prop := f = L "0" \/ f = L "1".
Lemma rd_flag f i k : flag f -> skip i = skip (f ++ k) -> reads (PLex s_char_flag) i f (skip k).
Proof. intros F H. eapply reads_lex; [reflexivity|]. rewrite H. destruct F as [-> | ->]; reflexivity. Qed.
Lemma geom_left f p w1 w2 w3 w4 : c_gpred fmt p = true -> flag f -> white w1 -> white w2 -> white w3 -> white w4 -> forall i,
  skip i = skip (w1 ++ f ++ w2 ++ L "=" ++ w3 ++ pr_gpred fmt p ++ w4) -> reads (g_geometry m) i (G_left f p) [].
Proof.
  intros C F W1 W2 W3 W4 i H. rewrite skip_w in H by exact W1. apply reads_alt1. eapply reads_map with (v := (f, tt, p)); [|reflexivity].
  eapply reads_seq; [eapply reads_seq|].
  - eapply rd_flag; [exact F|exact H].
  - intros r Hr. rewrite skip_w in Hr by exact W2. eapply rd_lit; [|exact Hr]; reflexivity.
  - intros r Hr. rewrite skip_w in Hr by exact W3. rewrite <- (proj1 (skip_white w4) W4). apply gpred_reads; [exact C|exact Hr].
Qed.
Lemma geom_no_left p i k : skip i = skip (pr_gpred fmt p ++ k) -> fails (g_geometry_left m) i.
Proof.
  intros H. apply fails_map, fails_seq1, fails_seq1. destruct (gpred_first fmt p k) as (t & [E|E]); rewrite E in H; (eapply (first_byte m); [exact H|reflexivity]).
Qed.
Lemma geom_right f p w1 w2 w3 w4 : c_gpred fmt p = true -> flag f -> white w1 -> white w2 -> white w3 -> white w4 -> forall i,
  skip i = skip (w1 ++ pr_gpred fmt p ++ w2 ++ L "=" ++ w3 ++ f ++ w4) -> reads (g_geometry m) i (G_right p f) [].
Proof.
  intros C F W1 W2 W3 W4 i H. rewrite skip_w in H by exact W1. apply reads_alt2; [eapply geom_no_left; exact H|]. intros r0 H0. rewrite H in H0. eapply reads_map with (v := (p, f)); [|reflexivity].
  eapply reads_seq; [apply gpred_reads; [exact C|exact H0]|]. intros r Hr. rewrite skip_w in Hr by exact W2. apply reads_alt1.
  eapply reads_map with (v := (tt, f)); [|reflexivity]. eapply reads_exp; [eapply rd_lit; [|exact Hr]; reflexivity|].
  intros r2 H2. rewrite skip_w in H2 by exact W3. rewrite <- (proj1 (skip_white w4) W4). now apply rd_flag.
Qed.
Lemma geom_alone p w1 w2 : c_gpred fmt p = true -> white w1 -> white w2 -> forall i,
  skip i = skip (w1 ++ pr_gpred fmt p ++ w2) -> reads (g_geometry m) i (G_right p (L "1")) [].
Proof.
  intros C W1 W2 i H. rewrite skip_w in H by exact W1. apply reads_alt2; [eapply geom_no_left; exact H|]. intros r0 H0. rewrite H in H0. eapply reads_map with (v := (p, L "1")); [|reflexivity].
  apply skip_white in W2. eapply reads_seq; [apply gpred_reads; [exact C|exact H0]|]. intros r Hr. rewrite W2 in Hr.
  apply reads_alt2; [|intros r2 H2; rewrite <- Hr, <- H2; apply reads_ret]. apply fails_map, fails_exp1. apply (no_lit m "=" r []); [reflexivity|exact Hr].
Qed.

(** ** Coordinate systems *)
Definition shape_rest (s : shape) : text :=
  match s with
  | Sh_point _ c => pr_coord fmt c ++ L ")"
  | Sh_circle _ c r => pr_coord fmt c ++ L "," ++ pr_csae fmt r ++ L ")"
  | Sh_box _ c w h => pr_coord fmt c ++ L "," ++ pr_csae fmt w ++ L "," ++ pr_csae fmt h ++ L ")"
  | Sh_ellipse _ c a b r => pr_coord fmt c ++ L "," ++ pr_csae fmt a ++ L "," ++ pr_csae fmt b ++ L "," ++ pr_csae fmt r ++ L ")"
  | Sh_polygon _ cs => join (L ",") (map (pr_coord fmt) cs) ++ L ")"
  end.
Lemma no_other w t k : strip true w (upper t) = None -> length w <= length t -> strip true w (t ++ k) = None.
Proof.
  intros S Ln. destruct (strip true w (t ++ k)) as [[x y]|] eqn:E; [|reflexivity]. exfalso. apply strip_nc_iff in E as [E Ux].
  assert (Lx : length x = length w) by (apply (f_equal (@length _)) in Ux; unfold upper in Ux; now rewrite !map_length in Ux).
  assert (Q : exists z, t = x ++ z).
  { exists (skipn (length x) t). rewrite <- (firstn_skipn (length x) t) at 1. f_equal.
    apply (f_equal (firstn (length x))) in E. rewrite firstn_app, firstn_app, Nat.sub_diag, firstn_all, firstn_O, app_nil_r in E. replace (length x - length t) with 0 in E by lia. now rewrite firstn_O, app_nil_r in E. }
  destruct Q as (z & ->). rewrite upper_app in S. assert (strip true w (upper x ++ upper z) = Some (upper x, upper z)) by (apply strip_nc_iff; split; [reflexivity|now rewrite upper_upper]). congruence.
Qed.
Lemma up_len t u : upper t = u -> length t = length u.
Proof. intros <-. unfold upper. now rewrite map_length. Qed.
Lemma rd_frame_nc f t i k : upper t = L (frame_name f) -> skip i = skip (t ++ k) -> reads g_reference_frame i f (skip k).
Proof.
  intros U H. assert (D : dark t) by (apply dark_upper; rewrite U; destruct f; reflexivity). pose proof (up_len _ _ U) as Ln.
  assert (N : forall w r, skip r = skip i -> strip true (L w) (L (frame_name f)) = None -> length (L w) <= length (L (frame_name f)) -> fails (kw w) r).
  { intros w r E S Lw. eapply no_kw; [|rewrite E; exact H]. rewrite dark_skip by exact D. apply no_other; [now rewrite U|now rewrite Ln]. }
  destruct f.
  - apply reads_alt1. eapply reads_map; [|reflexivity]. eapply (rd_kw m "icrs" t); [reflexivity|exact U|exact H].
  - apply reads_alt2; [apply fails_map; apply N; [reflexivity|reflexivity|cbn; lia]|]. intros r3 Hr3. apply reads_alt1. eapply reads_map; [|reflexivity].
    eapply (rd_kw m "j2000" t); [reflexivity|exact U|congruence].
  - apply reads_alt2; [apply fails_map; apply N; [reflexivity|reflexivity|cbn; lia]|]. intros r3 Hr3. apply reads_alt2; [apply fails_map; apply N; [exact Hr3|reflexivity|cbn; lia]|].
    intros r4 Hr4. eapply reads_map; [|reflexivity]. eapply (rd_kw m "galactic" t); [reflexivity|exact U|congruence].
Qed.
Lemma strip_more u v t : strip true u t = None -> strip true (u ++ v) t = None.
Proof.
  revert t. induction u as [|a u IH]; intros [|b t] S; cbn in *; try discriminate; [reflexivity|]. destruct (eq_nc a b); [|reflexivity].
  specialize (IH t). destruct (strip true u t) as [[]|]; [discriminate|]. now rewrite IH.
Qed.
Lemma no_frame t i : strip true (L "I") (skip t) = None -> strip true (L "J") (skip t) = None -> strip true (L "GA") (skip t) = None -> skip i = skip t -> fails g_reference_frame i.
Proof.
  intros A B C H.
  assert (Z : forall u v, strip true u (skip t) = None -> strip true (u ++ v) (skip t) = None) by (intros; now apply strip_more).
  assert (X : forall w, strip true (L w) (skip t) = None -> forall r, skip r = skip i -> fails (kw w) r) by (intros w S r Hr; eapply no_kw; [|rewrite Hr; exact H]; exact S).
  apply fails_alt; [apply fails_map, X; [apply (Z (L "i") (L "crs") A)|reflexivity]|]. intros r1 H1. apply fails_alt; [apply fails_map, X; [apply (Z (L "j") (L "2000") B)|exact H1]|].
  intros r2 H2. apply fails_map, X; [apply (Z (L "ga") (L "lactic") C)|congruence].
Qed.
Lemma rd_system st f i k : system_text st f -> skip i = skip (st ++ k) -> reads g_coord_sys i f (skip k).
Proof.
  intros (w1 & fr & w2 & ps & w3 & -> & W1 & W2 & W3 & F & P) H. rewrite <- !app_assoc in H.
  assert (PR : exists o, forall r, skip r = skip (ps ++ w3 ++ L "'" ++ k) -> reads (POpt g_reference_position) r o (skip (L "'" ++ k))).
  { destruct P as [U| ->].
    - exists (Some tt). intros r Hr. apply reads_some. rewrite <- (skip_w w3) by exact W3. eapply (rd_kw m "geocenter" ps); [reflexivity|exact U|exact Hr].
    - exists None. intros r Hr. cbn [app] in Hr. rewrite skip_w in Hr by exact W3. rewrite <- Hr. apply reads_none. eapply no_kw; [|exact Hr]. reflexivity. }
  assert (FR : exists o, odef ICRS o = f /\ forall r, skip r = skip (fr ++ w2 ++ ps ++ w3 ++ L "'" ++ k) -> reads (POpt g_reference_frame) r o (skip (ps ++ w3 ++ L "'" ++ k))).
  { destruct F as [U|[-> ->]].
    - exists (Some f). split; [reflexivity|]. intros r Hr. apply reads_some. rewrite <- (skip_w w2) by exact W2. eapply rd_frame_nc; [exact U|exact Hr].
    - exists None. split; [reflexivity|]. intros r Hr. cbn [app] in Hr. rewrite skip_w in Hr by exact W2. rewrite <- Hr. apply reads_none.
      destruct P as [U| ->].
      + assert (D : dark ps) by (apply dark_upper; rewrite U; reflexivity). pose proof (up_len _ _ U) as Ln.
        eapply no_frame; [| | |exact Hr]; rewrite dark_skip by exact D; (apply no_other; [rewrite U; reflexivity|rewrite Ln; cbn; lia]).
      + cbn [app] in Hr. rewrite skip_w in Hr by exact W3. eapply no_frame; [| | |exact Hr]; reflexivity. }
  destruct FR as (o & O & FR). destruct PR as (o2 & PR).
  eapply reads_map with (v := (tt, o, o2, tt)); [|now rewrite O]. eapply reads_seq; [eapply reads_seq; [eapply reads_seq|]|].
  - eapply (rd_lit m "'"); [reflexivity|exact H].
  - intros r Hr. rewrite skip_w in Hr by exact W1. apply FR. exact Hr.
  - exact PR.
  - intros r Hr. eapply (rd_lit m "'"); [reflexivity|exact Hr].
Qed.

(** ** Shapes *)
(** [hd]: the coordinate system as an argument, with its comma, or nothing. *)
Definition head_text (hd : text) (f : frame) : Prop :=
  (hd = [] /\ f = ICRS) \/ exists w st w', hd = w ++ st ++ w' ++ L "," /\ white w /\ white w' /\ system_text st f.
Lemma rd_head_nc w word sp hd f i k : dark (L w) -> upper word = upper (L w) -> white sp -> head_text hd f -> strip false (L "'") (skip k) = None ->
  skip i = skip (word ++ sp ++ L "(" ++ hd ++ k) -> reads (g_shape_head w) i f (skip k).
Proof.
  intros D U W S K H.
  assert (X : exists o, odef ICRS o = f /\ forall r, skip r = skip (hd ++ k) -> reads (POpt (g_coord_sys >! lit "," ==> fst)) r o (skip k)).
  { destruct S as [[-> ->]|(w1 & st & w2 & -> & W1 & W2 & S)].
    - exists None. split; [reflexivity|]. intros r Hr. cbn [app] in Hr. rewrite <- Hr. apply reads_none, fails_map, fails_exp1, fails_map. do 3 apply fails_seq1. eapply no_lit; [exact K|exact Hr].
    - exists (Some f). split; [reflexivity|]. intros r Hr. rewrite <- !app_assoc, skip_w in Hr by exact W1. apply reads_some. eapply reads_map with (v := (f, tt)); [|reflexivity]. eapply reads_exp.
      + eapply rd_system; [exact S|exact Hr].
      + intros r2 H2. rewrite skip_w in H2 by exact W2. now apply rd_comma. }
  destruct X as (o & O & X). eapply reads_map with (v := (tt, tt, o)); [|now rewrite O]. eapply reads_seq; [eapply reads_seq|].
  - eapply (rd_kw m w word); [exact D|exact U|exact H].
  - intros r Hr. rewrite skip_w in Hr by exact W. eapply rd_open. exact Hr.
  - exact X.
Qed.
Lemma csae_start c : c_csae fmt c = true -> exists a t, pr_csae fmt c = a :: t /\ is_space a = false /\ a <> "'"%char.
Proof.
  assert (D : forall d, c_double fmt d = true -> exists a t, fmt d = a :: t /\ is_space a = false /\ a <> "'"%char).
  { intros d C. apply c_double_ok in C as [D ->]. destruct (double_head d D) as (a & t & -> & H). exists a, t. split; [reflexivity|]. revert H. clear. intros H.
    destruct H as [H|[-> |[-> | ->]]]; [|split; [reflexivity|discriminate]..]. revert H. destruct a as [[] [] [] [] [] [] [] []]; vm_compute; intros H; try discriminate; split; congruence. }
  destruct c as [x op y|c|d]; cbn [c_csae pr_csae]; intros C.
  - rewrite !andb_true_iff in C. destruct C as [[C _] _]. destruct (D x C) as (a & t & -> & H). eexists a, _. split; [reflexivity|exact H].
  - apply (c_colref_ok is_name name _ is_name_ok) in C. destruct (colref_first c []) as (k' & E & _). rewrite app_nil_r in E. rewrite E.
    assert (N : name (first_part c)) by (destruct c; cbn in C |- *; tauto). destruct N as [[W _]|W].
    + apply word_starts in W as (a & t & -> & H). exists a. eexists. split; [reflexivity|]. revert H. clear. destruct a as [[] [] [] [] [] [] [] []]; vm_compute; intros H; try discriminate; split; congruence.
    + apply delimited_starts in W as (b & ->). eexists dq, _. split; [reflexivity|]. split; [reflexivity|discriminate].
  - now apply D.
Qed.
Lemma coord_start c k : c_coord fmt c = true -> strip false (L "'") (skip (pr_coord fmt c ++ k)) = None.
Proof.
  destruct c as [a b]. cbn [c_coord pr_coord]. intros [A _]%andb_true_iff. destruct (csae_start a A) as (x & t & -> & S & N). cbn [app skip]. rewrite S. cbn [strip L list_ascii_of_string eq_ch].
  destruct (Ascii.eqb_spec "'" x); [congruence|reflexivity].
Qed.
Lemma rest_start s k : c_shape fmt s = true -> strip false (L "'") (skip (shape_rest s ++ k)) = None.
Proof.
  destruct s as [f c|f c r|f c w h|f c a b r|f cs]; cbn [c_shape shape_rest]; rewrite ?andb_true_iff; intros C; rewrite <- ?app_assoc; try (apply coord_start; tauto).
  destruct C as [N C]. destruct cs as [|c cs]; [discriminate|]. cbn [forallb] in C. apply andb_true_iff in C as [C _].
  destruct cs as [|c2 cs]; cbn [map join]; rewrite <- ?app_assoc; now apply coord_start.
Qed.
Ltac next_shape Z := apply reads_alt2; [repeat apply fails_map; repeat apply fails_exp1; apply Z; [congruence|reflexivity]|let r := fresh "q" in let E := fresh "E" in intros r E].
Lemma rd_shape_nc s word sp hd i k : c_shape fmt s = true -> upper word = L (shape_word s) -> white sp -> head_text hd (shape_frame s) ->
  skip i = skip (word ++ sp ++ L "(" ++ hd ++ shape_rest s ++ k) -> reads (g_shape m) i s (skip k).
Proof.
  intros C U W Hd H.
  assert (D : dark word) by (apply dark_upper; rewrite U; destruct s; reflexivity). pose proof (up_len _ _ U) as Ln.
  assert (Y : forall r, skip r = skip i -> reads (g_shape_head (shape_word s)) r (shape_frame s) (skip (shape_rest s ++ k))).
  { intros r Hr. eapply rd_head_nc; [| |exact W|exact Hd|now apply rest_start|rewrite Hr; exact H]; [destruct s; reflexivity|]. rewrite U. destruct s; reflexivity. }
  assert (Z : forall w r, skip r = skip i -> strip true (firstn 3 (L w)) (L (shape_word s)) = None -> fails (g_shape_head w) r).
  { intros w r Hr S. apply fails_map, fails_seq1, fails_seq1. eapply no_kw; [|rewrite Hr; exact H]. rewrite dark_skip by exact D.
    rewrite <- (firstn_skipn 3 (L w)). apply strip_more. apply no_other; [now rewrite U|]. rewrite Ln. transitivity 3; [rewrite firstn_length; lia|]. destruct s; cbn; lia. }
  clear H D U Ln. destruct s as [f c|f c x|f c x y|f c x y z|f cs]; cbn [c_shape shape_rest shape_word shape_frame] in *; rewrite ?andb_true_iff in C.
  - apply reads_alt1. eapply reads_map with (v := (f, c)); [|reflexivity]. eapply reads_map with (v := (f, c, tt)); [|reflexivity]. rewrite <- !app_assoc in Y. eapply reads_exp; [eapply reads_exp; [now apply Y|]|].
    + intros r Hr. eapply rd_coord; [exact C|apply gstop_close|exact Hr]. + intros r Hr. eapply rd_close; exact Hr.
  - rewrite <- !app_assoc in Y. next_shape Z. apply reads_alt1. destruct C.
    eapply reads_map with (v := (f, c, tt, x, tt)); [|reflexivity]. eapply reads_exp; [eapply reads_exp; [eapply reads_exp; [eapply reads_exp|]|]|].
    + now apply Y. + intros r Hr. eapply rd_coord; [eassumption| |exact Hr]; apply gstop_comma. + intros r Hr. eapply rd_comma; exact Hr.
    + intros r Hr. eapply rd_csae; [eassumption| |exact Hr]; apply gstop_close. + intros r Hr. eapply rd_close; exact Hr.
  - rewrite <- !app_assoc in Y. do 2 next_shape Z. apply reads_alt1.
    destruct C as [[? ?] ?]. eapply reads_map with (v := (f, c, tt, x, tt, y, tt)); [|reflexivity]. eapply reads_exp; [eapply reads_exp; [eapply reads_exp; [eapply reads_exp; [eapply reads_exp; [eapply reads_exp|]|]|]|]|].
    + apply Y; congruence. + intros r Hr. eapply rd_coord; [eassumption| |exact Hr]; apply gstop_comma. + intros r Hr. eapply rd_comma; exact Hr.
    + intros r Hr. eapply rd_csae; [eassumption| |exact Hr]; apply gstop_comma. + intros r Hr. eapply rd_comma; exact Hr.
    + intros r Hr. eapply rd_csae; [eassumption| |exact Hr]; apply gstop_close. + intros r Hr. eapply rd_close; exact Hr.
  - rewrite <- !app_assoc in Y. do 3 next_shape Z. apply reads_alt1.
    destruct C as [[[? ?] ?] ?]. eapply reads_map with (v := (f, c, tt, x, tt, y, tt, z, tt)); [|reflexivity]. eapply reads_exp; [eapply reads_exp; [eapply reads_exp; [eapply reads_exp; [eapply reads_exp; [eapply reads_exp; [eapply reads_exp; [eapply reads_exp|]|]|]|]|]|]|].
    + apply Y; congruence. + intros r Hr. eapply rd_coord; [eassumption| |exact Hr]; apply gstop_comma. + intros r Hr. eapply rd_comma; exact Hr.
    + intros r Hr. eapply rd_csae; [eassumption| |exact Hr]; apply gstop_comma. + intros r Hr. eapply rd_comma; exact Hr.
    + intros r Hr. eapply rd_csae; [eassumption| |exact Hr]; apply gstop_comma. + intros r Hr. eapply rd_comma; exact Hr.
    + intros r Hr. eapply rd_csae; [eassumption| |exact Hr]; apply gstop_close. + intros r Hr. eapply rd_close; exact Hr.
  - destruct C as [N F]. assert (NE : cs <> []) by (destruct cs; [discriminate|congruence]). rewrite <- !app_assoc in Y. do 4 next_shape Z.
    eapply reads_map with (v := (f, cs, tt)); [|reflexivity]. eapply reads_exp; [eapply reads_exp|].
    + apply Y; congruence.
    + intros r Hr. eapply (rd_list m _ _ (L ",") (pr_coord fmt) gstop); [exact NE| | | | | |exact Hr].
      * apply Forall_forall. intros c Hc i' k' K' E'. eapply rd_coord; eauto. now apply (proj1 (forallb_forall _ _) F).
      * apply gstop_comma. * intros r2 t Ht. now apply rd_comma. * apply gstop_close. * intros r2 Hr2. eapply no_lit; [|exact Hr2]. reflexivity.
    + intros r Hr. eapply rd_close; exact Hr.
Qed.
Lemma contains_shape s b word sp hd w1 w2 w3 : c_shape fmt s = true -> c_soc fmt b = true -> upper word = L (shape_word s) -> white sp -> head_text hd (shape_frame s) -> white w1 -> white w2 -> white w3 -> forall i,
  skip i = skip (L "CONTAINS(" ++ w1 ++ word ++ sp ++ L "(" ++ hd ++ shape_rest s ++ w2 ++ L "," ++ pr_soc fmt b ++ L ")" ++ w3) -> reads (g_geometry m) i (G_right (GP_contains (Soc_shape s) b) (L "1")) [].
Proof.
  intros C B U W Hd W1 W2 W3 i H. apply reads_alt2; [apply fails_map, fails_seq1, fails_seq1; eapply (first_byte m); [exact H|reflexivity]|]. intros r0 H0. rewrite H in H0. clear i H.
  apply skip_white in W3. eapply reads_map with (v := (_, L "1")); [|reflexivity]. eapply (reads_seq m _ _ _ _ []).
  - apply reads_alt1. eapply reads_map with (v := (tt, tt, Soc_shape s, tt, b, tt)); [|reflexivity].
    eapply reads_exp; [eapply reads_exp; [eapply reads_exp; [eapply reads_exp; [eapply reads_seq|]|]|]|].
    + eapply (rd_kw m "CONTAINS" (L "CONTAINS")); [reflexivity|reflexivity|]. exact H0.
    + intros r Hr. eapply rd_open. exact Hr.
    + intros r Hr. rewrite skip_w in Hr by exact W1. apply reads_alt1. eapply reads_map with (v := s); [|reflexivity]. eapply rd_shape_nc; [exact C|exact U|exact W|exact Hd|exact Hr].
    + intros r Hr. rewrite skip_w in Hr by exact W2. eapply rd_comma. exact Hr.
    + intros r Hr. eapply rd_soc; [exact B| |exact Hr]. eexists. right. reflexivity.
    + intros r Hr. rewrite <- W3. eapply rd_close. exact Hr.
  - intros r Hr. apply reads_alt2; [|intros r2 H2; rewrite <- Hr, <- H2; apply reads_ret]. apply fails_map, fails_exp1. apply (no_lit m "=" r []); [reflexivity|exact Hr].
Qed.
End Written.
