(** The lexical rules of Lexical.v against SpecLexical.v (C05, C07, C08, C09). *)
From Verif Require Import Lexical PegProps Gen TextLemmas Throws SpecLexical.

Lemma L_app a b : L (a ++ b)%string = L a ++ L b.
Proof. unfold L. induction a as [|c a IH]; cbn; [auto|]. now rewrite IH. Qed.

(** ** Character classes *)
Lemma is_letter_iff c : is_letter c = true <-> letter c.
Proof.
  unfold is_letter, is_upper, is_lower, letter, code. rewrite orb_true_iff, !andb_true_iff, !N.leb_le. tauto.
Qed.
Lemma is_digit_iff c : is_digit c = true <-> digit c.
Proof. unfold is_digit, digit, code. rewrite !andb_true_iff, !N.leb_le. tauto. Qed.
Lemma is_idchar_iff c : is_idchar c = true <-> word_char c.
Proof. unfold is_idchar, word_char. rewrite !orb_true_iff, is_letter_iff, is_digit_iff, Ascii.eqb_eq. tauto. Qed.
Lemma not_true_false (b : bool) (P : Prop) : (b = true <-> P) -> ~ P -> b = false.
Proof. intros H N. destruct b; auto. exfalso. apply N, H, eq_refl. Qed.
Lemma is_idchar_no c : ~ word_char c -> is_idchar c = false.
Proof. apply not_true_false, is_idchar_iff. Qed.
Lemma letter_word_char c : letter c -> word_char c. Proof. now left. Qed.
Lemma word_chars w : word w -> Forall word_char w.
Proof. intros (c & w' & -> & H & F). constructor; auto using letter_word_char. Qed.
Lemma upc_idchar c : is_idchar (upc c) = is_idchar c.
Proof. destruct c as [[] [] [] [] [] [] [] []]; reflexivity. Qed.
Lemma upc_upc c : upc (upc c) = upc c.
Proof. destruct c as [[] [] [] [] [] [] [] []]; reflexivity. Qed.
Lemma upper_upper t : upper (upper t) = upper t.
Proof. unfold upper. rewrite map_map. apply map_ext. exact upc_upc. Qed.
Lemma idchar_space c : is_idchar c = true -> is_space c = false.
Proof. destruct c as [[] [] [] [] [] [] [] []]; cbn; congruence. Qed.
Lemma letter_idchar c : is_letter c = true -> is_idchar c = true.
Proof. unfold is_idchar. intros ->. now rewrite orb_true_r. Qed.

Definition all_id (t : text) : bool := forallb is_idchar t.
Lemma all_id_iff t : all_id t = true <-> Forall word_char t.
Proof. unfold all_id. rewrite forallb_forall, Forall_forall. split; intros H c Hc; apply is_idchar_iff, H, Hc. Qed.
Lemma all_id_upper t : all_id (upper t) = all_id t.
Proof. unfold all_id, upper. induction t as [|c t IH]; cbn; [auto|]. now rewrite IH, upc_idchar. Qed.

(** ** Kleene star of a character class *)
Lemma star_chr f w k acc : Forall (fun c => f c = true) w -> match k with [] => True | c :: _ => f c = false end ->
  srun (SStar (SChr f)) acc (w ++ k) = SOk (acc ++ w) k.
Proof.
  intros F K. cbn [srun].
  assert (forall n, length w <= n -> sstar (srun (SChr f)) n acc (w ++ k) = SOk (acc ++ w) k) as H.
  { clear -F K. revert acc. induction w as [|c w IH]; intros acc n Hn.
    - rewrite app_nil_r. cbn [app]. destruct n; cbn; (destruct k as [|c k]; [reflexivity|now rewrite K]).
    - inversion F as [|? ? Fc Fw]; subst. destruct n as [|n]; [cbn in Hn; lia|]. cbn [app sstar srun]. rewrite Fc.
      replace (length (w ++ k) <? length (c :: w ++ k)) with true by (symmetry; apply Nat.ltb_lt; cbn; lia).
      rewrite IH; [now rewrite <- app_assoc|auto|cbn in Hn; lia]. }
  apply H. rewrite app_length. lia.
Qed.

Lemma stops_class (P : ascii -> Prop) f k : (forall c, f c = true <-> P c) -> stops P k -> match k with [] => True | c :: _ => f c = false end.
Proof. intros E. destruct k; cbn; auto. now apply not_true_false. Qed.
Lemma Forall_class (P : ascii -> Prop) f w : (forall c, f c = true <-> P c) -> Forall P w -> Forall (fun c => f c = true) w.
Proof. intros E. apply Forall_impl. intros c. apply E. Qed.

Lemma all_identifiers_run w k : word w -> stops word_char k -> srun s_all_identifiers [] (w ++ k) = SOk w k.
Proof.
  intros (c & w' & -> & Hl & F) K. unfold s_all_identifiers. cbn [srun app]. rewrite (proj2 (is_letter_iff c) Hl).
  pose proof (star_chr is_idchar w' k [c] (Forall_class _ _ _ is_idchar_iff F) (stops_class _ _ _ is_idchar_iff K)) as H.
  exact H.
Qed.

(** ** Reserved words *)
Fixpoint first_kw (ws : list string) (i : text) : option text :=
  match ws with
  | [] => None
  | u :: ws' => match strip true (L u) i with Some (_, r) => Some r | None => first_kw ws' i end
  end.
Lemma lits_run ws acc i : srun (lits_nc ws) acc i = match first_kw ws i with Some r => SOk acc r | None => SFail acc end.
Proof.
  unfold lits_nc. induction ws as [|u ws IH]; cbn [map alts srun first_kw]; [destruct i; reflexivity|].
  destruct (strip true (L u) i) as [[m r]|]; [reflexivity|exact IH].
Qed.
Lemma first_kw_app a b i : first_kw (a ++ b) i = match first_kw a i with Some r => Some r | None => first_kw b i end.
Proof. induction a as [|u a IH]; cbn; [auto|]. destruct (strip true (L u) i) as [[]|]; auto. Qed.
Definition source_words : list string := sql_reserved ++ adql_reserved.
Definition starts_id (t : text) : bool := match t with c :: _ => is_idchar c | [] => false end.
Lemma keyword_run i : srun s_keyword [] i =
  match first_kw source_words i with Some r => if starts_id r then SFail [] else SOk [] r | None => SFail [] end.
Proof.
  unfold s_keyword, source_words. cbn [srun]. rewrite lits_run, first_kw_app.
  assert (forall r, match match match r with [] => SFail [] | c :: i' => if is_idchar c then SOk ([] ++ [c]) i' else SFail [] end with
                    | SOk _ _ => SFail [] | SFail _ => SOk [] r | SThrow e => SThrow e | SLoop => SLoop end
                    with SOk _ _ => SOk [] r | SFail _ => SFail [] | SThrow e => SThrow e | SLoop => SLoop end =
                    if starts_id r then SFail [] else SOk [] r) as E.
  { intros [|c r]; cbn; [reflexivity|]. destruct (is_idchar c); reflexivity. }
  destruct (first_kw sql_reserved i) as [r|]; [apply E|]. rewrite lits_run. destruct (first_kw adql_reserved i) as [r|]; [apply E|reflexivity].
Qed.

Fixpoint mem (w : text) (l : list string) : bool :=
  match l with [] => false | u :: l' => if text_eqb w (L u) then true else mem w l' end.
Lemma text_eqb_iff a b : text_eqb a b = true <-> a = b.
Proof.
  revert b; induction a as [|x a IH]; intros [|y b]; cbn; split; intros H; try discriminate; try reflexivity.
  - apply andb_true_iff in H as [E H]. apply Ascii.eqb_eq in E as ->. apply IH in H as ->. reflexivity.
  - injection H as -> ->. rewrite Ascii.eqb_refl. now apply IH.
Qed.
Lemma mem_iff w l : mem w l = true <-> In w (map L l).
Proof.
  induction l as [|u l IH]; cbn; [split; [discriminate|tauto]|].
  destruct (text_eqb w (L u)) eqn:E.
  - apply text_eqb_iff in E. split; auto.
  - rewrite IH. split; auto. intros [H|H]; auto. symmetry in H. apply text_eqb_iff in H. congruence.
Qed.
(** The two lists of the specification are those of the source, in another order. *)
Lemma words_agree w : In w (map L source_words) <-> In w (map L (sql_words ++ adql_words)).
Proof.
  assert (forall a b, forallb (fun u => mem (L u) b) a = true -> forall w, In w (map L a) -> In w (map L b)) as H.
  { intros a b F x Hx. apply in_map_iff in Hx as (u & <- & Hu). rewrite forallb_forall in F. now apply mem_iff, F. }
  split; apply H; vm_compute; reflexivity.
Qed.
Definition END_EXEC : string := "END-EXEC".
Lemma source_shape u : In u source_words -> u = END_EXEC \/ all_id (L u) = true /\ upper (L u) = L u /\ L u <> [].
Proof.
  intros H. assert (forallb (fun u => String.eqb u END_EXEC || (all_id (L u) && text_eqb (upper (L u)) (L u) && negb (is_nil (L u)))) source_words = true) as F by (vm_compute; reflexivity).
  rewrite forallb_forall in F. specialize (F u H). apply orb_true_iff in F as [F|F]; [left; now apply String.eqb_eq|right].
  apply andb_true_iff in F as [F F3]. apply andb_true_iff in F as [F1 F2]. apply text_eqb_iff in F2. destruct (L u); [discriminate|].
  repeat split; auto. discriminate.
Qed.

(** Decompositions of a word followed by something else. *)
Lemma word_prefix w k m r : w ++ k = m ++ r -> stops word_char k -> all_id m = true -> exists w', w = m ++ w' /\ r = w' ++ k.
Proof.
  revert w. induction m as [|c m IH]; intros w E K A; [exists w; auto|].
  cbn in A. apply andb_true_iff in A as [Ac Am]. destruct w as [|d w].
  - cbn in E. subst k. cbn in K. exfalso. now apply K, is_idchar_iff.
  - injection E as -> E. destruct (IH w E K Am) as (w' & -> & ->). exists w'; auto.
Qed.
Lemma end_exec_prefix w k m r : w ++ k = m ++ r -> word w -> stops word_char k -> upper m = L END_EXEC -> upper w = L "END".
Proof.
  intros E W K U.
  assert (exists a b, m = a ++ "-"%char :: b /\ upper a = L "END") as (a & b & -> & Ua).
  { destruct m as [|a [|b [|c [|d m]]]]; try discriminate. cbn in U. injection U as U1 U2 U3 U4 _.
    assert (d = "-"%char) as -> by (revert U4; destruct d as [[] [] [] [] [] [] [] []]; cbn; congruence).
    exists [a; b; c], m. split; auto. cbn. now rewrite U1, U2, U3. }
  rewrite <- app_assoc in E. apply word_prefix in E as (w' & -> & E); auto.
  - destruct w' as [|c w']; [now rewrite app_nil_r|]. cbn in E. injection E as <- _.
    apply word_chars, all_id_iff in W. unfold all_id in W. rewrite forallb_app in W. cbn in W. rewrite andb_false_r in W. discriminate.
  - rewrite <- all_id_upper, Ua. reflexivity.
Qed.

(** A word that is not reserved is not taken for a keyword, whatever keyword it starts with. *)
Lemma first_kw_in ws i r : first_kw ws i = Some r -> exists u m, In u ws /\ i = m ++ r /\ upper m = upper (L u).
Proof.
  induction ws as [|u ws IH]; cbn; [discriminate|]. destruct (strip true (L u) i) as [[m r']|] eqn:E.
  - intros H; injection H as ->. apply strip_nc_iff in E as [-> U]. eauto 6.
  - intros H. destruct (IH H) as (u' & m & Hu & ? & ?). eauto 6.
Qed.
Lemma free_word_not_keyword w k : word w -> stops word_char k -> ~ reserved w -> srun s_keyword [] (w ++ k) = SFail [].
Proof.
  intros W K NR. rewrite keyword_run. destruct (first_kw source_words (w ++ k)) as [r|] eqn:E; [|reflexivity].
  apply first_kw_in in E as (u & m & Hu & E & U). assert (NR' : ~ In (upper w) (map L source_words)).
  { intros H. apply NR. now apply words_agree. }
  destruct (source_shape u Hu) as [->|(A & Uu & _)].
  - exfalso. apply (end_exec_prefix w k m r) in E; auto. apply NR'. rewrite E. apply mem_iff. vm_compute. reflexivity.
  - rewrite Uu in U. apply word_prefix in E as (w' & -> & ->); auto.
    + destruct w' as [|c w'].
      * exfalso. apply NR'. rewrite app_nil_r, U. now apply in_map.
      * cbn. apply word_chars, all_id_iff in W. unfold all_id in W. rewrite forallb_app in W. cbn in W.
        apply andb_true_iff in W as [_ W]. apply andb_true_iff in W as [-> _]. reflexivity.
    + rewrite <- all_id_upper, U. exact A.
Qed.

(** What the alternatives make of a reserved word. *)
Lemma strip_word u w k : all_id (L u) = true -> stops word_char k ->
  strip true (L u) (w ++ k) = match strip true (L u) w with Some (m, r) => Some (m, r ++ k) | None => None end.
Proof.
  intros A K. destruct (strip true (L u) w) as [[m r]|] eqn:E.
  - apply strip_nc_iff in E as [-> U]. apply strip_nc_iff. split; auto. now rewrite app_assoc.
  - apply strip_nc_none. intros m r E' U. apply word_prefix in E' as (w' & -> & _); auto.
    + rewrite strip_nc_none in E. now apply (E m w').
    + rewrite <- all_id_upper, U. now rewrite all_id_upper.
Qed.
Lemma strip_upper s w : strip true s (upper w) = match strip true s w with Some (m, r) => Some (upper m, upper r) | None => None end.
Proof.
  revert w. induction s as [|c s IH]; intros w; [reflexivity|]. destruct w as [|d w]; [reflexivity|].
  cbn [upper map strip]. assert (eq_ch true c (upc d) = eq_ch true c d) as -> by (unfold eq_ch, eq_nc; now rewrite upc_upc).
  destruct (eq_ch true c d); [|reflexivity]. rewrite IH. destruct (strip true s w) as [[]|]; reflexivity.
Qed.
Lemma first_kw_word ws w k : (forall u, In u ws -> u <> END_EXEC -> all_id (L u) = true) -> word w -> stops word_char k -> upper w <> L "END" ->
  first_kw ws (w ++ k) = match first_kw (filter (fun u => negb (String.eqb u END_EXEC)) ws) w with Some r => Some (r ++ k) | None => None end.
Proof.
  intros A W K NE. induction ws as [|u ws IH]; [reflexivity|]. cbn [first_kw filter].
  rewrite IH by (intros; apply A; cbn; auto). destruct (String.eqb u END_EXEC) eqn:Eu.
  - apply String.eqb_eq in Eu as ->. cbn [negb]. destruct (strip true (L END_EXEC) (w ++ k)) as [[m r]|] eqn:E; [|reflexivity].
    exfalso. apply strip_nc_iff in E as [E U]. apply NE. eapply end_exec_prefix; eauto.
  - cbn [negb first_kw]. rewrite strip_word; auto.
    + destruct (strip true (L u) w) as [[]|]; reflexivity.
    + apply A; [now left|]. apply String.eqb_neq, Eu.
Qed.
Lemma first_kw_upper ws w : match first_kw ws w, first_kw ws (upper w) with
  | Some r, Some r' => r' = upper r | None, None => True | _, _ => False end.
Proof.
  induction ws as [|u ws IH]; cbn; [trivial|]. rewrite strip_upper. destruct (strip true (L u) w) as [[m r]|]; auto.
Qed.
(** Words of the lists that come behind a proper prefix of theirs. *)
Definition shadowed_words : list string := ["TOP"; "ATAN2"; "ATAN"; "ASIN"; "AREA"; "INTERSECTS"]%string.
Definition proper_words := filter (fun u => negb (String.eqb u END_EXEC)) source_words.
Lemma first_kw_source w k : word w -> stops word_char k -> upper w <> L "END" ->
  first_kw source_words (w ++ k) = match first_kw proper_words w with Some r => Some (r ++ k) | None => None end.
Proof.
  intros. unfold proper_words. apply first_kw_word; auto.
  intros u Hu N; destruct (source_shape u Hu) as [|(A & _)]; tauto.
Qed.
Lemma own_words : forallb (fun u => String.eqb u END_EXEC || String.eqb u "END" ||
  Bool.eqb (existsb (String.eqb u) shadowed_words)
    (match first_kw proper_words (L u) with Some r => starts_id r | None => true end)) source_words = true.
Proof. vm_compute. reflexivity. Qed.
Lemma upper_starts_id r : starts_id (upper r) = starts_id r.
Proof. destruct r; cbn; [auto|apply upc_idchar]. Qed.
Lemma existsb_mem u l : existsb (String.eqb u) l = true <-> In u l.
Proof.
  rewrite existsb_exists. split; [intros (x & H & E); apply String.eqb_eq in E; now subst|intros; exists u; split; auto; apply String.eqb_refl].
Qed.
Lemma reserved_word_keyword w k : word w -> stops word_char k -> reserved w -> upper w <> L "END" ->
  ~ In (upper w) (map L shadowed_words) -> exists r, srun s_keyword [] (w ++ k) = SOk [] r.
Proof.
  intros W K Hr NE NS. rewrite keyword_run.
  rewrite first_kw_source by assumption. apply (proj2 (words_agree _)) in Hr. apply in_map_iff in Hr as (u & E & Hu).
  pose proof own_words as O. rewrite forallb_forall in O. specialize (O u Hu).
  assert (u <> END_EXEC) as N1.
  { intros ->. apply word_chars, all_id_iff in W. rewrite <- all_id_upper, <- E in W. discriminate. }
  assert (u <> "END"%string) as N2 by (intros ->; now apply NE).
  apply String.eqb_neq in N1, N2. rewrite N1, N2 in O. cbn [orb] in O. apply eqb_prop in O.
  assert (existsb (String.eqb u) shadowed_words = false) as X.
  { destruct (existsb _ _) eqn:X; auto. exfalso. apply NS. rewrite <- E. apply existsb_mem in X. now apply in_map. }
  rewrite X in O. pose proof (first_kw_upper proper_words w) as F. rewrite <- E in F.
  destruct (first_kw proper_words (L u)) as [r'|] eqn:F2; [|discriminate].
  destruct (first_kw proper_words w) as [r|]; [|contradiction]. subst r'. rewrite upper_starts_id in O.
  exists (r ++ k). clear Hu F2. destruct r as [|c r]; cbn in O; cbn; [|rewrite <- O; reflexivity].
  destruct k as [|c k]; cbn; [reflexivity|]. cbn in K. now rewrite is_idchar_no.
Qed.
Lemma shadowed_word_not_keyword w k : word w -> stops word_char k -> In (upper w) (map L shadowed_words) ->
  srun s_keyword [] (w ++ k) = SFail [].
Proof.
  intros W K Hs. rewrite keyword_run.
  apply in_map_iff in Hs as (u & E & Hu).
  assert (upper w <> L "END") as NE.
  { rewrite <- E. cbn in Hu. repeat destruct Hu as [<-|Hu]; try discriminate. contradiction. }
  rewrite first_kw_source by assumption. pose proof own_words as O. rewrite forallb_forall in O.
  assert (In u source_words) as Hin.
  { cbn in Hu. apply existsb_mem. repeat destruct Hu as [<-|Hu]; try (vm_compute; reflexivity). contradiction. }
  specialize (O u Hin).
  replace (String.eqb u END_EXEC) with false in O by (symmetry; cbn in Hu; repeat destruct Hu as [<-|Hu]; try reflexivity; contradiction).
  replace (String.eqb u "END") with false in O by (symmetry; cbn in Hu; repeat destruct Hu as [<-|Hu]; try reflexivity; contradiction).
  cbn [orb] in O. apply eqb_prop in O. rewrite (proj2 (existsb_mem u shadowed_words) Hu) in O.
  pose proof (first_kw_upper proper_words w) as F. rewrite <- E in F.
  destruct (first_kw proper_words w) as [r|]; [|reflexivity]. destruct (first_kw proper_words (L u)) as [r'|]; [|contradiction].
  subst r'. rewrite upper_starts_id in O. destruct r as [|c r]; [discriminate|]. cbn in O. cbn. now rewrite <- O.
Qed.
(** END is a keyword unless END-EXEC is the beginning of something longer. *)
Definition end_execx (k : text) : bool :=
  match strip true (L "-EXEC") k with Some (_, c :: _) => is_idchar c | _ => false end.
Lemma strip_short s n i : strip true s i <> None -> strip true (firstn n s) i <> None.
Proof.
  revert n i. induction s as [|c s IH]; intros n i H; [destruct n; cbn; discriminate|]. destruct n as [|n]; [cbn; discriminate|].
  cbn in *. destruct i as [|d i]; [auto|]. destruct (eq_nc c d); [|auto].
  specialize (IH n i). destruct (strip true s i) as [[]|]; [|congruence]. destruct (strip true (firstn n s) i) as [[]|]; [discriminate|].
  intros _. apply IH; [discriminate|reflexivity].
Qed.
Lemma strip_firstn s : forall n a k, length a = n -> strip true (firstn n s) (a ++ k) <> None -> strip true (firstn n s) (upper a) <> None.
Proof.
  induction s as [|c s IH]; intros n a k E H; [destruct n; cbn; discriminate|]. destruct n as [|n]; [cbn; discriminate|].
  destruct a as [|d a]; [discriminate|]. unfold upper in *. cbn in *. unfold eq_nc in *. rewrite upc_upc.
  destruct (Ascii.eqb (upc c) (upc d)); [|auto]. injection E as E. specialize (IH n a k E).
  destruct (strip true (firstn n s) (a ++ k)) as [[]|]; [|congruence].
  destruct (strip true (firstn n s) (map upc a)) as [[]|]; [discriminate|]. apply IH. discriminate.
Qed.
Lemma first_kw_none ws i : (forall u, In u ws -> strip true (L u) i = None) -> first_kw ws i = None.
Proof. induction ws as [|u ws IH]; intros H; cbn; [auto|]. rewrite (H u) by now left. apply IH. intros; apply H; now right. Qed.
Lemma strip_seq a b i : strip true (a ++ b) i =
  match strip true a i with Some (m, r) => match strip true b r with Some (m', r') => Some (m ++ m', r') | None => None end | None => None end.
Proof.
  revert i. induction a as [|c a IH]; intros i; cbn; [destruct (strip true b i) as [[]|]; auto|].
  destruct i as [|d i]; [auto|]. destruct (eq_nc c d); [|auto]. rewrite IH. destruct (strip true a i) as [[m r]|]; [|auto].
  destruct (strip true b r) as [[]|]; auto.
Qed.
Lemma end_keyword w k : upper w = L "END" -> stops word_char k ->
  srun s_keyword [] (w ++ k) = if end_execx k then SFail [] else SOk [] (match strip true (L "-EXEC") k with Some (_, r) => r | None => k end).
Proof.
  intros E K. rewrite keyword_run.
  assert (source_words = firstn 152 source_words ++ END_EXEC :: "END"%string :: skipn 154 source_words) as Es by (vm_compute; reflexivity).
  rewrite Es, first_kw_app, (first_kw_none (firstn 152 source_words)).
  2:{ intros u Hu.
      assert (forallb (fun u => match strip true (firstn 3 (L u)) (L "END") with None => true | _ => false end) (firstn 152 source_words) = true) as F by (vm_compute; reflexivity).
      rewrite forallb_forall in F. specialize (F u Hu). destruct (strip true (L u) (w ++ k)) eqn:S; [exfalso|reflexivity].
      assert (strip true (L u) (w ++ k) <> None) as N by congruence. apply (strip_short _ 3) in N. apply strip_firstn in N.
      - rewrite E in N. destruct (strip true (firstn 3 (L u)) (L "END")); [discriminate|congruence].
      - rewrite <- (upper_len w), E. reflexivity. }
  assert (strip true (L "END") (w ++ k) = Some (w, k)) as S by (apply strip_nc_iff; auto).
  cbn [first_kw]. change (L END_EXEC) with (L "END" ++ L "-EXEC"). rewrite strip_seq, S. unfold end_execx.
  destruct (strip true (L "-EXEC") k) as [[m' r']|] eqn:S2.
  - destruct r' as [|c r']; cbn [starts_id]; [reflexivity|]. destruct (is_idchar c); reflexivity.
  - destruct k as [|c k]; cbn [starts_id]; [reflexivity|]. cbn in K. now rewrite is_idchar_no.
Qed.
