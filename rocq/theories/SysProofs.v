(** Coordinate systems may be respelt anywhere: whole queries; checking that texts are related. *)
From Verif Require Import Query PegProps PegSpec PegEquiv TextLemmas LexProofs Totality QueryProofs RewriteSound RewriteNot Spec SpecWhite SpecBehind SpecSpelling SpecSystem WhiteLex WhitePeg SysLex SysPeg.

Lemma respelt_nil i j : respelt false i j -> i = [] <-> j = [].
Proof.
  intros K. inversion K as [? t E|? c i' j'|? q t i' j'|word w a a' f i' j' I]; subst; try reflexivity.
  - split; discriminate.
  - split; discriminate.
  - assert (N : word <> []) by (intros ->; cbn in I; intuition discriminate). destruct word; [contradiction|]. split; discriminate.
Qed.
Lemma parse_like tm i j : respelt false i j -> like_answer (parse_it tm i) (parse_it tm j).
Proof.
  intros K. set (mm := lookup tm). assert (T : grun mm (fuel_for i) (g_query mm) i <> OOF) by (apply query_total; unfold fuel_for; lia).
  destruct (query_like tm (fuel_for i) i j K T) as (o & S & X). fold mm in S, X. change (run (g_body mm) (fuel_for i) qspec (g_query mm) i) with (grun mm (fuel_for i) (g_query mm) i) in X.
  assert (No : o <> OOF) by (destruct (grun mm (fuel_for i) (g_query mm) i), o; cbn in X; try contradiction; discriminate).
  apply g_query_ev_iff in S; [|exact No]. unfold parse_it. fold mm. rewrite S.
  destruct (grun mm (fuel_for i) (g_query mm) i) as [q r|r|[p|t]|], o as [q' r'|r'|[p'|t']|]; cbn [psim xsim] in X; try contradiction; cbn [like_answer]; auto; try congruence.
  destruct X as [<- X]. pose proof (rf_skip _ _ X) as Y. pose proof (respelt_nil _ _ Y) as Z. destruct (skip r) as [|c u] eqn:E, (skip r') as [|c' u'] eqn:E'; cbn [like_answer]; auto.
  - discriminate (proj1 Z eq_refl).
  - discriminate (proj2 Z eq_refl).
Qed.
Lemma query_like_where tm i j : respelt false i j -> geometries_behind (fun a => ~ ends_with_and a) i -> geometries_behind (fun a => ~ ends_with_and a) j ->
  like_answer (query tm i) (query tm j).
Proof. intros K A B. unfold query. rewrite (not_behind_and i A), (not_behind_and j B). now apply parse_like. Qed.

(** * Checking *)
Fixpoint charsb (p i : text) : bool :=
  match p with
  | [] => true
  | c :: p' => negb (Ascii.eqb c "'") && negb (Ascii.eqb c dq) && match strip true (L "NAN(") (c :: p' ++ i) with Some _ => false | None => true end && charsb p' i
  end.
Fixpoint last_goes (b : bool) (p : text) : bool := match p with [] => b | c :: p' => last_goes (goes_on c) p' end.
Lemma rs_chars p : forall b i j, charsb p i = true -> respelt (last_goes b p) i j -> respelt b (p ++ i) (p ++ j).
Proof.
  induction p as [|c p IH]; intros b i j H K; [exact K|]. cbn [charsb last_goes app] in *. apply andb_true_iff in H as [H P]. apply andb_true_iff in H as [H S]. apply andb_true_iff in H as [A B].
  apply negb_true_iff in A, B. apply rs_char.
  - now apply Ascii.eqb_neq.
  - now apply Ascii.eqb_neq.
  - intros St. apply starts_iff in St as (m & r & E); [|reflexivity]. now rewrite E in S.
  - now apply IH.
Qed.
Lemma not_quote t : (match skip t with c :: _ => Ascii.eqb c "'" | [] => false end) = false -> ~ followed "'" t.
Proof. intros H F. apply followed_iff in F; [|reflexivity|reflexivity]. apply quote_starts in F as (r & E). rewrite E in H. discriminate. Qed.
