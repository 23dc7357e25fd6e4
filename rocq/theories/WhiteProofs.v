(** White space between words does not matter: whole queries; checking that texts are related (C37). *)
From Verif Require Import Query PegProps PegSpec PegEquiv TextLemmas LexProofs Totality QueryProofs RewriteSound Spec SpecWhite WhiteLex WhitePeg.

Lemma parse_sim tm i j : spaced i j -> same_answer (parse_it tm i) (parse_it tm j).
Proof.
  intros K. set (mm := lookup tm). assert (T : grun mm (fuel_for i) (g_query mm) i <> OOF) by (apply query_total; unfold fuel_for; lia).
  destruct (query_sim mm (fuel_for i) i j K T) as (o & S & X). change (run (g_body mm) (fuel_for i) qspec (g_query mm) i) with (grun mm (fuel_for i) (g_query mm) i) in X.
  assert (No : o <> OOF) by (destruct (grun mm (fuel_for i) (g_query mm) i), o; cbn in X; try contradiction; discriminate).
  apply g_query_ev_iff in S; [|exact No]. unfold parse_it. fold mm. rewrite S.
  destruct (grun mm (fuel_for i) (g_query mm) i) as [q r|r|[p|t]|], o as [q' r'|r'|[p'|t']|]; cbn [psim xsim] in X; try contradiction; cbn [same_answer]; auto; try congruence.
  destruct X as [<- X]. pose proof (spaced_skip _ _ X) as Y. destruct (skip r) as [|c u] eqn:E, (skip r') as [|c' u'] eqn:E'; cbn [same_answer]; auto.
  - exfalso. pose proof (spaced_view _ _ Y) as V. inversion V.
  - exfalso. pose proof (spaced_view _ _ Y) as V. inversion V.
Qed.

(** * Words are kept *)
Lemma occurs_cons w c i : w <> [] -> occurs_nc w (c :: i) <-> (exists m r, strip true w (c :: i) = Some (m, r)) \/ occurs_nc w i.
Proof.
  intros N. split.
  - intros (a & m & b & E & U). destruct a as [|x a]; cbn [app] in E.
    + left. exists m, b. now apply strip_nc_iff.
    + right. injection E as -> E. exists a, m, b. auto.
  - intros [(m & r & E)|(a & m & b & -> & U)]; [apply strip_nc_iff in E as [E U]; exists [], m, r; auto|]. exists (c :: a), m, b. auto.
Qed.
Lemma occurs_front w u i : forallb (fun c => negb (plain c)) u = true -> forallb plain w = true -> w <> [] -> occurs_nc w (u ++ i) <-> occurs_nc w i.
Proof.
  intros U P N. induction u as [|c u IH]; [reflexivity|]. cbn [forallb app] in *. apply andb_true_iff in U as [C U]. rewrite occurs_cons by exact N. rewrite IH by exact U.
  split; [intros [(m & r & E)|O]; [|exact O]|auto]. exfalso. pose proof (strip_plain _ _ _ _ _ P E) as Pm. apply strip_nc_iff in E as [E Um].
  destruct m as [|x m]; [destruct w; [contradiction|discriminate]|]. injection E as <- _. cbn [forallb] in Pm. apply negb_true_iff in C. rewrite C in Pm. discriminate.
Qed.
Lemma occurs_mark w b q i : plain q = false -> forallb plain w = true -> w <> [] -> occurs_nc w (b ++ q :: i) <-> occurs_nc w b \/ occurs_nc w i.
Proof.
  intros Q P N. induction b as [|c b IH]; cbn [app].
  - change (q :: i) with ([q] ++ i). rewrite occurs_front; [|cbn; now rewrite Q|exact P|exact N]. split; [auto|]. intros [(a & m & b & E & U)|O]; [|exact O].
    exfalso. destruct a; [|discriminate]. destruct m; [destruct w; [contradiction|discriminate]|discriminate].
  - rewrite !occurs_cons, IH by exact N.
    split.
    + intros [(m & r & E)|[O|O]]; [|left; right; exact O|right; exact O]. left. left. pose proof (strip_plain _ _ _ _ _ P E) as Pm. apply strip_nc_iff in E as [E Um].
      assert (X : exists r', c :: b = m ++ r').
      { clear -E Pm Q. change (c :: b ++ q :: i) with ((c :: b) ++ q :: i) in E. revert m Pm E. generalize (c :: b) as v. induction v as [|x v IH]; intros m Pm E.
        - destruct m as [|y m]; [exists []; reflexivity|]. injection E as <- _. cbn [forallb] in Pm. rewrite Q in Pm. discriminate.
        - destruct m as [|y m]; [exists (x :: v); reflexivity|]. injection E as <- E. cbn [forallb] in Pm. apply andb_true_iff in Pm as [_ Pm]. destruct (IH m Pm E) as (r' & ->). exists r'. reflexivity. }
      destruct X as (r' & X). exists m, r'. apply strip_nc_iff. auto.
    + intros [[(m & r & E)|O]|O]; [|right; left; exact O|right; right; exact O]. left. apply strip_nc_iff in E as [E Um]. exists m, (r ++ q :: i). apply strip_nc_iff.
      split; [|exact Um]. change (c :: b ++ q :: i) with ((c :: b) ++ q :: i). now rewrite E, <- app_assoc.
Qed.
Lemma occurs_spaced w i j : forallb plain w = true -> w <> [] -> spaced i j -> occurs_nc w i <-> occurs_nc w j.
Proof.
  intros P N K. induction K as [t|c i j S A B NN Kk K IH|u u' i j W W' Nu Nu' D D' K IH|q b i j Q B Bh K IH].
  - reflexivity.
  - rewrite !occurs_cons, IH by exact N. pose proof (strip_spaced true w P _ _ (sp_char _ _ _ S A B NN Kk K)) as X.
    destruct (strip true w (c :: i)) as [[m r]|], (strip true w (c :: j)) as [[m' r']|]; cbn [strip_sim] in X; try contradiction.
    + split; intros _; left; eauto.
    + split; (intros [(? & ? & ?)|O]; [discriminate|now right]).
  - assert (Z : forall v, white v -> forallb (fun c => negb (plain c)) v = true) by (intros v V; apply forallb_forall; intros c I; apply negb_true_iff, space_plain; exact (proj1 (Forall_forall _ _) V c I)).
    rewrite !occurs_front; auto.
  - change (q :: b ++ q :: i) with ([q] ++ b ++ q :: i). change (q :: b ++ q :: j) with ([q] ++ b ++ q :: j). pose proof (quote_plain q Q) as Pq.
    rewrite !(occurs_front w [q]); auto; try (cbn; now rewrite Pq). rewrite !occurs_mark, IH by auto. reflexivity.
Qed.
Lemma query_sim_plain tm i j : spaced i j ->
  ~ occurs_nc (L "WHERE") i \/ ~ occurs_nc (L "CONTAINS") i /\ ~ occurs_nc (L "INTERSECTS") i -> same_answer (query tm i) (query tm j).
Proof.
  intros K H. assert (H' : ~ occurs_nc (L "WHERE") j \/ ~ occurs_nc (L "CONTAINS") j /\ ~ occurs_nc (L "INTERSECTS") j).
  { rewrite <- !(occurs_spaced _ i j); auto; discriminate. }
  unfold query. rewrite (not_rewritten i H), (not_rewritten j H'). now apply parse_sim.
Qed.

(** * Checking *)
Definition keptb (i j : text) : bool :=
  (if text_eqb (upper (firstn 5 i)) (L "UNION") then text_eqb (lead (skipn 5 i)) (lead (skipn 5 j)) else true) &&
  (if text_eqb (upper (firstn 3 i)) (L "NOT") then text_eqb (firstn 1 (skipn 3 i)) (firstn 1 (skipn 3 j)) else true).
Lemma firstn_app_len {A} (v r : list A) k : length v = k -> firstn k (v ++ r) = v /\ skipn k (v ++ r) = r.
Proof. intros <-. rewrite firstn_app, skipn_app, Nat.sub_diag, firstn_all, skipn_all. cbn. now rewrite app_nil_r. Qed.
Lemma keptb_sound i j : keptb i j = true -> kept i j.
Proof.
  intros H v r r' -> ->. unfold keptb in H. apply andb_true_iff in H as [H1 H2]. split.
  - intros U _. assert (E : length v = 5) by (apply (f_equal (@length ascii)) in U; unfold upper in U; rewrite map_length in U; exact U).
    destruct (firstn_app_len v r 5 E) as [F G], (firstn_app_len v r' 5 E) as [F' G']. rewrite F, G, G', U in H1. rewrite (proj2 (text_eqb_iff _ _) eq_refl) in H1. now apply text_eqb_iff.
  - intros U _. assert (E : length v = 3) by (apply (f_equal (@length ascii)) in U; unfold upper in U; rewrite map_length in U; exact U).
    destruct (firstn_app_len v r 3 E) as [F G], (firstn_app_len v r' 3 E) as [F' G']. rewrite F, G, G', U in H2. rewrite (proj2 (text_eqb_iff _ _) eq_refl) in H2. now apply text_eqb_iff.
Qed.
Definition charb (c : ascii) (i j : text) : bool :=
  plain c && keptb (c :: i) (c :: j) && match strip true (L "NAN(") (c :: i) with Some _ => false | None => true end.
Lemma charb_sound c i j : charb c i j = true -> spaced i j -> spaced (c :: i) (c :: j).
Proof.
  unfold charb. intros H K. apply andb_true_iff in H as [H N]. apply andb_true_iff in H as [P H]. apply plain_iff in P as (S & A & B).
  apply sp_char; auto; [|now apply keptb_sound]. intros St. apply starts_iff in St as (m & r & E); [|reflexivity]. now rewrite E in N.
Qed.
(** all of it; quoted parts must follow a byte that is no white space *)
Fixpoint cutq (q : ascii) (i : text) : option (text * text) :=
  match i with
  | [] => None
  | c :: i' => if Ascii.eqb c q then Some ([], i') else match cutq q i' with Some (b, r) => Some (c :: b, r) | None => None end
  end.
Lemma cutq_sound q i b r : cutq q i = Some (b, r) -> i = b ++ q :: r /\ ~ In q b.
Proof.
  revert b r. induction i as [|c i IH]; intros b r; cbn [cutq]; [discriminate|]. destruct (Ascii.eqb_spec c q) as [-> |N].
  - intros [= <- <-]. split; [reflexivity|intros []].
  - destruct (cutq q i) as [[b' r']|]; [|discriminate]. intros [= <- <-]. destruct (IH _ _ eq_refl) as [-> B]. split; [reflexivity|]. intros [->|I]; [now apply N|now apply B].
Qed.
Definition behindb (i j : text) : bool :=
  match skip i with
  | c :: r => if Ascii.eqb c "'" then text_eqb (lead i) (lead j) else if Ascii.eqb c "-" then false else true
  | [] => true
  end.
Lemma behindb_sound i j : behindb i j = true -> behind_string i j.
Proof.
  unfold behindb. intros H. split; intros F; apply followed_iff in F; try reflexivity.
  - apply quote_starts in F as (r & E). rewrite E in H. now apply text_eqb_iff.
  - destruct F as (v & r & E & U). rewrite E in H. destruct v as [|c v]; [discriminate|]. injection U as U _. cbn [app] in H.
    assert (X : forallb (fun c => implb (Ascii.eqb (upc c) "-") (Ascii.eqb c "-")) all_bytes = true) by (vm_compute; reflexivity).
    rewrite forallb_forall in X. specialize (X c (all_bytes_in c)). rewrite U in X. cbn [implb] in X. change (Ascii.eqb "-" "-") with true in X. cbn [implb] in X. apply Ascii.eqb_eq in X. subst c. discriminate.
Qed.
Fixpoint spacedb (n : nat) (i j : text) : bool :=
  match n with
  | O => false
  | S n' =>
      match i, j with
      | [], [] => true
      | c :: i', d :: j' =>
          if is_space c then is_space d && spacedb n' (skip i') (skip j')
          else Ascii.eqb c d &&
               (if plain c then charb c i' j' && spacedb n' i' j'
                else match cutq c i', cutq c j' with
                     | Some (b, r), Some (b', r') => text_eqb b b' && (negb (Ascii.eqb c "'") || behindb r r') && spacedb n' r r'
                     | _, _ => false
                     end)
      | _, _ => false
      end
  end.
Lemma spacedb_sound n : forall i j, spacedb n i j = true -> spaced i j.
Proof.
  induction n as [|n IH]; intros i j; [discriminate|]. destruct i as [|c i], j as [|d j]; cbn [spacedb]; try discriminate; [constructor|].
  destruct (is_space c) eqn:C.
  - intros H. apply andb_true_iff in H as [D H]. apply IH in H. destruct (skip_spec i) as (u & Eu & Wu & Du), (skip_spec j) as (v & Ev & Wv & Dv). rewrite Eu, Ev.
    apply (sp_white (c :: u) (d :: v)); auto; try discriminate; now constructor.
  - intros H. apply andb_true_iff in H as [E H]. apply Ascii.eqb_eq in E. subst d. destruct (plain c) eqn:P.
    + apply andb_true_iff in H as [H K]. apply charb_sound; auto.
    + destruct (cutq c i) as [[b r]|] eqn:Ei, (cutq c j) as [[b' r']|] eqn:Ej; try discriminate. apply cutq_sound in Ei as [-> Bi], Ej as [-> _].
      apply andb_true_iff in H as [H K]. apply andb_true_iff in H as [H Bh]. apply text_eqb_iff in H. subst b'.
      assert (Q : c = "'"%char \/ c = dq).
      { unfold plain in P. rewrite C in P. cbn [negb andb] in P. destruct (Ascii.eqb_spec c "'") as [-> |]; [now left|]. destruct (Ascii.eqb_spec c dq) as [-> |]; [now right|discriminate]. }
      apply sp_quoted; auto. intros ->. rewrite Ascii.eqb_refl in Bh. now apply behindb_sound.
Qed.
