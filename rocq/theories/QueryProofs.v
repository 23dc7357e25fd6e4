(** Construction of a Query: outcomes (C01-C03). *)
From Verif Require Import Query PegProps Totality PegSpec PegEquiv Throws Spec.

Lemma g_query_ev m i : exists o, ev (g_body m) _ (g_query m) i o /\ o <> OOF /\
  forall o', ev (g_body m) _ (g_query m) i o' -> o' = o.
Proof.
  set (n := 3 * length i + 3).
  assert (Hn : grun m n (g_query m) i <> OOF) by (apply query_total; unfold n; lia).
  exists (grun m n (g_query m) i). split; [|split]; auto.
  - apply run_ev; auto.
  - intros o' H. symmetry. apply (ev_iff_run (g_body m) _ _ _ _ n) in H; auto.
Qed.

Lemma g_query_ev_iff m i o : o <> OOF ->
  (ev (g_body m) _ (g_query m) i o <-> grun m (fuel_for i) (g_query m) i = o).
Proof.
  intros Ho. assert (Hn : grun m (fuel_for i) (g_query m) i <> OOF) by (apply query_total; unfold fuel_for; lia).
  unfold grun in *. apply ev_iff_run; auto.
Qed.

Lemma skip_white r : white r <-> skip r = [].
Proof.
  split.
  - induction 1; cbn; auto. now rewrite H.
  - induction r as [|c r IH]; cbn; [constructor|]. destruct (is_space c) eqn:E; [|discriminate]. intros Hs. constructor; [auto|now apply IH].
Qed.

Lemma parse_it_ok tm i q :
  parse_it tm i = Q_ok q <-> exists r, ev (g_body (lookup tm)) _ (g_query (lookup tm)) i (Ok q r) /\ white r.
Proof.
  unfold parse_it. split.
  - destruct (grun _ _ _ _) as [q' r|r|[p|t]|] eqn:E; try discriminate.
    destruct (skip r) eqn:Es; [|discriminate]. intros H; injection H as ->.
    exists r. split; [apply g_query_ev_iff; [discriminate|auto]|now apply skip_white].
  - intros (r & H & W). apply g_query_ev_iff in H; [|discriminate]. rewrite H.
    apply skip_white in W as ->. reflexivity.
Qed.

Lemma parse_it_trailing tm i t :
  parse_it tm i = Q_err (E_trailing t) <->
  exists q sp c t', t = c :: t' /\ is_space c = false /\ white sp /\
    ev (g_body (lookup tm)) _ (g_query (lookup tm)) i (Ok q (sp ++ t)).
Proof.
  unfold parse_it. split.
  - destruct (grun _ _ _ _) as [q' r|r|[p|t0]|] eqn:E; try discriminate.
    destruct (skip r) as [|c r'] eqn:Es; [discriminate|]. intros H; injection H as <-.
    destruct (skip_split r) as (sp & Er & Hs).
    exists q', sp, c, r'. split; [auto|]. split; [eapply skip_head; eauto|]. split.
    + clear -Hs. unfold white. rewrite Forall_forall. rewrite forallb_forall in Hs. auto.
    + apply g_query_ev_iff; [discriminate|]. rewrite <- Es, <- Er. auto.
  - intros (q & sp & c & t' & -> & Hc & W & H). apply g_query_ev_iff in H; [|discriminate]. rewrite H.
    assert (skip (sp ++ c :: t') = c :: t') as ->.
    { clear -Hc W. induction W; cbn; [|rewrite H; auto]. now rewrite Hc. }
    reflexivity.
Qed.

(** Classification of errors. *)
Definition error_ok (tm : mapping) (given : text) (e : qerr) : Prop :=
  match e with
  | E_paren _ => False
  | E_table n => occurs (L "TAP_UPLOAD." ++ n) given /\ lookup tm n = None
  | E_expect t => is_suffix t given
  | E_select t => t = given
  | E_trailing t => is_suffix t given /\ t <> []
  | E_fuel => False
  end.

Lemma parse_it_error tm i e : parse_it tm i = Q_err e -> error_ok tm i e.
Proof.
  intros H. pose proof (parse_it_total tm i) as T. unfold parse_it in *.
  pose proof (run_ok (g_body (lookup tm)) (fuel_for i) _ (g_query (lookup tm)) i) as K.
  destruct (grun _ _ _ _) as [q' r|r|[p|t0]|] eqn:E; unfold grun in E; rewrite E in K; cbn in K.
  - destruct (skip r) as [|c r'] eqn:Es; [discriminate|]. injection H as <-. cbn. split; [|discriminate].
    rewrite <- Es. destruct K as [p ->]. destruct (skip_suffix r) as [p' Ep]. exists (p ++ p'). rewrite Ep at 1. now rewrite app_assoc.
  - injection H as <-. reflexivity.
  - injection H as <-. exact K.
  - injection H as <-. apply query_table_error in E. exact E.
  - congruence.
Qed.

Lemma query_error tm input e : query tm input = Q_err e ->
  (exists p, preprocess input = inl p /\ e = E_paren p) \/
  (exists t, preprocess input = inr t /\ error_ok tm t e).
Proof.
  unfold query. destruct (preprocess input) as [p|t] eqn:E.
  - intros H; injection H as <-. left; eauto.
  - intros H. right; exists t; split; auto. now apply parse_it_error.
Qed.

Lemma query_not_fuel tm input : query tm input <> Q_err E_fuel.
Proof. unfold query. destruct (preprocess input); [discriminate|apply parse_it_total]. Qed.
