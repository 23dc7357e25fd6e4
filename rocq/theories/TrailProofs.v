(** White space behind a text (C04): whole queries. *)
From Verif Require Import Query Spec SpecRewrite SpecBehind SpecTrail PegProps PegSpec PegEquiv TextLemmas LexProofs Totality QueryProofs RewriteSound RewriteNot TrailLex TrailLand TrailPeg.

Lemma skip_app_white r w : white w -> skip r = [] -> skip (r ++ w) = [].
Proof. intros W. induction r as [|c r IH]; [intros _; now apply skip_white|]. cbn [app skip]. now destruct (is_space c). Qed.
Lemma skip_app_dark r w c u : skip r = c :: u -> skip (r ++ w) = c :: u ++ w.
Proof. induction r as [|d r IH]; [discriminate|]. cbn [app skip]. destruct (is_space d); [exact IH|]. now intros [= -> ->]. Qed.

Lemma parse_behind tm i w : ~ open_end i -> white w ->
  match parse_it tm i with
  | Q_ok q => parse_it tm (i ++ w) = Q_ok q
  | Q_err (E_trailing t) => exists w', white w' /\ parse_it tm (i ++ w) = Q_err (E_trailing (t ++ w'))
  | Q_err (E_select t) => t = i /\ parse_it tm (i ++ w) = Q_err (E_select (i ++ w))
  | _ => True
  end.
Proof.
  intros N W. set (mm := lookup tm). assert (T : grun mm (fuel_for i) (g_query mm) i <> OOF) by (apply query_total; unfold fuel_for; lia).
  pose proof (query_sim i mm (fuel_for i) N i (i ++ w)) as H.
  assert (K : R1 i i (i ++ w)) by (split; [now apply R_rest|exists []; split; [reflexivity|left; constructor]]). change (run (g_body mm) (fuel_for i) qspec (g_query mm) i) with (grun mm (fuel_for i) (g_query mm) i) in H.
  unfold parse_it at 1. fold mm. destruct (grun mm (fuel_for i) (g_query mm) i) as [q r|r|[p|t]|]; auto; try congruence.
  - destruct H as (o & S & X); [exact K|exact I|]. assert (No : o <> OOF) by (destruct o; cbn in X; try contradiction; discriminate).
    apply g_query_ev_iff in S; [|exact No]. destruct o as [q' r'| | |]; cbn in X; try contradiction. destruct X as [<- ((w' & W' & ->) & _)].
    unfold parse_it. fold mm. rewrite S. destruct (skip r) as [|c u] eqn:E; [now rewrite skip_app_white|]. exists w'. split; [exact W'|]. now rewrite (skip_app_dark _ _ _ _ E).
  - destruct H as (o & S & X); [exact K|exact I|]. assert (No : o <> OOF) by (destruct o; cbn in X; try contradiction; discriminate).
    apply g_query_ev_iff in S; [|exact No]. destruct o as [|r'| |]; cbn in X; try contradiction. split; [reflexivity|]. unfold parse_it. fold mm. now rewrite S.
Qed.

(** words do not appear in white space *)
Lemma upc_space c : is_space c = true -> upc c = c.
Proof. destruct c as [[] [] [] [] [] [] [] []]; intros C; try discriminate C; reflexivity. Qed.
Lemma occurs_behind s x i w : is_space (upc x) = false -> white w -> occurs_nc (s ++ [x]) (i ++ w) -> occurs_nc (s ++ [x]) i.
Proof.
  intros D W (a & u & b & E & U). destruct u as [|y u _] using rev_ind; [destruct s; discriminate U|].
  assert (Y : upc y = upc x) by (unfold upper in U; rewrite !map_app in U; now apply app_inj_tail in U as [_ U]).
  assert (Ny : is_space y = false) by (destruct (is_space y) eqn:C; [rewrite upc_space in Y by exact C; congruence|reflexivity]).
  rewrite app_assoc in E. symmetry in E. apply app_eq_app in E as (l & [[E1 E2]|[E1 E2]]).
  - destruct l as [|c l _] using rev_ind; [rewrite app_nil_r in E1; exists a, (u ++ [y]), []; rewrite app_nil_r; auto|].
    exfalso. rewrite !app_assoc in E1. apply app_inj_tail in E1 as [_ <-]. unfold white in W. rewrite E2, !Forall_app in W. destruct W as [[_ W] _]. inversion W. congruence.
  - exists a, (u ++ [y]), l. rewrite E1, <- app_assoc. auto.
Qed.
Lemma not_rewritten_behind i w : ~ occurs_nc (L "WHERE") i \/ ~ occurs_nc (L "CONTAINS") i /\ ~ occurs_nc (L "INTERSECTS") i -> white w ->
  preprocess i = inr i /\ preprocess (i ++ w) = inr (i ++ w).
Proof.
  intros H W. split; [now apply not_rewritten|]. apply not_rewritten.
  pose proof (occurs_behind (L "WHER") "E"%char i w eq_refl W). pose proof (occurs_behind (L "CONTAIN") "S"%char i w eq_refl W). pose proof (occurs_behind (L "INTERSECT") "S"%char i w eq_refl W).
  cbn [L list_ascii_of_string app] in *. tauto.
Qed.
Lemma geometries_behind_white P i w : geometries_behind P i -> white w -> geometries_behind P (i ++ w).
Proof.
  intros G W a g b E Hg. destruct g as [|y g _] using rev_ind; [destruct Hg as [Hg|Hg]; discriminate Hg|].
  assert (Ny : is_space y = false).
  { destruct (is_space y) eqn:C; [|reflexivity]. exfalso. destruct Hg as [Hg|Hg]; unfold spelt, upper in Hg; rewrite map_app in Hg; cbn [map] in Hg; rewrite (upc_space _ C) in Hg.
    - change (L "CONTAINS") with (L "CONTAIN" ++ ["S"%char]) in Hg. apply app_inj_tail in Hg as [_ ->]. discriminate.
    - change (L "INTERSECTS") with (L "INTERSECT" ++ ["S"%char]) in Hg. apply app_inj_tail in Hg as [_ ->]. discriminate. }
  rewrite app_assoc in E. symmetry in E. apply app_eq_app in E as (l & [[E1 E2]|[E1 E2]]).
  - destruct l as [|c l _] using rev_ind; [rewrite app_nil_r in E1; apply (G a (g ++ [y]) []); [now rewrite app_nil_r|exact Hg]|].
    exfalso. rewrite !app_assoc in E1. apply app_inj_tail in E1 as [_ <-]. unfold white in W. rewrite E2, !Forall_app in W. destruct W as [[_ W] _]. inversion W. congruence.
  - apply (G a (g ++ [y]) l); [now rewrite E1, <- app_assoc|exact Hg].
Qed.
Lemma left_alone_behind i w : ~ occurs_nc (L "WHERE") i \/ geometries_behind (fun a => ~ ends_with_and a) i -> white w ->
  preprocess i = inr i /\ preprocess (i ++ w) = inr (i ++ w).
Proof.
  intros [H|H] W; [apply not_rewritten_behind; [now left|exact W]|]. split; apply not_behind_and; [exact H|]. now apply geometries_behind_white.
Qed.
(** the texts of the form that is rewritten *)
Lemma blank_app a b : blank a -> blank b -> blank (a ++ b). Proof. unfold blank. intros. now rewrite Forall_app. Qed.
Lemma blank_white b : blank b -> white b.
Proof. unfold blank, white. apply Forall_impl. now intros c ->. Qed.
Lemma blank_oneline b : blank b -> oneline b.
Proof. unfold blank, oneline. apply Forall_impl. intros c ->. split; discriminate. Qed.
Lemma last_geometry_behind input pre l g r tl b : last_geometry input pre l g r tl -> blank b -> last_geometry (input ++ b) pre l g r (tl ++ b).
Proof.
  intros [w m1 m2 f gw d E H1 H2 H3 H4 H5 H6 H7 H8 H9 H10 H11 H12 H13 H14 H15 H16 H17 H18 H19] B.
  apply last_geometry_intro with w m1 m2 f gw d; try assumption.
  - rewrite E, <- !app_assoc. reflexivity.
  - apply blank_oneline in B. unfold oneline in *. rewrite !Forall_app in *. tauto.
  - destruct H17 as [H17|(b0 & k & r0 & -> & Hb & Hk)]; [left; now apply blank_app|]. right. exists b0, k, (r0 ++ b). cbn [app]. rewrite <- !app_assoc. auto.
  - rewrite !app_assoc, <- !app_assoc in *. intros O. apply H18. apply blank_white in B. apply (occurs_behind (L "CONTAIN") "S"%char _ b eq_refl B). now rewrite <- !app_assoc.
  - intros O. apply H19. apply blank_white in B. apply (occurs_behind (L "INTERSECT") "S"%char _ b eq_refl B). now rewrite <- !app_assoc.
Qed.
(** deciding it *)
Definition cut (v t : text) : option text :=
  let x := firstn (length t - length v) t in if text_eqb (upper (skipn (length t - length v) t)) (upper v) then Some x else None.
Lemma cut_app a v w : upper v = upper w -> cut w (a ++ v) = Some a.
Proof.
  intros U. assert (El : length w = length v) by (transitivity (length (upper w)); [unfold upper; now rewrite map_length|rewrite <- U; unfold upper; now rewrite map_length]).
  unfold cut. rewrite El, app_length. replace (length a + length v - length v) with (length a) by lia.
  rewrite skipn_app, skipn_all, Nat.sub_diag, firstn_app, Nat.sub_diag, firstn_all. cbn [app skipn firstn]. rewrite app_nil_r, U. now rewrite (proj2 (text_eqb_iff _ _) eq_refl).
Qed.
Fixpoint boundb (n : nat) (a : text) : bool :=
  is_nil a || match rev a with c :: _ => firm_charb c | [] => false end ||
  match n with 0 => false | S n => existsb (fun w => match cut (L w) a with Some x => boundb n x | None => false end) glued_words end.
Lemma bound_boundb a : bound a -> forall n, length a <= n -> boundb n a = true.
Proof.
  induction 1 as [|a c C|a v w B IH I U]; intros n Le.
  - now destruct n.
  - assert (X : match rev (a ++ [c]) with c :: _ => firm_charb c | [] => false end = true).
    { rewrite rev_unit. unfold firm_charb. destruct C as [-> | ->]; [reflexivity|apply orb_true_r]. }
    destruct n; cbn [boundb]; rewrite X, orb_true_r; reflexivity.
  - assert (F : forallb (fun w => negb (is_nil (L w))) glued_words = true) by (vm_compute; reflexivity). rewrite forallb_forall in F. specialize (F _ I).
    assert (V : 0 < length v). { destruct v; [|cbn; lia]. destruct (L w); [discriminate F|discriminate U]. }
    rewrite app_length in Le. destruct n as [|n]; [lia|]. cbn [boundb]. apply orb_true_iff. right. apply existsb_exists. exists w. split; [exact I|]. rewrite (cut_app _ _ _ U). apply IH. lia.
Qed.
Definition open_endb (t : text) : bool := existsb (fun w => match cut (L w) t with Some x => boundb (length x) x | None => false end) end_words.
Lemma open_endb_false t : open_endb t = false -> ~ open_end t.
Proof.
  intros H (w & a & v & I & -> & B & U). assert (X : open_endb (a ++ v) = true); [|congruence]. apply existsb_exists. exists w. split; [exact I|].
  assert (F : forallb (fun w => text_eqb (upper (L w)) (L w)) end_words = true) by (vm_compute; reflexivity). rewrite forallb_forall in F. specialize (F _ I). apply text_eqb_iff in F.
  rewrite (cut_app _ _ (L w)) by congruence. now apply bound_boundb.
Qed.
Lemma parse_errors tm i e : parse_it tm i = Q_err e -> match e with E_paren _ | E_fuel => False | _ => True end.
Proof.
  intros H. destruct e; try exact I; [|now apply parse_it_total in H]. unfold parse_it in H.
  destruct (grun (lookup tm) (fuel_for i) (g_query (lookup tm)) i) as [q r|r|[p|t]|]; try discriminate. destruct (skip r); discriminate.
Qed.
