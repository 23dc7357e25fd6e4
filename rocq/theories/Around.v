(** White space in front of the text (C04). *)
From Verif Require Import Query PegProps PegSpec PegEquiv Totality Spec QueryProofs RewriteSound SkipInv.

Lemma white_space_cases (P : ascii -> Prop) :
  P (ascii_of_N 9) -> P (ascii_of_N 10) -> P (ascii_of_N 11) -> P (ascii_of_N 12) -> P (ascii_of_N 13) -> P " "%char ->
  forall c, is_space c = true -> P c.
Proof.
  intros P9 P10 P11 P12 P13 P32 [b0 b1 b2 b3 b4 b5 b6 b7].
  destruct b0, b1, b2, b3, b4, b5, b6, b7; intros H; try discriminate H; assumption.
Qed.
(** No match starts at white space. *)
Lemma no_match_white c i : is_space c = true -> mt the_regex (c :: i) [] (fun i' c' => Some (i', c')) = None.
Proof. revert c. apply white_space_cases; reflexivity. Qed.
Lemma search_white w : white w -> forall pre i, search_from the_regex pre (w ++ i) = search_from the_regex (pre ++ w) i.
Proof.
  unfold white. induction w as [|c w IH]; intros W pre i; [now rewrite app_nil_r|]. inversion W as [|? ? Wc W']; subst.
  cbn [app search_from]. rewrite no_match_white by exact Wc. rewrite IH by exact W'. now rewrite <- app_assoc.
Qed.
Lemma search_pre p : forall i pre, search_from the_regex (p ++ pre) i =
  match search_from the_regex pre i with Some mm => Some (RM (p ++ m_pre mm) (m_all mm) (m_suf mm) (m_caps mm)) | None => None end.
Proof.
  induction i as [|a i IH]; intros pre; cbn [search_from].
  - destruct (mt the_regex [] [] _) as [[i' c']|]; reflexivity.
  - destruct (mt the_regex (a :: i) [] _) as [[i' c']|]; [reflexivity|]. now rewrite <- app_assoc, IH.
Qed.
Lemma search_front w input : white w -> search the_regex (w ++ input) =
  match search the_regex input with Some mm => Some (RM (w ++ m_pre mm) (m_all mm) (m_suf mm) (m_caps mm)) | None => None end.
Proof. intros W. unfold search. rewrite (search_white _ W). cbn [app]. rewrite <- (app_nil_r w) at 1. apply search_pre. Qed.

Lemma preprocess_front w input : white w -> ~ In "$"%char input ->
  preprocess (w ++ input) = match preprocess input with inl e => inl e | inr t => inr (w ++ t) end.
Proof.
  intros W N. unfold preprocess. rewrite (search_front _ _ W). destruct (search the_regex input) as [mm|] eqn:E; [|reflexivity].
  unfold tweak_input_string. cbn [m_caps]. destruct (check_and_adjust_parens _ _) as [e|[l' g']] eqn:Ec; [reflexivity|].
  unfold replace. rewrite (search_front _ _ W), E. cbn [m_pre m_suf].
  assert (D : ~ In "$"%char (replacement l' g' (cap_str 3 (m_caps mm)))).
  { apply search_best in E as (Ei & _ & B & _). apply (best_wpart (m_pre mm)) in B. rewrite <- Ei in B.
    intros K. apply replacement_chars in K as [K|[K|K]]; [cbn in K; intuition discriminate|cbn in K; intuition discriminate|].
    apply N. eapply wpart_input; [exact B|]. rewrite !in_app_iff in *.
    pose proof (fun c => check_chars _ _ _ _ c Ec) as Hc. setoid_rewrite in_app_iff in Hc.
    destruct K as [K|[K|K]]; [destruct (Hc _ (or_introl K))|destruct (Hc _ (or_intror K))|]; auto. }
  rewrite !(format_plain _ _ _ D). now rewrite <- app_assoc.
Qed.

Lemma query_skips m : skips (g_query m) = true /\ moved (g_query m) = false.
Proof. split; reflexivity. Qed.
Lemma parse_it_front tm w t q : white w -> parse_it tm (w ++ t) = Q_ok q <-> parse_it tm t = Q_ok q.
Proof.
  intros W. destruct (query_skips (lookup tm)) as [C M].
  assert (S : skip (w ++ t) = skip t). { unfold white in W. induction W as [|c w H W IH]; [reflexivity|]. cbn. now rewrite H. }
  rewrite !parse_it_ok. split; intros (r & E & R); exists r; (split; [|exact R]); [apply (ok_inv _ _ _ (w ++ t))|apply (ok_inv _ _ _ t)]; auto.
Qed.
Lemma query_front tm w input q : white w -> ~ In "$"%char input -> query tm (w ++ input) = Q_ok q <-> query tm input = Q_ok q.
Proof.
  intros W N. unfold query. rewrite (preprocess_front _ _ W N). destruct (preprocess input) as [e|t]; [split; discriminate|]. now apply parse_it_front.
Qed.
