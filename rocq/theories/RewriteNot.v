(** Texts that are not rewritten although they contain geometries (C34, C13). *)
From Verif Require Import Query Print Spec SpecLexical SpecCanon SpecRewrite SpecBehind LexProofs RewriteSound RewriteExact TextLemmas.

Lemma not_behind_and t : geometries_behind (fun a => ~ ends_with_and a) t -> preprocess t = inr t.
Proof.
  intros H. destruct (preprocess_cases t) as [E|(pre & l & g & r & tl & W & _)]; [exact E|]. exfalso.
  destruct W as [w m1 m2 E _ _ _ _ A (f & gw & d & -> & F & G) _].
  apply (H (pre ++ w ++ l ++ m1 ++ f) gw (d ++ m2 ++ r ++ tl)); [rewrite E, <- !app_assoc; reflexivity|exact G|].
  exists (pre ++ w ++ l), m1, f. rewrite <- !app_assoc. auto.
Qed.
(** the last character that is not a blank *)
Fixpoint rskip (t : text) : text := match t with c :: t' => if Ascii.eqb c " " then rskip t' else t | [] => [] end.
Lemma rskip_blank b t : blank b -> rskip (rev b ++ t) = rskip t.
Proof.
  intros B. assert (B' : blank (rev b)) by (apply Forall_rev; exact B). clear B. revert B'. generalize (rev b). intros l. induction 1 as [|c l' -> _ IH]; [reflexivity|exact IH].
Qed.
Lemma where_not_and a : ends_with_where a -> ~ ends_with_and a.
Proof.
  intros (x & ->) (y & m & f & E & (b1 & n & b2 & -> & B1 & S & B2) & F).
  apply (f_equal (@rev ascii)) in E. rewrite !rev_app_distr in E. apply (f_equal rskip) in E.
  change (rskip (rev (L "WHERE ") ++ rev x)) with (rev (L "WHERE") ++ rev x) in E.
  apply and_three in S as (c1 & c2 & c3 & -> & _ & _ & U).
  destruct F as [|d b3 b4 _ B3 B4].
  - rewrite <- !app_assoc in E. cbn [rev app] in E. rewrite rskip_blank in E by exact B2. cbn in E. destruct (Ascii.eqb c3 " ") eqn:Z; [apply Ascii.eqb_eq in Z; rewrite Z in U; discriminate U|]. injection E as X _. rewrite <- X in U. discriminate U.
  - cbn [rev] in E. rewrite !rev_app_distr in E. cbn [rev] in E. rewrite <- !app_assoc in E. rewrite rskip_blank in E by exact B4. cbn in E. discriminate E.
Qed.
Lemma behind_where_only t : geometries_behind ends_with_where t -> preprocess t = inr t.
Proof. intros H. apply not_behind_and. intros a w b E G. apply where_not_and. eauto. Qed.

(** a check *)
Fixpoint behind_where_b (rpre t : text) : bool :=
  (if begins_with_nc "CONTAINS" t || begins_with_nc "INTERSECTS" t then
     match rpre with b :: e :: r :: e2 :: h :: w :: _ => text_eqb [w; h; e2; r; e; b] (L "WHERE ") | _ => false end
   else true) &&
  match t with [] => true | c :: t' => behind_where_b (c :: rpre) t' end.
Lemma behind_where_b_sound t : behind_where_b [] t = true -> geometries_behind ends_with_where t.
Proof.
  assert (G : forall t r, behind_where_b r t = true -> forall a w b, t = a ++ w ++ b -> geometry_word w -> ends_with_where (rev r ++ a)).
  { clear t. induction t as [|c t IH]; intros r H a w b E W.
    - destruct a; [|discriminate]. destruct w; [|discriminate]. destruct W; discriminate.
    - cbn [behind_where_b] in H. apply andb_true_iff in H as [H1 H2]. destruct a as [|c' a].
      + cbn [app] in E. assert (Z : begins_with_nc "CONTAINS" (c :: t) || begins_with_nc "INTERSECTS" (c :: t) = true).
        { rewrite E. apply orb_true_iff. destruct W as [W|W]; [left|right]; unfold begins_with_nc; (destruct (strip true _ _) eqn:S; [reflexivity|]); exfalso; (eapply (proj1 (strip_nc_none _ _) S); [reflexivity|exact W]). }
        rewrite Z in H1. destruct r as [|c1 [|c2 [|c3 [|c4 [|c5 [|c6 r]]]]]]; try discriminate. apply text_eqb_iff in H1. injection H1 as -> -> -> -> -> ->.
        exists (rev r). cbn [rev]. rewrite <- !app_assoc. reflexivity.
      + cbn [app] in E. injection E as <- E. specialize (IH (c :: r) H2 a w b E W). cbn [rev] in IH. rewrite <- app_assoc in IH. exact IH. }
  intros H a w b E W. exact (G t [] H a w b E W).
Qed.
