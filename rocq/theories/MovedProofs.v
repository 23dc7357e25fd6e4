(** The constructor on texts whose geometry stands behind other conditions (C39). *)
From Verif Require Import Query Print Spec SpecLexical SpecRewrite SpecSpelling SpecSystem SpecFlags SpecCanon SpecNorm SpecNodes SpecUsual SpecBehind SpecMoved RewriteNot RewriteSound FlagProofs CanonBase CanonHead CanonAll Properties3.

Lemma sc_t_eq fmt f op s : is_nil op = false -> pr_sc fmt (SC_t f op s) = pr_bfac fmt f ++ L " " ++ upper op ++ L " " ++ pr_sc fmt s.
Proof.
  intros N. change (pr_sc fmt (SC_t f op s)) with (if is_nil op then [] else pr_bfac fmt f ++ L " " ++ upper op ++ L " " ++ pr_sc fmt s).
  now rewrite N.
Qed.
Lemma op_some op : one_of op ["AND"; "OR"]%string = true -> is_nil op = false.
Proof. destruct op; [discriminate|reflexivity]. Qed.
Lemma sc_f_eq fmt f : c_sc fmt (SC_f f) = true -> pr_sc fmt (SC_f f) = pr_bfac fmt f.
Proof.
  intros C. change (pr_sc fmt (SC_f f)) with (if sc_empty (SC_f f) then [] else pr_bfac fmt f).
  now rewrite (sc_nonempty fmt _ C).
Qed.
Lemma pr_sc_and fmt : forall a b, c_sc fmt a = true -> pr_sc fmt (sc_and a b) = pr_sc fmt a ++ L " AND " ++ pr_sc fmt b.
Proof.
  fix IH 1. intros [f|f op s] b C.
  - rewrite (sc_f_eq fmt f C). cbn [sc_and]. rewrite sc_t_eq by reflexivity. reflexivity.
  - cbn [sc_and]. cbn [c_sc] in C. rewrite !andb_true_iff in C. destruct C as [[[_ O] C] _]. rewrite !sc_t_eq by now apply op_some. rewrite IH by exact C. rewrite <- !app_assoc. reflexivity.
Qed.
Lemma c_sc_some fmt s : c_sc fmt s = true -> pr_sc fmt s <> [].
Proof.
  assert (F : forall f, c_bfac fmt f = true -> pr_bfac fmt f <> []).
  { intros [n p] C. destruct n as [|c n]; [|discriminate]. pose proof (bprim_dark fmt [] p eq_refl C) as D.
    change (pr_bfac fmt (BF [] p)) with (pr_bprim fmt p). intros E. rewrite E in D. exact D. }
  destruct s as [f|f op s]; intros C.
  - rewrite (sc_f_eq fmt f C). exact (F f C).
  - cbn [c_sc] in C. rewrite !andb_true_iff in C. destruct C as [[[C O] _] _]. rewrite sc_t_eq by now apply op_some. intros E. apply app_eq_nil in E as [E _]. now apply (F f).
Qed.
Lemma moved_joined fmt pre c1 g c2 : c_sc fmt c1 = true -> match c2 with Some c => c_sc fmt c = true | None => True end ->
  moved pre (pr_sc fmt c1) g (pr_osc fmt c2) = pre ++ L "WHERE " ++ g ++ L " AND " ++ pr_sc fmt (joined c1 c2).
Proof.
  intros C1 C. unfold moved. destruct c2 as [c|]; cbn [pr_osc joined].
  - rewrite pr_sc_and by exact C1. destruct (pr_sc fmt c) eqn:E; [|reflexivity]. now apply c_sc_some in C.
  - now rewrite app_nil_r.
Qed.
