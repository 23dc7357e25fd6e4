(** Reading printed text: tokens, lists and repetitions, in the loose calculus of Calc.v. *)
From Verif Require Import Grammar Print PegProps PegSpec PegEquiv TextLemmas SpecLexical LexProofs LexProofs2 First Calc Look Tight.

Definition dark (t : text) : Prop := match t with c :: _ => is_space c = false | [] => False end.
Lemma dark_skip t k : dark t -> skip (t ++ k) = t ++ k.
Proof. destruct t as [|c t]; [easy|]. cbn. now intros ->. Qed.
Lemma dark_skip0 t : dark t -> skip t = t.
Proof. destruct t as [|c t]; [easy|]. cbn. now intros ->. Qed.
Lemma dark_app t k : dark t -> dark (t ++ k).
Proof. now destruct t. Qed.
Lemma skip_space c k : is_space c = true -> skip (c :: k) = skip k.
Proof. cbn. now intros ->. Qed.
Lemma dark_upper t : dark (upper t) -> dark t.
Proof. destruct t as [|c t]; [easy|]. cbn. now rewrite upc_space. Qed.

Section Base.
Variable m : text -> option text.
Notation EV := (ev (g_body m) _).
Notation reads := (reads m).
Notation fails := (fails m).

(** ** Literals and keywords *)
Lemma rd_lit s i k : dark (L s) -> skip i = skip (L s ++ k) -> reads (lit s) i tt (skip k).
Proof. intros D H. eapply reads_lit. rewrite H, dark_skip by exact D. now apply strip_cs_iff. Qed.
Lemma rd_kw s t i k : dark (L s) -> upper t = upper (L s) -> skip i = skip (t ++ k) -> reads (kw s) i tt (skip k).
Proof.
  intros D U H. eapply reads_lit. rewrite H, dark_skip. - apply strip_nc_iff. eauto.
  - apply dark_upper. rewrite U. destruct (L s) as [|c l]; [easy|]. cbn in *. now rewrite upc_space.
Qed.
Lemma ev_kw s i k : dark (L s) -> skip i = skip (L s ++ k) -> EV (kw s) i (Ok tt k).
Proof. intros D H. eapply ev_lit_ok. rewrite H, dark_skip by exact D. apply strip_nc_iff. eauto. Qed.
Lemma no_lit s i k : strip false (L s) (skip k) = None -> skip i = skip k -> fails (lit s) i.
Proof. intros H E. apply fails_lit. now rewrite E. Qed.
Lemma no_kw s i k : strip true (L s) (skip k) = None -> skip i = skip k -> fails (kw s) i.
Proof. intros H E. apply fails_lit. now rewrite E. Qed.

Lemma ahead_space_run acc c k : is_space c = true -> srun ahead_space acc (c :: k) = SOk acc (c :: k).
Proof. intros H. cbn. now rewrite H. Qed.
(** the words of [ws], none of which is the beginning of another one listed behind it, in front of [r] *)
Fixpoint clear_of (ws : list string) (p : text) : bool :=
  match ws with
  | [] => false
  | w :: ws' => if text_eqb p (L w) then true else match llook true true (L w) p with LFail => clear_of ws' p | _ => false end
  end.
Lemma strs_pick ws t r : clear_of ws (upper t) = true -> boundary r \/ (exists c r', r = c :: r' /\ is_idchar c = false /\ forallb (fun w => all_id (L w)) ws = true) ->
  forallb (fun w => text_eqb (upper (L w)) (L w)) ws = true ->
  srun (strs_nc ws) [] (t ++ r) = SOk t r.
Proof.
  intros C B UP. assert (G : forall acc, srun (strs_nc ws) acc (t ++ r) = SOk (acc ++ t) r); [|apply (G [])].
  induction ws as [|w ws IH]; [discriminate|]. intros acc. change (srun (SAlt (SStr true (L w)) (strs_nc ws)) acc (t ++ r) = SOk (acc ++ t) r).
  cbn [forallb] in UP. apply andb_true_iff in UP as [UW UP]. apply text_eqb_iff in UW. cbn [clear_of] in C. cbn [srun]. destruct (text_eqb (upper t) (L w)) eqn:T.
  - apply text_eqb_iff in T. assert (E : strip true (L w) (t ++ r) = Some (t, r)) by (apply strip_nc_iff; rewrite T, UW; auto). now rewrite E.
  - pose proof (llook_ok true true (L w) (upper t) t) as K. destruct (llook true true (L w) (upper t)) eqn:LK; try discriminate.
    assert (E : strip true (L w) (t ++ r) = None).
    { destruct B as [B|(c & r' & -> & Hc & A)]; [apply (K r); auto|].
      (* the word has only identifier characters *)
      cbn [forallb] in A. apply andb_true_iff in A as [A _]. specialize (K [] eq_refl (fun _ => I)). cbn in K. rewrite app_nil_r in K.
      destruct (strip true (L w) (t ++ c :: r')) as [[x y]|] eqn:S; [|reflexivity]. exfalso. apply strip_nc_iff in S as (S & Ux).
      assert (AX : all_id x = true) by (rewrite <- all_id_upper, Ux, all_id_upper; exact A).
      assert (exists t', t = x ++ t') as (t' & ->).
      { clear - S AX Hc. revert t S. induction x as [|a x IH]; intros t S; [now exists t|]. cbn in AX. apply andb_true_iff in AX as [A AX].
        destruct t as [|b t]; [injection S as -> _; congruence|]. injection S as <- S. destruct (IH AX t S) as (t' & ->). now exists t'. }
      eapply strip_nc_none in K; [apply K; exact Ux|]. reflexivity. }
    rewrite E. apply IH; auto. destruct B as [B|(c & r' & -> & Hc & A)]; [now left|right]. exists c, r'. cbn [forallb] in A. apply andb_true_iff in A as [_ A]. auto.
Qed.

Lemma word_dark u t : dark (L u) -> upper t = upper (L u) -> dark t.
Proof. intros D U. apply dark_upper. rewrite U. destruct (L u) as [|c l]; [easy|]. cbn in *. now rewrite upc_space. Qed.
Lemma rd_soft u t c i k : dark (L u) -> upper t = upper (L u) -> is_space c = true -> skip i = skip (t ++ c :: k) -> reads (PLex (kw_soft u)) i [] (skip k).
Proof.
  intros D U C H. rewrite <- (skip_space c k C). eapply reads_lex; [reflexivity|]. rewrite H, dark_skip by (eapply word_dark; eauto).
  assert (E : strip true (L u) (t ++ c :: k) = Some (t, c :: k)) by (apply strip_nc_iff; auto). unfold kw_soft. cbn [srun]. rewrite E. now apply ahead_space_run.
Qed.
Lemma rd_hard u t c i k : dark (L u) -> upper t = upper (L u) -> is_space c = true -> skip i = skip (t ++ c :: k) -> reads (PLex (kw_hard u)) i [] (skip k).
Proof.
  intros D U C H. rewrite <- (skip_space c k C). eapply reads_lex; [reflexivity|]. rewrite H, dark_skip by (eapply word_dark; eauto).
  assert (E : strip true (L u) (t ++ c :: k) = Some (t, c :: k)) by (apply strip_nc_iff; auto). unfold kw_hard. cbn [srun]. rewrite E. now rewrite ahead_space_run.
Qed.
Lemma rd_ohard u t c i k : dark (L u) -> upper t = upper (L u) -> is_space c = true -> skip i = skip (t ++ c :: k) -> reads (POptLex (kws_hard u)) i t (skip k).
Proof.
  intros D U C H. rewrite <- (skip_space c k C). eapply reads_olex; [reflexivity|]. rewrite H, dark_skip by (eapply word_dark; eauto).
  assert (E : strip true (L u) (t ++ c :: k) = Some (t, c :: k)) by (apply strip_nc_iff; auto). unfold kws_hard. cbn [srun]. rewrite E. now rewrite ahead_space_run.
Qed.
Lemma no_hard u i k : strip true (L u) (skip k) = None -> skip i = skip k -> fails (PLex (kw_hard u)) i.
Proof. intros S H. eapply fails_lex; [reflexivity|]. rewrite H. unfold kw_hard. cbn [srun]. now rewrite S. Qed.
Lemma no_soft u i k : strip true (L u) (skip k) = None -> skip i = skip k -> fails (PLex (kw_soft u)) i.
Proof. intros S H. eapply fails_lex; [reflexivity|]. rewrite H. unfold kw_soft. cbn [srun]. now rewrite S. Qed.
Lemma no_ohard u i k : strip true (L u) (skip k) = None -> skip i = skip k -> reads (POptLex (kws_hard u)) i [] (skip k).
Proof. intros S H. rewrite <- H. eapply reads_olex_none; [reflexivity|]. rewrite H. unfold kws_hard. cbn [srun]. now rewrite S. Qed.
Definition soft_run ws t c k : clear_of ws (upper t) = true -> is_space c = true -> forallb (fun w => text_eqb (upper (L w)) (L w)) ws = true ->
  srun (kws_soft ws) [] (t ++ c :: k) = SOk t (c :: k).
Proof.
  intros C S U. unfold kws_soft. cbn [srun]. rewrite strs_pick; auto; [now apply ahead_space_run|]. left. cbn. unfold brk. now rewrite S.
Qed.
Lemma swf_alts l : forallb swf l = true -> swf (alts l) = true.
Proof. induction l as [|a l IH]; [reflexivity|]. cbn. intros [H1 H2]%andb_true_iff. rewrite H1. now apply IH. Qed.
Lemma swf_strs_nc ws : swf (strs_nc ws) = true.
Proof. apply swf_alts. induction ws; [reflexivity|]. exact IHws. Qed.
Lemma swf_strs_cs ws : swf (strs_cs ws) = true.
Proof. apply swf_alts. induction ws; [reflexivity|]. exact IHws. Qed.
Lemma swf_soft ws : swf (kws_soft ws) = true.
Proof. cbn [kws_soft swf]. rewrite swf_strs_nc. reflexivity. Qed.
Lemma rd_softs ws t c i k : clear_of ws (upper t) = true -> dark t -> is_space c = true -> forallb (fun w => text_eqb (upper (L w)) (L w)) ws = true ->
  skip i = skip (t ++ c :: k) -> reads (PLex (kws_soft ws)) i t (skip k).
Proof.
  intros C D S U H. rewrite <- (skip_space c k S). eapply reads_lex; [apply swf_soft|]. rewrite H, dark_skip by auto. now apply soft_run.
Qed.
Lemma rd_osofts ws t c i k : clear_of ws (upper t) = true -> dark t -> is_space c = true -> forallb (fun w => text_eqb (upper (L w)) (L w)) ws = true ->
  skip i = skip (t ++ c :: k) -> reads (POptLex (kws_soft ws)) i t (skip k).
Proof.
  intros C D S U H. rewrite <- (skip_space c k S). eapply reads_olex; [apply swf_soft|]. rewrite H, dark_skip by auto. now apply soft_run.
Qed.
Lemma strs_no ws i : forallb (fun w => match strip true (L w) i with None => true | Some _ => false end) ws = true ->
  forall acc, srun (strs_nc ws) acc i = SFail acc.
Proof.
  induction ws as [|w ws IH]; [intros _ acc; cbn; now destruct i|]. intros H acc. cbn [forallb] in H. apply andb_true_iff in H as [H1 H2].
  change (srun (SAlt (SStr true (L w)) (strs_nc ws)) acc i = SFail acc). cbn [srun]. destruct (strip true (L w) i); [discriminate|]. now apply IH.
Qed.
Lemma no_softs ws i k : forallb (fun w => match strip true (L w) (skip k) with None => true | Some _ => false end) ws = true -> skip i = skip k ->
  fails (PLex (kws_soft ws)) i.
Proof. intros S H. eapply fails_lex; [apply swf_soft|]. rewrite H. unfold kws_soft. cbn [srun]. now rewrite strs_no. Qed.
Lemma no_osofts ws i k : forallb (fun w => match strip true (L w) (skip k) with None => true | Some _ => false end) ws = true -> skip i = skip k ->
  reads (POptLex (kws_soft ws)) i [] (skip k).
Proof. intros S H. rewrite <- H. eapply reads_olex_none; [apply swf_soft|]. rewrite H. unfold kws_soft. cbn [srun]. now rewrite strs_no. Qed.

(** ** Sequences with exact rests, for the look-ahead &no_skip[space] *)
Lemma seq_exact {A B : Set} (a : PE A) (b : PE B) i va j vb x : reads a i va j -> (forall r, skip r = j -> EV b r (Ok vb x)) -> EV (PSeq a b) i (Ok (va, vb) x).
Proof. intros (r & Ha & Hr) Hb. eapply ev_seq_ok; eauto. Qed.
Lemma rd_exact {A : Set} (e : PE A) i v r : EV e i (Ok v r) -> reads e i v (skip r).
Proof. intros H. now exists r. Qed.
Lemma seq_space {A : Set} (a : PE A) i v c k : EV a i (Ok v (c :: k)) -> is_space c = true -> reads (PSeq a PSpace) i (v, tt) (skip k).
Proof. intros H S. eexists. split; [eapply ev_seq_ok; [exact H|now apply ev_space_ok]|now apply skip_space]. Qed.
Lemma rd_kw_space s c i k : dark (L s) -> is_space c = true -> skip i = skip (L s ++ c :: k) -> reads (kw s >> PSpace) i (tt, tt) (skip k).
Proof. intros D S H. eapply seq_space; eauto. now apply ev_kw. Qed.
Lemma seq_space_after {A : Set} (e : PE A) i v t c k : pend e = T_dark -> is_space c = true -> skip i = t ++ c :: k ->
  reads e i v (skip k) -> reads (PSeq e PSpace) i (v, tt) (skip k).
Proof.
  intros P S H (r & Hr & E). destruct (space_after m e i v r t c k Hr P H S E) as (c' & r' & -> & S').
  eexists. split; [eapply ev_seq_ok; [exact Hr|now apply ev_space_ok]|exact E].
Qed.

(** ** Lists and repetitions of printed elements; [F] is what may follow an element *)
Lemma rd_list {A : Set} (a : PE A) (s : PE unit) (sep : text) (pr : A -> text) (F : text -> Prop) l : l <> [] ->
  Forall (fun x => forall i k, F k -> skip i = skip (pr x ++ k) -> reads a i x (skip k)) l ->
  (forall t, F (sep ++ t)) -> (forall r t, skip r = skip (sep ++ t) -> reads s r tt (skip t)) ->
  forall i k, F k -> (forall r, skip r = skip k -> fails s r) -> skip i = skip (join sep (map pr l) ++ k) -> reads (PList a s) i l (skip k).
Proof.
  intros N Hl Fs Rs. destruct l as [|x l]; [congruence|]. clear N. inversion_clear Hl as [|? ? Hx Hl'].
  assert (T : forall i k, F k -> (forall r, skip r = skip k -> fails s r) ->
    skip i = skip (match l with [] => [] | _ => sep ++ join sep (map pr l) end ++ k) -> readsl m a s i l (skip k)).
  { clear x Hx. induction l as [|y l IH]; intros i k Fk Sk H.
    - cbn in H. rewrite <- H. apply readsl_stop. auto.
    - inversion_clear Hl' as [|? ? Hy Hl2]. eapply readsl_more; [apply (Rs i (join sep (map pr (y :: l)) ++ k)); now rewrite app_assoc|intros r Hr|intros r Hr].
      + eapply (Hy r (match l with [] => [] | _ => sep ++ join sep (map pr l) end ++ k)).
        * destruct l; [exact Fk|]. rewrite <- app_assoc. apply Fs.
        * rewrite Hr. cbn [map join]. destruct l as [|z l]; cbn [map app]; [reflexivity|]. now rewrite <- !app_assoc.
      + apply IH; auto. }
  intros i k Fk Sk H. eapply reads_list; [eapply (Hx i (match l with [] => [] | _ => sep ++ join sep (map pr l) end ++ k))|].
  - destruct l; [exact Fk|]. rewrite <- app_assoc. apply Fs.
  - rewrite H. cbn [map join]. destruct l as [|z l]; cbn [map app]; [reflexivity|]. now rewrite <- !app_assoc.
  - intros r Hr. apply T; auto.
Qed.
Lemma rd_star {A : Set} (a : PE A) (pr : A -> text) (F : text -> Prop) l :
  Forall (fun x => forall i k, F k -> skip i = skip (pr x ++ k) -> reads a i x (skip k)) l ->
  (forall x t, In x l -> F (pr x ++ t)) ->
  forall i k, F k -> (forall r, skip r = skip k -> fails a r) -> skip i = skip (concat (map pr l) ++ k) -> reads (PStar a) i l (skip k).
Proof.
  intros Hl Fs. induction l as [|x l IH]; intros i k Fk Sk H.
  - cbn in H. rewrite <- H. apply reads_star_nil. auto.
  - inversion_clear Hl as [|? ? Hx Hl']. eapply reads_star_cons; [eapply (Hx i (concat (map pr l) ++ k))|].
    + destruct l as [|y l]; [exact Fk|]. cbn [map concat]. rewrite <- app_assoc. apply Fs. right. now left.
    + rewrite H. cbn [map concat]. now rewrite <- app_assoc.
    + intros r Hr. apply IH; auto. intros; apply Fs; now right.
Qed.
Lemma rd_plus {A : Set} (a : PE A) (pr : A -> text) (F : text -> Prop) l : l <> [] ->
  Forall (fun x => forall i k, F k -> skip i = skip (pr x ++ k) -> reads a i x (skip k)) l ->
  (forall x t, In x l -> F (pr x ++ t)) ->
  forall i k, F k -> (forall r, skip r = skip k -> fails a r) -> skip i = skip (concat (map pr l) ++ k) -> reads (PPlus a) i l (skip k).
Proof.
  intros N Hl Fs i k Fk Sk H. destruct l as [|x l]; [congruence|]. inversion_clear Hl as [|? ? Hx Hl'].
  eapply reads_plus; [eapply (Hx i (concat (map pr l) ++ k))|].
  - destruct l as [|y l]; [exact Fk|]. cbn [map concat]. rewrite <- app_assoc. apply Fs. right. now left.
  - rewrite H. cbn [map concat]. now rewrite <- app_assoc.
  - intros r Hr. eapply rd_star; eauto. intros; apply Fs; now right.
Qed.
End Base.
