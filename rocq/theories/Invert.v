(** Taking evaluations of the grammar apart, up to white space. *)
From Verif Require Import Grammar PegProps PegSpec PegEquiv Totality SkipInv Calc.

Section Inv.
Context {rule : Set} {attr : rule -> Set} (body : forall r, pe rule attr (attr r)).
Notation PE := (pe rule attr).
Notation EV := (ev body _).
Definition ends {A : Set} (e : PE A) (i : text) : Prop := exists r, EV e i (Fail r).

Definition inv_of {A : Set} (e : PE A) : text -> out A -> Prop :=
  match e in pe _ _ A return text -> out A -> Prop with
  | PLit nc s => fun i o => match o with Ok _ r => exists w, strip nc s (skip i) = Some (w, r) | Fail r => strip nc s (skip i) = None | _ => False end
  | PLex e => fun i o => match o with
      | Ok v r => sev e [] (skip i) (SOk v r) | Fail r => exists a, sev e [] (skip i) (SFail a) | Throw x => sev e [] (skip i) (SThrow x) | OOF => False end
  | POptLex e => fun i o => match o with
      | Ok v r => sev e [] (skip i) (SOk v r) \/ (sev e [] (skip i) (SFail v) /\ r = skip i) | Throw x => sev e [] (skip i) (SThrow x) | _ => False end
  | PSpace => fun i o => match o with Ok _ r => r = i /\ exists c k, i = c :: k /\ is_space c = true | Fail r => True | _ => False end
  | PDbl => fun i o => match o with Ok v r => dbl (skip i) = Some (v, r) | Fail r => dbl (skip i) = None | _ => False end
  | PTop => fun i o => match o with Ok v r => ulong (skip i) = Some (v, r) | _ => True end
  | PRet v => fun i o => match o with Ok w r => w = v /\ r = i | _ => False end
  | PSeq a b => fun i o => match o with
      | Ok v r => exists va vb k, v = (va, vb) /\ EV a i (Ok va k) /\ EV b k (Ok vb r)
      | Fail r => ends a i \/ exists va k, EV a i (Ok va k) /\ ends b k
      | Throw x => EV a i (Throw x) \/ exists va k, EV a i (Ok va k) /\ EV b k (Throw x)
      | OOF => False end
  | PExp a b => fun i o => match o with
      | Ok v r => exists va vb k, v = (va, vb) /\ EV a i (Ok va k) /\ EV b k (Ok vb r)
      | Fail r => ends a i
      | Throw x => EV a i (Throw x) \/ (exists va k, EV a i (Ok va k) /\ EV b k (Throw x)) \/ exists va k, EV a i (Ok va k) /\ ends b k
      | OOF => False end
  | PAlt a b => fun i o => match o with
      | Ok v r => EV a i (Ok v r) \/ exists k, EV a i (Fail k) /\ EV b k (Ok v r)
      | Fail r => exists k, EV a i (Fail k) /\ EV b k (Fail r)
      | Throw x => EV a i (Throw x) \/ exists k, EV a i (Fail k) /\ EV b k (Throw x)
      | OOF => exists k, EV a i (Fail k) /\ EV b k OOF end
  | POpt a => fun i o => match o with
      | Ok (Some v) r => EV a i (Ok v r) | Ok None r => EV a i (Fail r) | Throw x => EV a i (Throw x) | _ => False end
  | PStar a => fun i o => match o with
      | Ok [] r => EV a i (Fail r)
      | Ok (v :: vs) r => exists k, EV a i (Ok v k) /\ EV (PStar a) k (Ok vs r)
      | Throw x => EV a i (Throw x) \/ exists v k, EV a i (Ok v k) /\ EV (PStar a) k (Throw x)
      | _ => False end
  | PPlus a => fun i o => match o with
      | Ok [] r => False
      | Ok (v :: vs) r => exists k, EV a i (Ok v k) /\ EV (PStar a) k (Ok vs r)
      | Fail r => ends a i
      | Throw x => EV a i (Throw x) \/ exists v k, EV a i (Ok v k) /\ EV (PStar a) k (Throw x)
      | _ => False end
  | PList a s => fun i o => match o with
      | Ok [] r => False
      | Ok (v :: vs) r => exists k, EV a i (Ok v k) /\ evl body _ a s k (Ok vs r)
      | Fail r => ends a i
      | Throw x => EV a i (Throw x) \/ exists v k, EV a i (Ok v k) /\ evl body _ a s k (Throw x)
      | _ => False end
  | PMap f a => fun i o => match o with
      | Ok v r => exists x, v = f x /\ EV a i (Ok x r) | Fail r => EV a i (Fail r) | Throw x => EV a i (Throw x) | _ => False end
  | PRule r => fun i o => EV (body r) i o
  end.
Lemma ev_inv (A : Set) (e : PE A) i o : EV e i o -> inv_of e i o.
Proof. intro H. destruct H; cbn [inv_of]; unfold ends; eauto 10. destruct o; eauto 10. Qed.
End Inv.

Section Up.
Variable m : text -> option text.
Notation EV := (ev (g_body m) _).
Notation reads := (reads m).
Notation fails := (fails m).
Definition throws {A : Set} (e : PE A) (i : text) : Prop := exists x, EV e i (Throw x).

(** A failure leaves the text behind, up to white space. *)
Lemma fail_here (A : Set) (e : PE A) i o : EV e i o -> match o with Fail r => skip r = skip i | _ => True end.
Proof.
  revert A e i o.
  apply (ev_ind2 _ _ (g_body m) (fun A e i o _ => match o with Fail r => skip r = skip i | _ => True end) (fun A a s i o _ => True)); intros; try exact I; auto using skip_skip.
  destruct o; auto. congruence.
Qed.
Lemma fails_intro {A : Set} (e : PE A) i r : EV e i (Fail r) -> fails e i.
Proof. intro H. exists r. split; [exact H|]. exact (fail_here _ _ _ _ H). Qed.
Lemma fails_ends {A : Set} (e : PE A) i : ends (g_body m) e i -> fails e i.
Proof. intros (r & H). eapply fails_intro; eauto. Qed.

(** ** White space in front does not matter *)
Lemma reads_same {A : Set} (e : PE A) i j v k : skips e = true -> skip i = skip j -> reads e i v k -> reads e j v k.
Proof.
  intros S E (r & H & K). destruct (skip_inv m _ _ _ _ H j E S) as ([v' r'|r'|x|] & H' & Q); cbn in Q; try contradiction.
  destruct Q as (-> & Q & _). exists r'. split; [exact H'|congruence].
Qed.
Lemma fails_same {A : Set} (e : PE A) i j : skips e = true -> skip i = skip j -> fails e i -> fails e j.
Proof.
  intros S E (r & H & K). destruct (skip_inv m _ _ _ _ H j E S) as ([v' r'|r'|x|] & H' & Q); cbn in Q; try contradiction.
  eapply fails_intro; eauto.
Qed.
Lemma throws_same {A : Set} (e : PE A) i j : skips e = true -> skip i = skip j -> throws e i -> throws e j.
Proof. intros S E (x & H). eapply throw_inv; eauto. Qed.

(** ** One outcome *)
Definition chk {A : Set} (e : PE A) : Prop := pchk rank 3 3 e = true.
Lemma one_outcome {A : Set} (e : PE A) i o o' : chk e -> EV e i o -> EV e i o' -> o = o'.
Proof.
  intros C H H'. pose proof (grun_total m (3 * length i + 3) A e i C ltac:(lia)) as N.
  apply (ev_iff_run _ _ _ _ _ _ N) in H, H'. congruence.
Qed.
Lemma some_outcome {A : Set} (e : PE A) i : chk e -> (exists v j, reads e i v j) \/ fails e i \/ throws e i.
Proof.
  intros C. pose proof (grun_total m (3 * length i + 3) A e i C ltac:(lia)) as N.
  pose proof (run_ev (g_body m) _ _ _ _ N) as H. unfold grun in N. destruct (run (g_body m) (3 * length i + 3) A e i) as [v r|r|x|]; [left|right; left|right; right|contradiction].
  - exists v, (skip r), r. auto.
  - eapply fails_intro; eauto.
  - exists x. exact H.
Qed.
Lemma reads_det {A : Set} (e : PE A) i v j v' j' : chk e -> reads e i v j -> reads e i v' j' -> v = v' /\ j = j'.
Proof. intros C (r & H & K) (r' & H' & K'). pose proof (one_outcome e i _ _ C H H') as E. injection E as <- <-. split; congruence. Qed.
Lemma reads_fails {A : Set} (e : PE A) i v j : chk e -> reads e i v j -> fails e i -> False.
Proof. intros C (r & H & K) (r' & H' & K'). pose proof (one_outcome e i _ _ C H H'). discriminate. Qed.
Lemma reads_throws {A : Set} (e : PE A) i v j : chk e -> reads e i v j -> throws e i -> False.
Proof. intros C (r & H & K) (r' & H'). pose proof (one_outcome e i _ _ C H H'). discriminate. Qed.
Lemma fails_throws {A : Set} (e : PE A) i : chk e -> fails e i -> throws e i -> False.
Proof. intros C (r & H & K) (r' & H'). pose proof (one_outcome e i _ _ C H H'). discriminate. Qed.

(** ** Inversion *)
Ltac iv H := apply ev_inv in H; cbn [inv_of] in H.
Lemma i_lit nc s i v j : reads (PLit nc s) i v j -> exists w r, strip nc s (skip i) = Some (w, r) /\ skip r = j.
Proof. intros (r & H & K). iv H. destruct H as (w & H). eauto. Qed.
Lemma f_lit nc s i : fails (PLit nc s) i -> strip nc s (skip i) = None.
Proof. intros (r & H & K). now iv H. Qed.
Lemma i_lex e i v j : swf e = true -> reads (PLex e) i v j -> exists r, srun e [] (skip i) = SOk v r /\ skip r = j.
Proof. intros W (r & H & K). iv H. apply (sev_iff _ _ _ _ W) in H. eauto. Qed.
Lemma f_lex e i : swf e = true -> fails (PLex e) i -> exists a, srun e [] (skip i) = SFail a.
Proof. intros W (r & H & K). iv H. destruct H as (a & H). apply (sev_iff _ _ _ _ W) in H. eauto. Qed.
Lemma i_olex e i v j : swf e = true -> reads (POptLex e) i v j -> (exists r, srun e [] (skip i) = SOk v r /\ skip r = j) \/ (srun e [] (skip i) = SFail v /\ j = skip i).
Proof.
  intros W (r & H & K). iv H. destruct H as [H|[H ->]]; apply (sev_iff _ _ _ _ W) in H; [left; eauto|right]. split; [exact H|]. now rewrite <- K, skip_skip.
Qed.
Lemma f_olex e i : fails (POptLex e) i -> False.
Proof. intros (r & H & K). now iv H. Qed.
Lemma i_dbl i v j : reads PDbl i v j -> exists r, dbl (skip i) = Some (v, r) /\ skip r = j.
Proof. intros (r & H & K). iv H. eauto. Qed.
Lemma i_seq {A B : Set} (a : PE A) (b : PE B) i v j : skips b = true -> reads (PSeq a b) i v j ->
  exists va vb k, v = (va, vb) /\ reads a i va k /\ reads b k vb j.
Proof.
  intros S (r & H & K). iv H. destruct H as (va & vb & k & -> & H1 & H2). exists va, vb, (skip k). split; [reflexivity|]. split; [exists k; auto|].
  eapply reads_same; [exact S|symmetry; apply skip_skip|]. exists r. auto.
Qed.
Lemma i_exp {A B : Set} (a : PE A) (b : PE B) i v j : skips b = true -> reads (PExp a b) i v j ->
  exists va vb k, v = (va, vb) /\ reads a i va k /\ reads b k vb j.
Proof.
  intros S (r & H & K). iv H. destruct H as (va & vb & k & -> & H1 & H2). exists va, vb, (skip k). split; [reflexivity|]. split; [exists k; auto|].
  eapply reads_same; [exact S|symmetry; apply skip_skip|]. exists r. auto.
Qed.
(** with the place in between *)
Lemma i_seq_at {A B : Set} (a : PE A) (b : PE B) i v j : reads (PSeq a b) i v j ->
  exists va vb k, v = (va, vb) /\ reads a i va (skip k) /\ reads b k vb j.
Proof. intros (r & H & K). iv H. destruct H as (va & vb & k & -> & H1 & H2). exists va, vb, k. split; [reflexivity|]. split; [exists k; auto|]. exists r. auto. Qed.
Lemma f_seq {A B : Set} (a : PE A) (b : PE B) i : skips b = true -> fails (PSeq a b) i -> fails a i \/ exists va k, reads a i va k /\ fails b k.
Proof.
  intros S (r & H & K). iv H. destruct H as [H|(va & k & H1 & H2)]; [left; now apply fails_ends|right]. exists va, (skip k). split; [exists k; auto|].
  eapply fails_same; [exact S|symmetry; apply skip_skip|]. now apply fails_ends.
Qed.
Lemma f_exp {A B : Set} (a : PE A) (b : PE B) i : fails (PExp a b) i -> fails a i.
Proof. intros (r & H & K). iv H. now apply fails_ends. Qed.
Lemma i_alt {A : Set} (a b : PE A) i v j : skips b = true -> reads (PAlt a b) i v j -> reads a i v j \/ (fails a i /\ reads b i v j).
Proof.
  intros S (r & H & K). iv H. destruct H as [H|(k & H1 & H2)]; [left; exists r; auto|right]. split; [eapply fails_intro; eauto|].
  eapply reads_same; [exact S|exact (fail_here _ _ _ _ H1)|]. exists r. auto.
Qed.
Lemma f_alt {A : Set} (a b : PE A) i : skips b = true -> fails (PAlt a b) i -> fails a i /\ fails b i.
Proof.
  intros S (r & H & K). iv H. destruct H as (k & H1 & H2). split; [eapply fails_intro; eauto|].
  eapply fails_same; [exact S|exact (fail_here _ _ _ _ H1)|]. eapply fails_intro; eauto.
Qed.
Lemma i_map {A B : Set} (f : A -> B) (a : PE A) i v j : reads (PMap f a) i v j -> exists x, v = f x /\ reads a i x j.
Proof. intros (r & H & K). iv H. destruct H as (x & -> & H). exists x. split; [reflexivity|]. exists r. auto. Qed.
Lemma f_map {A B : Set} (f : A -> B) (a : PE A) i : fails (PMap f a) i -> fails a i.
Proof. intros (r & H & K). iv H. eapply fails_intro; eauto. Qed.
Lemma i_opt {A : Set} (a : PE A) i v j : reads (POpt a) i v j -> (exists x, v = Some x /\ reads a i x j) \/ (v = None /\ fails a i /\ j = skip i).
Proof.
  intros (r & H & K). iv H. destruct v as [x|]; [left|right]; [exists x; split; [reflexivity|exists r; auto]|].
  split; [reflexivity|]. split; [eapply fails_intro; eauto|]. rewrite <- K. exact (fail_here _ _ _ _ H).
Qed.
Lemma f_opt {A : Set} (a : PE A) i : fails (POpt a) i -> False.
Proof. intros (r & H & K). now iv H. Qed.
Lemma i_star {A : Set} (a : PE A) i vs j : skips (PStar a) = true -> reads (PStar a) i vs j ->
  (vs = [] /\ fails a i /\ j = skip i) \/ exists v vs' k, vs = v :: vs' /\ reads a i v k /\ reads (PStar a) k vs' j.
Proof.
  intros S (r & H & K). iv H. destruct vs as [|v vs]; [left|right].
  - split; [reflexivity|]. split; [eapply fails_intro; eauto|]. rewrite <- K. exact (fail_here _ _ _ _ H).
  - destruct H as (k & H1 & H2). exists v, vs, (skip k). split; [reflexivity|]. split; [exists k; auto|].
    eapply reads_same; [exact S|symmetry; apply skip_skip|]. exists r. auto.
Qed.
Lemma f_star {A : Set} (a : PE A) i : fails (PStar a) i -> False.
Proof. intros (r & H & K). now iv H. Qed.
Lemma i_plus {A : Set} (a : PE A) i vs j : skips (PStar a) = true -> reads (PPlus a) i vs j ->
  exists v vs' k, vs = v :: vs' /\ reads a i v k /\ reads (PStar a) k vs' j.
Proof.
  intros S (r & H & K). iv H. destruct vs as [|v vs]; [contradiction|].
  destruct H as (k & H1 & H2). exists v, vs, (skip k). split; [reflexivity|]. split; [exists k; auto|].
  eapply reads_same; [exact S|symmetry; apply skip_skip|]. exists r. auto.
Qed.
Lemma f_plus {A : Set} (a : PE A) i : fails (PPlus a) i -> fails a i.
Proof. intros (r & H & K). iv H. now apply fails_ends. Qed.
Lemma i_list {A : Set} (a : PE A) s i vs j : reads (PList a s) i vs j -> exists v vs' k, vs = v :: vs' /\ reads a i v k.
Proof.
  intros (r & H & K). iv H. destruct vs as [|v vs]; [contradiction|].
  destruct H as (k & H1 & H2). exists v, vs, (skip k). split; [reflexivity|]. exists k; auto.
Qed.
Lemma f_list {A : Set} (a : PE A) s i : fails (PList a s) i -> fails a i.
Proof. intros (r & H & K). iv H. now apply fails_ends. Qed.
Lemma i_rule q i v j : reads (PRule q) i v j -> reads (g_body m q) i v j.
Proof. intros (r & H & K). iv H. exists r. auto. Qed.
Lemma f_rule q i : fails (PRule q) i -> fails (g_body m q) i.
Proof. intros (r & H & K). iv H. exists r. auto. Qed.
(** ** Exceptions go through *)
Lemma t_map {A B : Set} (f : A -> B) (a : PE A) i : throws a i -> throws (PMap f a) i.
Proof. intros (x & H). exists x. now apply ev_map_th. Qed.
Lemma t_rule q i : throws (g_body m q) i -> throws (PRule q) i.
Proof. intros (x & H). exists x. now apply ev_rule. Qed.
Lemma t_seq1 {A B : Set} (a : PE A) (b : PE B) i : throws a i -> throws (PSeq a b) i.
Proof. intros (x & H). exists x. now apply ev_seq_th. Qed.
Lemma t_exp1 {A B : Set} (a : PE A) (b : PE B) i : throws a i -> throws (PExp a b) i.
Proof. intros (x & H). exists x. now apply ev_exp_th. Qed.
Lemma t_seq2 {A B : Set} (a : PE A) (b : PE B) i v k : skips b = true -> reads a i v k -> throws b k -> throws (PSeq a b) i.
Proof.
  intros S (r & H & K) T. assert (T' : throws b r) by (eapply throws_same; [exact S| |exact T]; rewrite <- K; apply skip_skip).
  destruct T' as (x & T'). exists x. eapply ev_seq_th2; eauto.
Qed.
Lemma t_alt1 {A : Set} (a b : PE A) i : throws a i -> throws (PAlt a b) i.
Proof. intros (x & H). exists x. now apply ev_alt_th. Qed.
Lemma t_alt2 {A : Set} (a b : PE A) i : skips b = true -> fails a i -> throws b i -> throws (PAlt a b) i.
Proof.
  intros S (r & H & K) T. assert (T' : throws b r) by (eapply throws_same; [exact S| |exact T]; now symmetry).
  destruct T' as (x & T'). exists x. eapply ev_alt_2; eauto.
Qed.
Lemma t_opt {A : Set} (a : PE A) i : throws a i -> throws (POpt a) i.
Proof. intros (x & H). exists x. now apply ev_opt_th. Qed.
Lemma i_ve i v j : reads p_ve i v j -> reads g_value_expression i v j. Proof. exact (i_rule R_ve i v j). Qed.
Lemma f_ve i : fails p_ve i -> fails g_value_expression i. Proof. exact (f_rule R_ve i). Qed.
Lemma t_ve i : throws g_value_expression i -> throws p_ve i. Proof. exact (t_rule R_ve i). Qed.
Lemma r_ve i v j : reads g_value_expression i v j -> reads p_ve i v j. Proof. exact (reads_rule m R_ve i v j). Qed.
Lemma i_venb i v j : reads p_venb i v j -> reads (g_value_expression_non_bool m) i v j. Proof. exact (i_rule R_venb i v j). Qed.
Lemma f_venb i : fails p_venb i -> fails (g_value_expression_non_bool m) i. Proof. exact (f_rule R_venb i). Qed.
Lemma t_venb i : throws (g_value_expression_non_bool m) i -> throws p_venb i. Proof. exact (t_rule R_venb i). Qed.
Lemma r_venb i v j : reads (g_value_expression_non_bool m) i v j -> reads p_venb i v j. Proof. exact (reads_rule m R_venb i v j). Qed.
Lemma i_sc i v j : reads p_sc i v j -> reads g_search_condition i v j. Proof. exact (i_rule R_sc i v j). Qed.
Lemma f_sc i : fails p_sc i -> fails g_search_condition i. Proof. exact (f_rule R_sc i). Qed.
Lemma t_sc i : throws g_search_condition i -> throws p_sc i. Proof. exact (t_rule R_sc i). Qed.
Lemma r_sc i v j : reads g_search_condition i v j -> reads p_sc i v j. Proof. exact (reads_rule m R_sc i v j). Qed.
Lemma i_subq i v j : reads p_subq i v j -> reads (g_subquery m) i v j. Proof. exact (i_rule R_subq i v j). Qed.
Lemma f_subq i : fails p_subq i -> fails (g_subquery m) i. Proof. exact (f_rule R_subq i). Qed.
Lemma t_subq i : throws (g_subquery m) i -> throws p_subq i. Proof. exact (t_rule R_subq i). Qed.
Lemma r_subq i v j : reads (g_subquery m) i v j -> reads p_subq i v j. Proof. exact (reads_rule m R_subq i v j). Qed.
Lemma i_jt i v j : reads p_jt i v j -> reads (g_joined_table m) i v j. Proof. exact (i_rule R_jt i v j). Qed.
Lemma f_jt i : fails p_jt i -> fails (g_joined_table m) i. Proof. exact (f_rule R_jt i). Qed.
Lemma t_jt i : throws (g_joined_table m) i -> throws p_jt i. Proof. exact (t_rule R_jt i). Qed.
Lemma r_jt i v j : reads (g_joined_table m) i v j -> reads p_jt i v j. Proof. exact (reads_rule m R_jt i v j). Qed.
Lemma i_tref i v j : reads p_tref i v j -> reads (g_table_reference m) i v j. Proof. exact (i_rule R_tref i v j). Qed.
Lemma f_tref i : fails p_tref i -> fails (g_table_reference m) i. Proof. exact (f_rule R_tref i). Qed.
Lemma t_tref i : throws (g_table_reference m) i -> throws p_tref i. Proof. exact (t_rule R_tref i). Qed.
Lemma r_tref i v j : reads (g_table_reference m) i v j -> reads p_tref i v j. Proof. exact (reads_rule m R_tref i v j). Qed.
(** ** and back: putting readings together *)
Lemma r_seq {A B : Set} (a : PE A) (b : PE B) i va k vb j : skips b = true -> reads a i va k -> reads b k vb j -> reads (PSeq a b) i (va, vb) j.
Proof.
  intros S (r & H & K) T. assert (T' : reads b r vb j) by (eapply reads_same; [exact S| |exact T]; rewrite <- K; apply skip_skip).
  destruct T' as (r2 & T' & K2). exists r2. split; [eapply ev_seq_ok; eauto|exact K2].
Qed.
Lemma r_alt2 {A : Set} (a b : PE A) i v j : skips b = true -> fails a i -> reads b i v j -> reads (PAlt a b) i v j.
Proof.
  intros S (r & H & K) T. assert (T' : reads b r v j) by (eapply reads_same; [exact S| |exact T]; now symmetry).
  destruct T' as (r2 & T' & K2). exists r2. split; [eapply ev_alt_2; eauto|exact K2].
Qed.
Lemma r_star {A : Set} (a : PE A) i v k vs j : skips (PStar a) = true -> reads a i v k -> reads (PStar a) k vs j -> reads (PStar a) i (v :: vs) j.
Proof.
  intros S (r & H & K) T. assert (T' : reads (PStar a) r vs j) by (eapply reads_same; [exact S| |exact T]; rewrite <- K; apply skip_skip).
  destruct T' as (r2 & T' & K2). exists r2. split; [eapply ev_star_more; eauto|exact K2].
Qed.
End Up.
