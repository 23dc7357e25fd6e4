(** A small calculus for evaluating the grammar by hand: results up to white space. *)
From Verif Require Import Grammar PegProps PegSpec PegEquiv First.

Section Calc.
Variable m : text -> option text.
Notation EV := (ev (g_body m) _).
(** [reads e i v j]: [e] reads [v] from [i] and leaves [j], up to white space. *)
Definition reads {A : Set} (e : PE A) (i : text) (v : A) (j : text) : Prop := exists r, EV e i (Ok v r) /\ skip r = j.
Definition fails {A : Set} (e : PE A) (i : text) : Prop := exists r, EV e i (Fail r) /\ skip r = skip i.

Lemma reads_first {A : Set} (e : PE A) i : gclass m e (hd_of (skip i)) = C_fail -> fails e i.
Proof. apply first_fail. Qed.
Lemma reads_lit nc s i w r : strip nc s (skip i) = Some (w, r) -> reads (PLit nc s) i tt (skip r).
Proof. intros H. eexists. split; [eapply ev_lit_ok; eauto|auto]. Qed.
Lemma fails_lit nc s i : strip nc s (skip i) = None -> fails (PLit nc s) i.
Proof. intros H. eexists. split; [eapply ev_lit_no; eauto|apply skip_skip]. Qed.
Lemma reads_lex e i v r : swf e = true -> srun e [] (skip i) = SOk v r -> reads (PLex e) i v (skip r).
Proof. intros W H. eexists. split; [eapply ev_lex_ok; apply sev_iff; eauto|auto]. Qed.
Lemma fails_lex e i v : swf e = true -> srun e [] (skip i) = SFail v -> fails (PLex e) i.
Proof. intros W H. eexists. split; [eapply ev_lex_no; apply sev_iff; eauto|apply skip_skip]. Qed.
Lemma reads_olex e i v r : swf e = true -> srun e [] (skip i) = SOk v r -> reads (POptLex e) i v (skip r).
Proof. intros W H. eexists. split; [eapply ev_olex_ok; apply sev_iff; eauto|auto]. Qed.
Lemma reads_olex_none e i v : swf e = true -> srun e [] (skip i) = SFail v -> reads (POptLex e) i v (skip i).
Proof. intros W H. eexists. split; [eapply ev_olex_no; apply sev_iff; eauto|apply skip_skip]. Qed.
Lemma reads_ret {A : Set} (v : A) i : reads (PRet v) i v (skip i).
Proof. eexists. split; [apply ev_ret|auto]. Qed.
Lemma reads_dbl i d r : dbl (skip i) = Some (d, r) -> reads PDbl i d (skip r).
Proof. intros H. eexists. split; [eapply ev_dbl_ok; eauto|auto]. Qed.
Lemma fails_dbl i : dbl (skip i) = None -> fails PDbl i.
Proof. intros H. eexists. split; [eapply ev_dbl_no; eauto|apply skip_skip]. Qed.

Lemma reads_seq {A B : Set} (a : PE A) (b : PE B) i va j vb k :
  reads a i va j -> (forall r, skip r = j -> reads b r vb k) -> reads (PSeq a b) i (va, vb) k.
Proof. intros (r & Ha & Hr) Hb. destruct (Hb r Hr) as (r' & Hb' & Hr'). exists r'. split; auto. eapply ev_seq_ok; eauto. Qed.
Lemma reads_exp {A B : Set} (a : PE A) (b : PE B) i va j vb k :
  reads a i va j -> (forall r, skip r = j -> reads b r vb k) -> reads (PExp a b) i (va, vb) k.
Proof. intros (r & Ha & Hr) Hb. destruct (Hb r Hr) as (r' & Hb' & Hr'). exists r'. split; auto. eapply ev_exp_ok; eauto. Qed.
Lemma fails_seq1 {A B : Set} (a : PE A) (b : PE B) i : fails a i -> fails (PSeq a b) i.
Proof. intros (r & Ha & Hr). eexists. split; [eapply ev_seq_no; eauto|auto]. Qed.
Lemma fails_exp1 {A B : Set} (a : PE A) (b : PE B) i : fails a i -> fails (PExp a b) i.
Proof. intros (r & Ha & Hr). eexists. split; [eapply ev_exp_no; eauto|auto]. Qed.
Lemma fails_seq2 {A B : Set} (a : PE A) (b : PE B) i va j :
  reads a i va j -> (forall r, skip r = j -> fails b r) -> fails (PSeq a b) i.
Proof. intros (r & Ha & Hr) Hb. destruct (Hb r Hr) as (r' & Hb' & _). eexists. split; [eapply ev_seq_no2; eauto|auto]. Qed.
Lemma reads_alt1 {A : Set} (a b : PE A) i v j : reads a i v j -> reads (PAlt a b) i v j.
Proof. intros (r & Ha & Hr). eexists. split; [eapply ev_alt_1; eauto|auto]. Qed.
Lemma reads_alt2 {A : Set} (a b : PE A) i v j : fails a i -> (forall r, skip r = skip i -> reads b r v j) -> reads (PAlt a b) i v j.
Proof. intros (r & Ha & Hr) Hb. destruct (Hb r Hr) as (r' & Hb' & Hr'). exists r'. split; auto. eapply ev_alt_2; eauto. Qed.
Lemma fails_alt {A : Set} (a b : PE A) i : fails a i -> (forall r, skip r = skip i -> fails b r) -> fails (PAlt a b) i.
Proof. intros (r & Ha & Hr) Hb. destruct (Hb r Hr) as (r' & Hb' & Hr'). exists r'. split; [eapply ev_alt_2; eauto|congruence]. Qed.
Lemma reads_map {A B : Set} (f : A -> B) a i v j w : reads a i v j -> w = f v -> reads (PMap f a) i w j.
Proof. intros (r & Ha & Hr) ->. eexists. split; [eapply ev_map_ok; eauto|auto]. Qed.
Lemma fails_map {A B : Set} (f : A -> B) a i : fails a i -> fails (PMap f a) i.
Proof. intros (r & Ha & Hr). eexists. split; [eapply ev_map_no; eauto|auto]. Qed.
Lemma reads_some {A : Set} (a : PE A) i v j : reads a i v j -> reads (POpt a) i (Some v) j.
Proof. intros (r & Ha & Hr). eexists. split; [eapply ev_opt_ok; eauto|auto]. Qed.
Lemma reads_none {A : Set} (a : PE A) i : fails a i -> reads (POpt a) i None (skip i).
Proof. intros (r & Ha & Hr). eexists. split; [eapply ev_opt_no; eauto|auto]. Qed.
Lemma reads_star_nil {A : Set} (a : PE A) i : fails a i -> reads (PStar a) i [] (skip i).
Proof. intros (r & Ha & Hr). eexists. split; [eapply ev_star_stop; eauto|auto]. Qed.
Lemma reads_star_cons {A : Set} (a : PE A) i v j vs k :
  reads a i v j -> (forall r, skip r = j -> reads (PStar a) r vs k) -> reads (PStar a) i (v :: vs) k.
Proof. intros (r & Ha & Hr) Hb. destruct (Hb r Hr) as (r' & Hb' & Hr'). exists r'. split; auto. eapply ev_star_more; eauto. Qed.
Lemma reads_plus {A : Set} (a : PE A) i v j vs k :
  reads a i v j -> (forall r, skip r = j -> reads (PStar a) r vs k) -> reads (PPlus a) i (v :: vs) k.
Proof. intros (r & Ha & Hr) Hb. destruct (Hb r Hr) as (r' & Hb' & Hr'). exists r'. split; auto. eapply ev_plus_ok; eauto. Qed.
Lemma fails_plus {A : Set} (a : PE A) i : fails a i -> fails (PPlus a) i.
Proof. intros (r & Ha & Hr). eexists. split; [eapply ev_plus_no; eauto|auto]. Qed.
Lemma fails_list {A : Set} (a : PE A) s i : fails a i -> fails (PList a s) i.
Proof. intros (r & Ha & Hr). eexists. split; [eapply ev_list_no; eauto|auto]. Qed.
(** The tail of a list. *)
Definition readsl {A : Set} (a : PE A) (s : PE unit) (i : text) (v : list A) (j : text) : Prop :=
  exists r, evl (g_body m) A a s i (Ok v r) /\ skip r = j.
Lemma readsl_stop {A : Set} (a : PE A) s i : fails s i -> readsl a s i [] (skip i).
Proof. intros (r & Ha & Hr). eexists. split; [eapply evl_stop; eauto|auto]. Qed.
Lemma readsl_more {A : Set} (a : PE A) s i u j v k vs l :
  reads s i u j -> (forall r, skip r = j -> reads a r v k) -> (forall r, skip r = k -> readsl a s r vs l) -> readsl a s i (v :: vs) l.
Proof.
  intros (r & Ha & Hr) Hb Hc. destruct (Hb r Hr) as (r' & Hb' & Hr'). destruct (Hc r' Hr') as (r2 & H2 & Hr2).
  exists r2. split; auto. eapply evl_more; eauto.
Qed.
Lemma reads_list {A : Set} (a : PE A) s i v j vs k :
  reads a i v j -> (forall r, skip r = j -> readsl a s r vs k) -> reads (PList a s) i (v :: vs) k.
Proof. intros (r & Ha & Hr) Hb. destruct (Hb r Hr) as (r' & Hb' & Hr'). exists r'. split; auto. eapply ev_list_ok; eauto. Qed.
Lemma reads_rule r i v j : reads (g_body m r) i v j -> reads (PRule r) i v j.
Proof. intros (x & Ha & Hr). eexists. split; [eapply ev_rule; eauto|auto]. Qed.
Lemma fails_rule r i : fails (g_body m r) i -> fails (PRule r) i.
Proof. intros (x & Ha & Hr). eexists. split; [eapply ev_rule; eauto|auto]. Qed.
End Calc.
