(** AND/OR chains (C31). *)
From Verif Require Import Query PegProps Spec SpecNodes SpecRewrite Nodes NodeProps TextLemmas LexProofs LexProofs2.

(** ** Specification *)
(** The conditions of a search condition and the connectives between them, in the order written. *)
Fixpoint conditions (s : sc) : list bfac := match s with SC_f f => [f] | SC_t f _ s' => f :: conditions s' end.
Fixpoint connectives (s : sc) : list text := match s with SC_f _ => [] | SC_t _ o s' => o :: connectives s' end.
(** The maximal AND-sequences in c_i o c_(i+1) o' ..., as lists of positions. *)
Fixpoint and_groups (i : nat) (os : list text) : list (list nat) :=
  match os with
  | [] => [[i]]
  | o :: os' => if text_eqb (upper o) (L "OR") then [i] :: and_groups (S i) os' else cons_head i (and_groups (S i) os')
  end.
(** The truth value of c_0 o_1 c_1 o_2 ..., AND binding tighter than OR, where c_i has the value [v i]. *)
Definition chain_truth (v : nat -> bool) (os : list text) : bool := existsb (forallb v) (and_groups 0 os).

(** ** Proofs *)
Lemma groups_shape os : forall i, exists g gs, and_groups i os = g :: gs.
Proof. induction os as [|o os IH]; intros i; cbn; [eauto|]. destruct (IH (S i)) as (g & gs & E). destruct (text_eqb _ _); [eauto|]. rewrite E. cbn. eauto. Qed.
Lemma groups_map os : forall i, and_groups (S i) os = map (map S) (and_groups i os).
Proof.
  induction os as [|o os IH]; intros i; cbn; [reflexivity|]. rewrite IH.
  destruct (text_eqb _ _); [reflexivity|]. destruct (groups_shape os (S i)) as (g & gs & E). rewrite E. reflexivity.
Qed.
Lemma forallb_S v l : forallb v (map S l) = forallb (fun n => v (S n)) l.
Proof. induction l; cbn; [auto|]. now rewrite IHl. Qed.
Lemma existsb_S v l : existsb (forallb v) (map (map S) l) = existsb (forallb (fun n => v (S n))) l.
Proof. induction l; cbn; [auto|]. now rewrite IHl, forallb_S. Qed.
Lemma chain_cons v o os : upper o = L "AND" \/ upper o = L "OR" ->
  exists g gs, and_groups 0 os = g :: gs /\
  chain_truth v (o :: os) =
    if text_eqb (upper o) (L "OR") then v 0 || chain_truth (fun n => v (S n)) os
    else (v 0 && forallb (fun n => v (S n)) g) || existsb (forallb (fun n => v (S n))) gs.
Proof.
  intros _. destruct (groups_shape os 0) as (g & gs & E). exists g, gs. split; [exact E|].
  unfold chain_truth. cbn [and_groups]. rewrite groups_map, E. destruct (text_eqb _ _); cbn; rewrite existsb_S, forallb_S; [|reflexivity].
  now rewrite andb_true_r.
Qed.
Lemma and_only os : Forall (fun o => upper o = L "AND") os -> forall i, exists g, and_groups i os = [g].
Proof.
  induction 1 as [|o os E _ IH]; intros i; cbn; [eauto|]. rewrite E. cbn [text_eqb]. destruct (IH (S i)) as (g & ->). cbn. eauto.
Qed.
Lemma or_inside os : Forall (fun o => upper o = L "AND" \/ upper o = L "OR") os -> ~ Forall (fun o => upper o = L "AND") os ->
  forall i, exists g h gs, and_groups i os = g :: h :: gs.
Proof.
  induction 1 as [|o os E _ IH]; intros N i; [elim N; constructor|]. cbn. destruct E as [E|E].
  - rewrite E. cbn [text_eqb]. destruct (IH (fun F => N (Forall_cons _ E F)) (S i)) as (g & h & gs & ->). cbn. eauto.
  - rewrite E. change (text_eqb (L "OR") (L "OR")) with true. cbn. destruct (groups_shape os (S i)) as (g & gs & ->). eauto.
Qed.
Lemma conjunction_iff os : Forall (fun o => upper o = L "AND" \/ upper o = L "OR") os ->
  ((forall v, chain_truth v (L "AND" :: os) = v 0 && chain_truth (fun n => v (S n)) os) <-> Forall (fun o => upper o = L "AND") os).
Proof.
  intros F. split.
  - intros H. destruct (Forall_dec (fun o => upper o = L "AND") (fun o => text_dec (upper o) (L "AND")) os) as [A|N]; [exact A|exfalso].
    destruct (or_inside os F N 0) as (g & h & gs & E).
    specialize (H (fun n => match n with O => false | S _ => true end)).
    destruct (chain_cons (fun n => match n with O => false | S _ => true end) (L "AND") os (or_introl eq_refl)) as (g' & gs' & E' & C).
    rewrite E in E'. injection E' as <- <-. rewrite C in H. cbn in H.
    assert (T : forall l : list nat, forallb (fun _ => true) l = true) by (induction l; auto). rewrite T in H. cbn in H. discriminate.
  - intros A v. destruct (chain_cons v (L "AND") os (or_introl eq_refl)) as (g & gs & E & C). rewrite C. cbn [text_eqb].
    destruct (and_only os A 0) as (g' & E'). rewrite E' in E. injection E as <- <-.
    unfold chain_truth. rewrite E'. cbn. now rewrite !orb_false_r.
Qed.

Section Run.
Variable m : text -> option text.
Lemma andor_run i v r n : grun m n (PLex (kws_soft ["AND"; "OR"]%string)) i = Ok v r -> upper v = L "AND" \/ upper v = L "OR".
Proof.
  unfold grun. rewrite run_Lex. unfold lex, kws_soft. cbn [srun].
  destruct (srun (strs_nc _) [] (skip i)) as [v' r'| | |] eqn:E; try discriminate.
  apply strs_nc_ok in E as (w & s & Hi & -> & _ & U). unfold ahead_space. cbn [srun].
  destruct r' as [|c r']; [discriminate|]. destruct (is_space c); [|discriminate]. intros H. injection H as <- _.
  cbn [app] in *. rewrite U. destruct Hi as [<-|[<-|[]]]; auto.
Qed.
Lemma sc_connective T f o s : from m T (N_sc (SC_t f o s)) -> upper o = L "AND" \/ upper o = L "OR".
Proof.
  intros (n & i & r & _ & H). unfold g_search_condition in H.
  apply inv_alt in H as [H|(i1 & _ & _ & H)]; [unfold g_boolean_term in H|]; apply inv_map in H as (x & E & H); [|discriminate].
  destruct x as [[f' o'] s']. injection E as -> -> ->.
  apply inv_seq in H as (? & ? & i1 & E & _ & H & _); injection E as <- <-.
  apply inv_seq in H as (? & ? & i2 & E & _ & _ & H); injection E as <- <-. eapply andor_run; exact H.
Qed.
End Run.
Lemma accepted_connectives tm t q s : parse_it tm t = Q_ok q -> incl (nodes_sc s) (nodes_qspec q) ->
  Forall (fun o => upper o = L "AND" \/ upper o = L "OR") (connectives s).
Proof.
  intros H. induction s as [f|f o s IH]; intros I; cbn [connectives]; constructor.
  - apply (sc_connective (lookup tm) t f o s). eapply accepted_node; [exact H|]. apply I. now left.
  - apply IH. intros x Hx. apply I. right. apply in_or_app. now right.
Qed.
Lemma in_nodes_sfw q c : In c (components q) -> incl (nodes_sfw c) (nodes_qspec q).
Proof.
  destruct q as [w i ad g h o]; cbn [components nodes_qspec]. intros [<-|H] x Hx.
  - right. apply in_or_app; right. apply in_or_app; left. exact Hx.
  - apply in_map_iff in H as ([op s'] & <- & H). right. apply in_or_app; right. apply in_or_app; right. apply in_or_app; left.
    apply in_flat_map. exists (Addon op s'). split; auto. right. exact Hx.
Qed.
Lemma where_nodes q c g s : In c (components q) -> where_of c = Where g (Some s) -> incl (nodes_sc s) (nodes_qspec q).
Proof.
  intros I W x Hx. apply (in_nodes_sfw q c I). destruct c as [se ts w]. cbn in W. subst w. cbn [nodes_sfw]. right. apply in_or_app. right. apply in_or_app. right.
  cbn [nodes_where]. right. apply in_or_app. right. exact Hx.
Qed.
Lemma accepted_where tm input q c g s : query tm input = Q_ok q -> In c (components q) -> where_of c = Where (Some g) (Some s) ->
  Forall (fun o => upper o = L "AND" \/ upper o = L "OR") (connectives s) /\
  ((forall v, chain_truth v (L "AND" :: connectives s) = v 0 && chain_truth (fun n => v (S n)) (connectives s)) <->
   Forall (fun o => upper o = L "AND") (connectives s)).
Proof.
  intros H I W. apply query_accepted in H as (t & _ & H). pose proof (accepted_connectives tm t q s H (where_nodes q c _ s I W)) as F.
  split; [exact F|]. now apply conjunction_iff.
Qed.
