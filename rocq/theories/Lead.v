(** What a part starts with is the same in the text that is read and in what is printed, as far as
    the keywords NOT, EXISTS, SELECT and WITH are concerned (for C13). *)
From Verif Require Import Query PegProps Gen Spec TextLemmas SpecLexical SpecContent SpecNodes Nodes NodeProps
  PegSpec PegEquiv Totality LexProofs LexProofs2 SpecSpelling SpellCalc SpellProofs SpellMain SpellUse PrintEq SelectProofs First Look Calc Invert SpecCanon SpecFine FineRun Greedy.

Definition stopL (t : text) : Prop := match t with [] => True | c :: _ => is_letter c = false end.
Lemma eq_letter a c : is_letter a = true -> is_letter c = false -> eq_nc a c = false.
Proof.
  unfold eq_nc. intros A C. destruct (Ascii.eqb_spec (upc a) (upc c)) as [E|]; [|reflexivity]. exfalso.
  assert (is_letter (upc a) = true) as X by (revert A; clear; destruct a as [[] [] [] [] [] [] [] []]; vm_compute; congruence). rewrite E in X.
  revert X C. clear. destruct c as [[] [] [] [] [] [] [] []]; vm_compute; congruence.
Qed.
Lemma strip_same s v t1 t2 : forallb is_letter s = true -> stopL t1 -> stopL t2 -> (strip true s (v ++ t1) = None <-> strip true s (v ++ t2) = None).
Proof.
  revert v. induction s as [|a s IH]; intros v A H1 H2; [now split|]. cbn [forallb] in A. apply andb_true_iff in A as [A1 A2]. destruct v as [|c v].
  - cbn [app]. assert (G : forall t, stopL t -> strip true (a :: s) t = None).
    { intros [|c t] H; [reflexivity|]. cbn. now rewrite (eq_letter _ _ A1 H). }
    now rewrite !G.
  - cbn. destruct (eq_nc a c); [|now split]. specialize (IH v A2 H1 H2). destruct (strip true s (v ++ t1)) as [[]|], (strip true s (v ++ t2)) as [[]|]; intuition congruence.
Qed.
Lemma begins_same w v t1 t2 : forallb is_letter (L w) = true -> stopL t1 -> stopL t2 -> begins_with_nc w (v ++ t1) = begins_with_nc w (v ++ t2).
Proof.
  intros A H1 H2. unfold begins_with_nc. destruct (strip_same (L w) v t1 t2 A H1 H2) as [I J]. destruct (strip true (L w) (v ++ t1)), (strip true (L w) (v ++ t2)); auto; [discriminate (J eq_refl)|discriminate (I eq_refl)].
Qed.
Lemma strip_up s t : strip true s t = None <-> strip true s (upper t) = None.
Proof.
  revert t. induction s as [|a s IH]; intros [|c t]; try (now split). unfold upper. cbn. fold (upper t). unfold eq_nc. rewrite upc_upc. destruct (Ascii.eqb (upc a) (upc c)); [|now split].
  specialize (IH t). destruct (strip true s t) as [[]|], (strip true s (upper t)) as [[]|]; intuition congruence.
Qed.
Lemma begins_up w t : begins_with_nc w t = begins_with_nc w (upper t).
Proof. unfold begins_with_nc. destruct (strip_up (L w) t) as [I J]. destruct (strip true (L w) t), (strip true (L w) (upper t)); auto; [discriminate (J eq_refl)|discriminate (I eq_refl)]. Qed.
Fixpoint apart (s h : text) : bool := match s, h with a :: s', b :: h' => negb (eq_nc a b) || apart s' h' | _, _ => false end.
Lemma apart_no s h t : apart s h = true -> strip true s (h ++ t) = None.
Proof.
  revert h. induction s as [|a s IH]; intros [|b h] H; try discriminate H. cbn in *. destruct (eq_nc a b); [|reflexivity]. cbn in H. now rewrite IH.
Qed.
Definition clear4 (h : string) : bool := match L h with c :: _ => negb (is_space c) | [] => false end && forallb (fun w => apart (L w) (L h)) words4.
Lemma words_letters w : In w words4 -> forallb is_letter (L w) = true.
Proof. intros I. repeat destruct I as [<-|I]; reflexivity || contradiction. Qed.

(** [t] starts with the same keywords as the rest [i] of the input *)
Definition as_in (i t : text) : Prop := forall w, In w words4 -> begins_with_nc w (skip i) = begins_with_nc w t.
Definition Lead (k u p : text) : Prop := forall t, stopL t -> as_in (u ++ k) (p ++ t).
Lemma kw_lead h x k w : clear4 h = true -> upper x = upper (L h) -> In w words4 -> begins_with_nc w (x ++ k) = false /\ begins_with_nc w (skip (x ++ k)) = false.
Proof.
  unfold clear4. intros C U I. assert (X : exists c r, x = c :: r /\ is_space c = false).
  { destruct (L h) as [|b h'] eqn:E; [discriminate C|]. destruct x as [|c r]; [discriminate U|]. exists c, r. split; [reflexivity|]. injection U as U _.
    apply andb_true_iff in C as [C _]. apply negb_true_iff in C. rewrite <- Look.upc_space, U. now rewrite Look.upc_space. }
  assert (G : begins_with_nc w (x ++ k) = false).
  { rewrite begins_up. rewrite upper_app, U, <- upper_app, <- begins_up. unfold begins_with_nc. rewrite apart_no; [reflexivity|]. apply andb_true_iff in C as [_ C]. now apply (proj1 (forallb_forall _ _) C). }
  split; [exact G|]. destruct X as (c & r & -> & S). cbn [app] in *. now rewrite skip_dark.
Qed.
Lemma other_lead c t w : is_space c = false -> is_letter c = false -> In w words4 -> begins_with_nc w (c :: t) = false /\ begins_with_nc w (skip (c :: t)) = false.
Proof.
  intros S Lc I. rewrite skip_dark by exact S. assert (begins_with_nc w (c :: t) = false); [|auto]. unfold begins_with_nc.
  assert (E : exists a s, L w = a :: s /\ is_letter a = true) by (repeat destruct I as [<-|I]; try contradiction; eexists _, _; split; reflexivity).
  destruct E as (a & s & -> & A). cbn. now rewrite (eq_letter _ _ A Lc).
Qed.

Lemma stops_L k : stops word_char k -> stopL k.
Proof. destruct k as [|c k]; [easy|]. cbn. intros H. destruct (is_letter c) eqn:E; [|reflexivity]. exfalso. apply H. left. now apply is_letter_iff. Qed.
Lemma letter_dark c : letter c -> is_space c = false.
Proof. intros H. apply is_letter_iff in H. revert H. destruct c as [[] [] [] [] [] [] [] []]; vm_compute; congruence. Qed.
Lemma digit_other c : digit c -> is_space c = false /\ is_letter c = false.
Proof. intros H. apply is_digit_iff in H. revert H. destruct c as [[] [] [] [] [] [] [] []]; vm_compute; split; congruence. Qed.
Lemma word_lead v k t : word v -> stopL k -> stopL t -> as_in (v ++ k) (v ++ t).
Proof.
  intros (c & r & -> & C & _) K T w I. cbn [app]. rewrite skip_dark by now apply letter_dark. apply (begins_same w (c :: r)); auto. now apply words_letters.
Qed.
Lemma both w i t : begins_with_nc w (skip i) = false -> begins_with_nc w t = false -> begins_with_nc w (skip i) = begins_with_nc w t.
Proof. congruence. Qed.
Lemma name_lead k v t : identifier_before k v -> stopL t -> as_in (v ++ k) (v ++ t).
Proof.
  intros [(W & K & _)|((b & -> & _) & _)] T; [apply word_lead; auto; now apply stops_L|]. intros w I. cbn [app]. apply both; now apply other_lead.
Qed.
Lemma listed_lead ws v k t w : In (upper v) (map L ws) -> forallb clear4 ws = true -> In w words4 -> begins_with_nc w (skip (v ++ k)) = begins_with_nc w (v ++ t).
Proof.
  intros J C I. apply in_map_iff in J as (h & E & J). apply (proj1 (forallb_forall _ _) C) in J.
  apply both; eapply kw_lead; eauto; rewrite <- E; symmetry; rewrite E; apply upper_upper.
Qed.
Lemma key_lead h h' x k t w : upper x = L h -> clear4 h = true -> clear4 h' = true -> In w words4 -> begins_with_nc w (skip (x ++ k)) = begins_with_nc w (L h' ++ t).
Proof.
  intros E C C' I. apply both; [apply (kw_lead h); auto|apply (kw_lead h'); auto]. rewrite <- E. symmetry. apply upper_upper.
Qed.
Lemma first_other x c r k t w : x = c :: r -> is_space c = false -> is_letter c = false -> In w words4 -> begins_with_nc w (skip (x ++ k)) = begins_with_nc w (x ++ t).
Proof. intros -> S Lc I. cbn [app]. apply both; now apply other_lead. Qed.
Definition plain_first (v : text) : Prop := exists c r, v = c :: r /\ is_space c = false /\ is_letter c = false.
Lemma digits_first v : digits v -> plain_first v.
Proof. intros [N D]. destruct D as [|c r C D]; [contradiction|]. exists c, r. split; [reflexivity|]. now apply digit_other. Qed.
Lemma plain_app a b : plain_first a -> plain_first (a ++ b).
Proof. intros (c & r & -> & H). exists c, (r ++ b). split; [reflexivity|exact H]. Qed.
Lemma mantissa_first v : mantissa v -> plain_first v.
Proof. intros [D|[(a & b & -> & D & _)|(b & -> & _)]]; [now apply digits_first|now apply plain_app, digits_first|]. eexists _, _. repeat split. Qed.
Lemma number_first v : number v -> plain_first v.
Proof. intros [M|(a & b & -> & M & _)]; [now apply mantissa_first|now apply plain_app, mantissa_first]. Qed.
Lemma literal_first v : literal_parts v -> plain_first v.
Proof. induction 1 as [s (b & -> & _)|]; [eexists _, _; repeat split|now apply plain_app]. Qed.
Lemma plain_lead v k t w : plain_first v -> In w words4 -> begins_with_nc w (skip (v ++ k)) = begins_with_nc w (v ++ t).
Proof. intros (c & r & E & S & Lc) I. eapply first_other; eauto. Qed.

Section Lead.
Variable m : text -> option text.
Variable fmt : text -> text.
Definition starts_clear (v : text) : bool := forallb (fun w => negb (begins_with_nc w v)) words4.
(** the names of uploaded tables are not empty and do not start with one of the keywords *)
Hypothesis mapped : forall n v, n <> [] -> m n = Some v -> v <> [] /\ starts_clear v = true.

Ltac wstep :=
  match goal with
  | W : writes m _ ?u (_ :: _) |- _ =>
      first [apply writes_t_inv in W as (?w & ?x & ?t & -> & ? & ? & W) | apply writes_p_inv in W as (?w & ?x & ?t & -> & ? & ? & W)]
  end.
Ltac spelt1 S := let P := fresh "P" in let W := fresh "W" in inversion S as [? ? ? ? P W]; subst; inversion P; subst; clear P S; cbn [app] in W; wstep; cbn beta in *;
  repeat match goal with H : _ /\ _ |- _ => destruct H end; subst.
Lemma ident_some k v : identifier_before k v -> v <> [].
Proof. intros [((c & w & -> & _) & _)|((b & -> & _) & _)]; discriminate. Qed.
Lemma upload_lead v k x t : upload m v k x -> stopL t -> as_in (x ++ k) (v ++ t).
Proof.
  intros (n & -> & N & M) T w I. destruct (mapped _ _ (ident_some _ _ N) M) as [_ C]. apply both.
  - rewrite <- app_assoc. apply (kw_lead "TAP_UPLOAD."); auto.
  - rewrite (begins_same w v t [] (words_letters _ I) T Logic.I), app_nil_r. apply (proj1 (forallb_forall _ _) C) in I. now apply negb_true_iff.
Qed.
Lemma dotted_lead n k v t : dotted n k v -> stopL t -> as_in (v ++ k) (v ++ t).
Proof.
  intros D T. inversion D as [k1 v1 I|n1 k1 v1 w I D1]; subst; [now apply name_lead|]. rewrite <- !app_assoc. cbn [app].
  intros z Z. rewrite (name_lead _ _ [] I Logic.I z Z). apply begins_same; [now apply words_letters|exact Logic.I|reflexivity].
Qed.
Lemma table_lead v k x t : SpecSpelling.table_name m v k x -> stopL t -> as_in (x ++ k) (v ++ t).
Proof. intros [U|(-> & n & _ & D)] T; [now apply upload_lead|eapply dotted_lead; eauto]. Qed.
Lemma as_app i v b t : (forall t, stopL t -> as_in i (v ++ t)) -> stopL (b ++ t) -> as_in i ((v ++ b) ++ t).
Proof. intros H T. rewrite <- app_assoc. now apply H. Qed.
Lemma white_lead w u k t : white w -> as_in (u ++ k) t -> as_in ((w ++ u) ++ k) t.
Proof. intros W H z Z. rewrite <- app_assoc, skip_over by exact W. now apply H. Qed.
Lemma colref_lead k u c : spells m k u (X_colref c) -> Lead k u (pr_colref c).
Proof.
  intros S t T. spelt1 S; cbn [pr_colref]; apply white_lead; auto; rewrite <- !app_assoc;
    match goal with
    | H : upload _ _ _ _ |- _ => eapply upload_lead; [exact H|first [exact T|reflexivity]]
    | H : identifier_before _ ?x |- as_in (?x ++ _) _ => eapply name_lead; [exact H|first [exact T|reflexivity]]
    end.
Qed.
Lemma value_lead v k x t w : begins (L ".") k /\ digits x /\ v = x ++ L "." \/ x = v /\ (number v \/ literal_parts v \/ In (upper v) (map L ["TRUE"; "FALSE"]%string)) ->
  In w words4 -> begins_with_nc w (skip (x ++ k)) = begins_with_nc w (v ++ t).
Proof.
  intros [(_ & D & ->)|(-> & [N|[N|N]])] I.
  - rewrite <- app_assoc. apply plain_lead; [now apply digits_first|exact I].
  - apply plain_lead; [now apply number_first|exact I].
  - apply plain_lead; [now apply literal_first|exact I].
  - eapply listed_lead; eauto.
Qed.
Lemma vepv_lead k u v : spells m k u (X (N_vepv v)) -> Lead k u (pr_vepv fmt v).
Proof.
  intros S t T. spelt1 S; autorewrite with pr_eq; apply white_lead; auto; rewrite <- ?app_assoc; intros z Z;
    match goal with
    | H : upper ?x = L ?h |- begins_with_nc _ (skip (?x ++ _)) = begins_with_nc _ (L ?h' ++ _) => apply (key_lead h h'); [exact H|reflexivity|reflexivity|exact Z]
    | H : In (upper ?x) (map L ?l) |- _ => apply (listed_lead l); [exact H|reflexivity|exact Z]
    | H : spells m _ _ (X_colref _) |- _ => rewrite <- ?app_assoc; eapply colref_lead; eauto
    | |- begins_with_nc _ (skip (L "(" ++ _)) = _ => apply (plain_lead (L "(")); [eexists _, _; repeat split|exact Z]
    | _ => idtac
    end.
  all: try (eapply value_lead; eauto; fail).
Qed.
Lemma nvf_lead k u f : spells m k u (X (N_nvf f)) -> Lead k u (pr_nvf fmt f).
Proof.
  intros S t T. spelt1 S; autorewrite with pr_eq; apply white_lead; auto; rewrite <- ?app_assoc; intros z Z;
    match goal with
    | H : upper ?x = L ?h |- begins_with_nc _ (skip (?x ++ _)) = begins_with_nc _ (L ?h' ++ _) => apply (key_lead h h'); [exact H|reflexivity|reflexivity|exact Z]
    | H : In (upper ?x) (map L ?l) |- _ => try (destruct x; [cbn in H; exfalso; intuition discriminate|]; cbn [is_nil]); rewrite <- ?app_assoc; apply (listed_lead l); [exact H|reflexivity|exact Z]
    | _ => idtac
    end.
  destruct H2 as [K|K]; [|apply (listed_lead ["RIGHT"; "LEFT"; "UPPER"; "LOWER"; "DISTINCT"; "TRIM"]%string); [exact K|reflexivity|exact Z]].
  apply word_lead; auto; [now apply stops_L|reflexivity].
Qed.
Lemma vep_lead k u v : spells m k u (X (N_vep v)) -> Lead k u (pr_vep fmt v).
Proof.
  intros S t T. spelt1 S. autorewrite with pr_eq. apply white_lead; auto. rewrite <- !app_assoc. eapply vepv_lead; eauto.
  destruct l as [|a l]; [exact T|reflexivity].
Qed.
Lemma nprim_lead k u p : spells m k u (X (N_nprim p)) -> Lead k u (pr_nprim fmt p).
Proof. intros S t T. spelt1 S; autorewrite with pr_eq; apply white_lead; auto; rewrite <- !app_assoc; [eapply nvf_lead|eapply vep_lead]; eauto. Qed.
Lemma factor_lead k u f : spells m k u (X (N_factor f)) -> Lead k u (pr_factor fmt f).
Proof.
  intros S t T. spelt1 S; autorewrite with pr_eq; apply white_lead; auto; rewrite <- !app_assoc; [eapply nprim_lead; eauto|].
  intros z Z. apply plain_lead; [|exact Z]. match goal with H : In s _ |- _ => cbn in H; destruct H as [<-|[<-|[]]] end; eexists _, _; repeat split.
Qed.
Lemma venb_lead k u v : spells m k u (X (N_venb v)) -> Lead k u (pr_venb fmt v).
Proof.
  intros S t T. spelt1 S. autorewrite with pr_eq. apply white_lead; auto. rewrite <- !app_assoc. eapply factor_lead; eauto.
  destruct ts as [|[o f'] ts]; [exact T|]. cbn [each map] in W. apply writes_p_inv in W as (w1 & x1 & t1 & -> & _ & S1 & _). spelt1 S1. cbn [map concat]. autorewrite with pr_eq.
  match goal with H : In o _ |- _ => cbn in H; repeat (destruct H as [<-|H]; [reflexivity|]); contradiction end.
Qed.
Lemma word_self h x k t : In h words4 -> upper x = L h -> as_in (x ++ k) (L h ++ t).
Proof.
  intros H U w I. assert (X : exists c r, x = c :: r /\ is_space c = false).
  { destruct x as [|c r]; [exfalso; repeat destruct H as [<-|H]; try discriminate U; contradiction|]. exists c, r. split; [reflexivity|].
    rewrite <- Look.upc_space. repeat destruct H as [<-|H]; try contradiction; injection U as -> _; reflexivity. }
  destruct X as (c & r & E & S). rewrite E at 1. cbn [app]. rewrite skip_dark by exact S. change (c :: r ++ k) with ((c :: r) ++ k). rewrite <- E.
  rewrite begins_up, upper_app, U. cbn in H, I. repeat destruct H as [<-|H]; try contradiction; repeat destruct I as [<-|I]; try contradiction; reflexivity.
Qed.
Lemma word_self' h x y k t : In h words4 -> upper x = L h -> upper y = L h -> as_in (x ++ k) (y ++ t).
Proof. intros H X Y w I. rewrite (word_self h x k (upper t) H X w I). symmetry. rewrite begins_up, upper_app, Y. reflexivity. Qed.
Lemma pred_lead k u p : spells m k u (X (N_pred p)) -> Lead k u (pr_pred fmt p).
Proof.
  intros S t T. spelt1 S; autorewrite with pr_eq; apply white_lead; auto; rewrite <- !app_assoc;
    try match goal with H : spells m _ _ (X (N_venb _)) |- _ => eapply venb_lead; [exact H|]; try destruct (is_nil n); reflexivity end.
  apply (word_self "EXISTS"); [cbn; tauto|assumption].
Qed.
Lemma bprim_lead k u p : spells m k u (X (N_bprim p)) -> Lead k u (pr_bprim fmt p).
Proof.
  intros S t T. spelt1 S; autorewrite with pr_eq; apply white_lead; auto; rewrite <- !app_assoc; [eapply pred_lead; eauto| |eapply venb_lead; eauto].
  intros z Z. apply (plain_lead (L "(")); [eexists _, _; repeat split|exact Z].
Qed.
Lemma bfac_lead k u f : spells m k u (X (N_bfac f)) -> Lead k u (pr_bfac fmt f).
Proof.
  intros S t T. spelt1 S; autorewrite with pr_eq. apply white_lead; auto; rewrite <- !app_assoc.
  match goal with H : _ \/ _ |- _ => destruct H as [(-> & ->)|[(N & -> & _)|(N & -> & r & E & _)]] end.
  - unfold nl_sp. cbn [is_nil app]. apply writes_p_inv in W as (w1 & x1 & t1 & -> & W1 & S1 & _). apply white_lead; auto. rewrite <- app_assoc. eapply bprim_lead; eauto.
  - assert (nl_sp n = n ++ L " ") as -> by (destruct n; [discriminate N|reflexivity]). rewrite <- !app_assoc. apply (word_self' "NOT"); auto. now left.
  - assert (nl_sp n = n ++ L " ") as -> by (destruct n; [discriminate N|reflexivity]). rewrite <- !app_assoc. cbn [app]. rewrite E. apply (word_self' "NOT"); auto. now left.
Qed.
Lemma tc_lead n a k x t : SpecSpelling.table_name m n k x -> stopL t -> as_in (x ++ k) (pr_tc n a ++ t).
Proof. intros H T. unfold pr_tc. rewrite <- app_assoc. eapply table_lead; [exact H|]. destruct a; [exact T|reflexivity]. Qed.
Lemma qjhead_lead k u h : spells m k u (X (N_qjhead h)) -> Lead k u (pr_qjhead fmt h).
Proof.
  intros S t T. spelt1 S; autorewrite with pr_eq; apply white_lead; auto; rewrite <- !app_assoc; [now apply tc_lead|].
  match goal with H : spells m _ _ (X (N_jt (JT_p _))) |- _ => spelt1 H end.
  apply white_lead; auto. intros z Z. apply (plain_lead (L "(")); [eexists _, _; repeat split|exact Z].
Qed.
Lemma jt_lead k u j : spells m k u (X (N_jt j)) -> Lead k u (pr_jt fmt j).
Proof.
  intros S t T. spelt1 S; autorewrite with pr_eq; apply white_lead; auto; rewrite <- !app_assoc.
  - match goal with H : spells m _ _ (X_qjoin _) |- _ => spelt1 H end. autorewrite with pr_eq. apply white_lead; auto. rewrite <- !app_assoc.
    eapply qjhead_lead; [eassumption|reflexivity].
  - intros z Z. apply (plain_lead (L "(")); [eexists _, _; repeat split|exact Z].
Qed.

(** ** Parts that are read *)
Notation reads := (Calc.reads m).
Notation fails := (Calc.fails m).
Lemma reads_spells {A : Set} (e : PE A) f i v j : nt m e f -> chk e -> reads e i v j -> exists u r, i = u ++ r /\ spells m r u (f v).
Proof.
  intros N C (r & E & _). pose proof (grun_total m (3 * length i + 3) A e i C ltac:(lia)) as T. apply (ev_iff_run _ _ _ _ _ _ T) in E. destruct (nt_run _ _ _ _ _ _ _ N E) as (u & -> & S). eauto.
Qed.
Lemma reads_lead {A : Set} (e : PE A) (f : A -> part) pr i v j : nt m e f -> chk e -> (forall k u v, spells m k u (f v) -> Lead k u (pr v)) -> reads e i v j -> as_in i (pr v).
Proof. intros N C H R. destruct (reads_spells _ _ _ _ _ N C R) as (u & r & -> & S). rewrite <- (app_nil_r (pr v)). now apply H. Qed.
Lemma r_bprim i p j : reads g_boolean_primary i p j -> as_in i (pr_bprim fmt p).
Proof. apply (reads_lead _ (fun v => X (N_bprim v))); [apply n_bprim|reflexivity|exact bprim_lead]. Qed.
Lemma r_bfac i p j : reads g_boolean_factor i p j -> as_in i (pr_bfac fmt p).
Proof. apply (reads_lead _ (fun v => X (N_bfac v))); [apply n_bfac|reflexivity|exact bfac_lead]. Qed.
Lemma r_venb i p j : reads Grammar.p_venb i p j -> as_in i (pr_venb fmt p).
Proof. intros H. apply Invert.i_venb in H. revert H. apply (reads_lead _ (fun v => X (N_venb v))); [apply n_venb|reflexivity|exact venb_lead]. Qed.
Lemma r_jt i p j : reads p_jt i p j -> as_in i (pr_jt fmt p).
Proof. intros H. apply Invert.i_jt in H. revert H. apply (reads_lead _ (fun v => X (N_jt v))); [apply n_jt|reflexivity|exact jt_lead]. Qed.

Ltac next H := let F := fresh "F" in apply i_alt in H as [H|[F H]]; [| |reflexivity].
Ltac clash A B := exfalso; eapply Invert.reads_fails; [|exact A|exact B]; reflexivity.
Lemma not_words w : In "NOT"%string words4 /\ In "EXISTS"%string words4 /\ In "SELECT"%string words4 /\ In "WITH"%string words4 /\ (In w ["SELECT"; "WITH"]%string -> In w words4).
Proof. cbn. tauto. Qed.
(** (A) a condition without NOT does not start with it *)
Lemma lead_plain i p j : reads g_boolean_factor i (BF [] p) j -> begins_with_nc "NOT" (pr_bprim fmt p) = false.
Proof.
  intros H. apply bfac_inv in H as [(r & E & _)|(E & H)].
  - rewrite not_run in E. destruct (strip true (L "NOT") (skip i)) as [[x [|c r']]|] eqn:S; try discriminate E. destruct (is_space c); [|discriminate E]. injection E as -> _.
    apply strip_nc_iff in S as [_ S]. discriminate S.
  - apply r_bprim in H. rewrite <- (H "NOT"%string) by now left. unfold begins_with_nc. rewrite not_run in E. destruct (strip true (L "NOT") (skip i)) as [[x r]|] eqn:S; [|reflexivity].
    apply strip_nc_iff in S as [_ S]. assert (x = []) as -> by (destruct r as [|c r]; [|destruct (is_space c)]; congruence). discriminate S.
Qed.
(** (B) a NOT is read as such unless the condition starts with another one *)
Lemma lead_not i n p j : n <> [] -> begins_with_nc "NOT" (pr_bprim fmt p) = false -> reads g_boolean_factor i (BF n p) j -> exists r, srun (kws_soft ["NOT"%string]) [] (skip i) = SOk n r.
Proof.
  intros N B H. apply bfac_inv in H as [(r & E & _)|(E & H)]; [eauto|]. exfalso. apply r_bprim in H. rewrite <- (H "NOT"%string) in B by now left. unfold begins_with_nc in B.
  rewrite not_run in E. destruct (strip true (L "NOT") (skip i)) as [[x r]|]; [discriminate B|]. congruence.
Qed.
(** (C) values do not start with EXISTS *)
Lemma hard_cases w j : begins_with_nc w j = true -> (exists x c r, j = x ++ c :: r /\ upper x = upper (L w) /\ is_space c = true) \/ exists t, srun (kw_hard w) [] j = SThrow t.
Proof.
  unfold begins_with_nc. intros B. destruct (strip true (L w) j) as [[x r]|] eqn:S; [|discriminate B].
  assert (E : srun (kw_hard w) [] j = match r with c :: _ => if is_space c then SOk [] r else SThrow (ExExpect r) | [] => SThrow (ExExpect r) end).
  { unfold kw_hard, ahead_space. cbn [srun]. rewrite S. destruct r as [|c r]; [reflexivity|]. cbn [srun]. now destruct (is_space c). }
  destruct r as [|c r]; [right; eauto|]. destruct (is_space c) eqn:C; [left|right; eauto]. apply strip_nc_iff in S as [-> S]. eauto 6.
Qed.
Lemma lead_val i v j : reads g_boolean_primary i (BP_val v) j -> begins_with_nc "EXISTS" (pr_venb fmt v) = false.
Proof.
  intros H. pose proof (bprim_no_pred _ _ _ _ H) as F. apply bprim_first in H. rewrite <- (r_venb _ _ _ H "EXISTS"%string) by (cbn; tauto).
  destruct (begins_with_nc "EXISTS" (skip i)) eqn:B; [|reflexivity]. exfalso. apply hard_cases in B as [(x & c & r & E & U & S)|(t & E)].
  - eapply (venb_no_word m "EXISTS"); [exact H| |exact U|exact S|exact E]. cbn; tauto.
  - do 5 (apply f_alt in F as [_ F]; [|reflexivity]). apply f_map, f_seq in F as [F|(x & k & F & _)]; [| |reflexivity].
    + apply f_lex in F as (a & F); [congruence|reflexivity].
    + apply i_lex in F as (r & F & _); [congruence|reflexivity].
Qed.
(** (D), (E) lists of values and joins do not start with SELECT or WITH *)
Lemma word_no {A : Set} (e : PE A) w x c r i : In w ["SELECT"; "WITH"]%string -> (forall c w, is_space c = true -> In w ["SELECT"; "WITH"]%string -> glook m false e (L w ++ [c]) = LFail) ->
  upper x = L w -> is_space c = true -> skip i = x ++ c :: r -> fails e i.
Proof.
  intros I G U C H. assert (S : starts_as false i (L w ++ [c])).
  { exists (x ++ [c]), r. rewrite <- app_assoc. cbn [app]. rewrite <- H, PegProps.skip_skip. split; [reflexivity|]. split; [|discriminate].
    rewrite upper_app, U. cbn [upper map]. f_equal. f_equal. revert C. clear. destruct c as [[] [] [] [] [] [] [] []]; vm_compute; congruence. }
  apply (look_fail m false) with (p := L w ++ [c]); auto.
Qed.
Lemma word_no_ve c w : is_space c = true -> In w ["SELECT"; "WITH"]%string -> glook m false p_ve (L w ++ [c]) = LFail.
Proof.
  intros C I. repeat destruct I as [<-|I]; try contradiction; revert C; destruct c as [[] [] [] [] [] [] [] []]; intros C; try discriminate C; vm_compute; reflexivity.
Qed.
Lemma word_no_jt c w : is_space c = true -> In w ["SELECT"; "WITH"]%string -> glook m false p_jt (L w ++ [c]) = LFail.
Proof.
  intros C I. repeat destruct I as [<-|I]; try contradiction; revert C; destruct c as [[] [] [] [] [] [] [] []]; intros C; try discriminate C; vm_compute; reflexivity.
Qed.
Lemma query_word w i : fails (g_query_no_geometry m) i -> In w ["SELECT"; "WITH"]%string -> begins_with_nc w (skip i) = true ->
  exists x c r, skip i = x ++ c :: r /\ upper x = L w /\ is_space c = true.
Proof.
  intros F I B. assert (U : upper (L w) = L w) by (repeat destruct I as [<-|I]; try contradiction; reflexivity).
  apply hard_cases in B as [(x & c & r & E & V & S)|(t & E)]; [rewrite U in V; eauto 6|]. exfalso.
  apply f_map, f_seq in F as [F|(x & k & _ & F)]; [|now apply f_opt in F|reflexivity]. apply f_seq in F as [F|(x & k & _ & F)]; [|now apply f_opt in F|reflexivity].
  apply f_seq in F as [F|(x & k & _ & F)]; [|now apply f_opt in F|reflexivity]. apply f_seq in F as [F|(x & k & H & F)]; [now apply f_opt in F| |reflexivity].
  assert (J : w = "WITH"%string \/ w = "SELECT"%string) by (destruct I as [<-|[<-|[]]]; auto). clear I U. destruct J as [-> | ->].
  - apply i_opt in H as [(y & _ & H)|(_ & H & _)].
    + apply i_map in H as (z & _ & H). do 3 (apply i_exp in H as (? & ? & ? & _ & H & _); [|reflexivity]). apply i_lex in H as (r & H & _); [congruence|reflexivity].
    + apply f_map, f_exp, f_exp, f_exp in H. apply f_lex in H as (a & H); [congruence|reflexivity].
  - assert (N : exists a, srun (kw_hard "WITH") [] (skip i) = SFail a).
    { unfold kw_hard in *. cbn [srun] in *. destruct (skip i) as [|c t']; [discriminate E|]. destruct (strip true (L "SELECT") (c :: t')) as [[y r]|] eqn:S; [|discriminate E].
      apply strip_nc_iff in S as [S U]. destruct y as [|c' y]; [discriminate U|]. injection S as <- _. injection U as U _. exists [].
      assert (strip true (L "WITH") (c :: t') = None) as ->; [|reflexivity]. cbn. unfold eq_nc. now rewrite U. }
    destruct N as (a & N). apply i_opt in H as [(y & _ & H)|(_ & _ & ->)].
    + apply i_map in H as (z & _ & H). do 3 (apply i_exp in H as (? & ? & ? & _ & H & _); [|reflexivity]). apply i_lex in H as (r & H & _); [congruence|reflexivity].
    + apply f_seq in F as [F|(y & k & _ & F)]; [|now apply f_star in F|reflexivity]. apply f_map, f_exp in F.
      apply f_map, f_exp in F. apply f_seq in F as [F|(y & k & _ & F)]; [|now apply f_opt in F|reflexivity].
      apply f_seq in F as [F|(y & k & _ & F)]; [|now apply f_olex in F|reflexivity].
      apply f_lex in F as (b & F); [|reflexivity]. rewrite PegProps.skip_skip in F. congruence.
Qed.
Lemma subq_fails i r : skip i = "("%char :: r -> fails (g_subquery m) i -> fails (g_query_no_geometry m) (skip r) \/ exists q k, reads (g_query_no_geometry m) (skip r) q k.
Proof.
  intros O F. apply f_map, f_seq in F as [F|(x & k & F & _)]; [| |reflexivity].
  - apply f_seq in F as [F|(y & k & H & F)]; [| |reflexivity]; [pose proof (lp_lit m _ _ O) as H; clash H F|].
    destruct y. apply lit_lp in H as (r' & H & ->). rewrite O in H. injection H as <-. apply f_alt in F as [F _]; [left; now apply f_map in F|reflexivity].
  - apply i_seq in F as (y & z & k1 & _ & H & F); [|reflexivity]. destruct y. apply lit_lp in H as (r' & H & ->). rewrite O in H. injection H as <-.
    next F; apply i_map in F as (q & _ & F); [right; eauto|]. left. now apply f_map in F0.
Qed.
Lemma query_starts i q k : reads (g_query_no_geometry m) i q k -> exists w x c r, In w ["SELECT"; "WITH"]%string /\ skip i = x ++ c :: r /\ upper x = L w /\ is_space c = true.
Proof.
  intros H. apply i_map in H as (x & _ & H). do 3 (apply i_seq in H as (? & ? & ? & _ & H & _); [|reflexivity]). apply i_seq in H as (w & y & k1 & _ & H & F); [|reflexivity].
  apply i_opt in H as [(z & _ & H)|(_ & _ & ->)].
  - apply i_map in H as (y' & _ & H). do 3 (apply i_exp in H as (? & ? & ? & _ & H & _); [|reflexivity]). apply i_lex in H as (r & H & _); [|reflexivity].
    apply hard_ok in H as (z' & c & r' & E & _ & U & S). exists "WITH"%string, z', c, r'. repeat split; auto. cbn. auto.
  - apply i_seq in F as (s & ad & k2 & _ & F & _); [|reflexivity]. apply i_map in F as (z & _ & F). apply i_exp in F as (s' & ? & ? & _ & F & _); [|reflexivity].
    apply i_map in F as (z' & _ & F). apply i_exp in F as (? & ? & ? & _ & F & _); [|reflexivity]. do 2 (apply i_seq in F as (? & ? & ? & _ & F & _); [|reflexivity]).
    apply i_lex in F as (r & F & _); [|reflexivity]. rewrite PegProps.skip_skip in F. apply hard_ok in F as (z0 & c & r' & E & _ & U & S). exists "SELECT"%string, z0, c, r'. repeat split; auto. cbn. auto.
Qed.
Lemma query_no_words w i : fails (g_query_no_geometry m) i \/ (exists q k, reads (g_query_no_geometry m) i q k) -> In w ["SELECT"; "WITH"]%string -> begins_with_nc w (skip i) = true ->
  exists w' x c r, In w' ["SELECT"; "WITH"]%string /\ skip i = x ++ c :: r /\ upper x = L w' /\ is_space c = true.
Proof.
  intros [F|(q & k & R)] I B; [|eapply query_starts; eauto]. destruct (query_word w i F I B) as (x & c & r & H). eauto 8.
Qed.
Lemma sc_some i s j : reads p_sc i s j -> sc_empty s = false.
Proof.
  intros H. apply Invert.i_sc in H as (r & E & _). pose proof (grun_total m (3 * length i + 3) _ g_search_condition i eq_refl ltac:(lia)) as T. apply (ev_iff_run _ _ _ _ _ _ T) in E.
  apply (sc_from m i); [intros n t N M; now apply (mapped n)|]. exists (3 * length i + 3), i, r. split; [apply suffix_refl|exact E].
Qed.
Lemma sc_starts i s j : reads p_sc i s j -> as_in i (pr_sc fmt s).
Proof.
  intros H. pose proof (sc_some _ _ _ H) as N. destruct s as [f|f o s]; autorewrite with pr_eq; rewrite N.
  - apply sc_one in H as [_ H]. eapply r_bfac; eauto.
  - apply sc_more in H as (k1 & k2 & H & _). destruct (reads_spells _ _ _ _ _ (n_bfac m) eq_refl H) as (u & r & -> & S). now apply bfac_lead.
Qed.
Lemma ve_starts i v j : reads Grammar.p_ve i v j -> as_in i (pr_ve fmt v).
Proof.
  destruct v as [v|s]; intros H; autorewrite with pr_eq.
  - apply ve_val in H. eapply r_venb; eauto.
  - apply ve_cond in H as [_ H]. eapply sc_starts; eauto.
Qed.
Lemma not_query_iff t : (forall w, In w ["SELECT"; "WITH"]%string -> begins_with_nc w t = false) -> not_query t = true.
Proof. intros H. unfold not_query. rewrite !H; cbn; auto. Qed.
Lemma lead_in i l j : reads (g_in_target) i (In_list l) j -> match l with x :: _ => not_query (pr_ve fmt x) = true | [] => False end.
Proof.
  intros H. next H; [apply i_map in H as (q & E & _); discriminate E|]. apply f_map, f_subq in F. apply i_parens in H as (l' & k1 & k2 & E & O & H & _); [|reflexivity]. injection E as <-.
  apply lit_lp in O as (r & O & ->). apply i_list in H as (x & l' & k & -> & H). apply not_query_iff. intros w I.
  rewrite <- (ve_starts _ _ _ H w) by now apply not_words. destruct (begins_with_nc w (skip (skip r))) eqn:B; [|reflexivity]. exfalso.
  apply query_no_words in B as (w' & y & c & r' & I' & E & U & S); auto; [|eapply subq_fails; eauto].
  pose proof (word_no _ _ _ _ _ _ I' word_no_ve U S E) as F'. clash H F'.
Qed.
Lemma lead_subq i j k : reads (g_subquery m) i (SQ_jt j) k -> not_query (pr_jt fmt j) = true.
Proof.
  intros H. apply i_parens in H as (q & k1 & k2 & <- & O & H & _); [|reflexivity]. next H; [apply i_map in H as (q & E & _); discriminate E|]. apply f_map in F.
  apply i_map in H as (j' & E & H). injection E as <-. apply not_query_iff. intros w I.
  rewrite <- (r_jt _ _ _ H w) by now apply not_words. destruct (begins_with_nc w (skip k1)) eqn:B; [|reflexivity]. exfalso.
  apply query_no_words in B as (w' & y & c & r' & I' & E & U & S); auto.
  pose proof (word_no _ _ _ _ _ _ I' word_no_jt U S E) as F'. clash H F'.
Qed.
End Lead.
