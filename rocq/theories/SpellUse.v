(** Consequences for single constructs: flags, coordinate systems, names of tables. *)
From Verif Require Import Query PegProps Gen Spec TextLemmas SpecLexical SpecContent SpecNodes Nodes NodeProps
  LexProofs ContentNames ContentLeaves ContentCalc SpecSpelling SpellCalc SpellLeaves SpellProofs SpellMain.

(** ** Flags *)
Lemma skip_over w k : white w -> skip (w ++ k) = skip k.
Proof. intros W. induction W as [|c w Hc W IH]; auto. cbn [app skip]. now rewrite Hc. Qed.
Lemma spaces_of_skip i : exists w, white w /\ i = w ++ skip i.
Proof. destruct (skip_spaces i) as (sp & S & E). exists sp. split; [now apply spaces_white|exact E]. Qed.
Lemma next_eq k : next "=" k -> exists r, skip k = L "=" ++ r.
Proof. intros (w & r & -> & W). exists r. now rewrite skip_over. Qed.

Section Use.
Variable m : text -> option text.
Lemma nt_run {A : Set} (e : PE A) f n i v r : nt m e f -> grun m n e i = Ok v r -> exists u, i = u ++ r /\ spells m r u (f v).
Proof.
  intros H E. eapply (gen_sound _ (SPr m) (spell_body m)) in E as (u & -> & G). exists u. split; auto.
Qed.
Lemma its_run {A : Set} (e : PE A) I n i v r : its m e I -> grun m n e i = Ok v r -> exists u l, i = u ++ r /\ I v l /\ writes m r u l.
Proof.
  intros H E. eapply (gen_sound _ (SPr m) (spell_body m)) in E as (u & -> & G). apply H in G as (l & Hl & W). eauto 6.
Qed.
Lemma i_flag_left : its m (g_geometry_left m)
  (fun v l => match v with G_left f p => l = [one_mark ["0"; "1"]%string f; mark "="; Pt (X (N_gpred p))] | _ => False end).
Proof.
  unfold g_geometry_left. eapply i_weak.
  - eapply i_map, i_seq; [comb|apply i_gpred].
  - intros v l H. opn. reflexivity.
Qed.
Lemma i_flag_right : its m (lit "=" >! PLex s_char_flag ==> snd) (fun f l => l = [mark "="; one_mark ["0"; "1"]%string f]).
Proof. eapply i_weak; [comb|]. intros v l H. opn. reflexivity. Qed.
Lemma flag_run n i v r : grun m n (g_geometry m) i = Ok v r -> exists u, i = u ++ r /\ flag_written m r u v.
Proof.
  unfold g_geometry. intros H. apply inv_alt in H as [H|(i1 & _ & F & H)].
  - destruct (its_run _ _ _ _ _ _ i_flag_left H) as (u & l & -> & Hl & W). exists u. split; auto.
    destruct v; [|contradiction]. subst l. exact W.
  - unfold g_geometry_right in H. apply inv_map in H as ((p & f) & -> & H). apply inv_seq in H as (p' & f' & i2 & E & _ & Hp & Hf). injection E as <- <-.
    eapply run_fail in F as (sp & -> & S). apply spaces_white in S.
    destruct (nt_run _ _ _ _ _ _ (n_gpred m) Hp) as (u & -> & Sp).
    apply inv_alt in Hf as [Hf|(i3 & _ & F & Hf)].
    + destruct (its_run _ _ _ _ _ _ i_flag_right Hf) as (u2 & l & -> & -> & W). exists (sp ++ u ++ u2). rewrite <- !app_assoc. split; auto.
      left. apply writes_lead; auto. apply (writes_app m r [_] [_; _]); auto. apply writes_one. exact Sp.
    + apply inv_ret in Hf as (-> & ->). pose proof F as F2. eapply run_fail in F2 as (sp2 & -> & S2).
      exists (sp ++ u ++ sp2). rewrite <- !app_assoc. split; auto. right. split; auto. split.
      * apply writes_lead; auto. apply (writes_app m i3 [_] []); [now apply writes_one|]. constructor. now apply spaces_white.
      * intros N. apply next_eq in N as (r & N). unfold grun in F. rewrite run_Map, run_Exp in F. unfold lit in F. rewrite run_Lit in F.
        rewrite skip_over in F by now apply spaces_white. rewrite N in F.
        assert (strip false (L "=") (L "=" ++ r) = Some (L "=", r)) as Sx by now apply strip_cs_iff. rewrite Sx in F.
        destruct (run _ _ _ _ _) in F; discriminate.
Qed.

(** ** Parts of parts *)
Definition loc (k u : text) (p : part) : Prop := exists a x b, u = a ++ x ++ b /\ spells m (b ++ k) x p.
Lemma loc_here k u p : spells m k u p -> loc k u p.
Proof. intros S. exists [], u, []. cbn [app]. now rewrite app_nil_r. Qed.
Lemma loc_in k u its p : writes m k u its -> In (Pt p) its -> loc k u p.
Proof.
  intros W. induction its as [|i its IH] in u, W |- *; [contradiction|]. intros I.
  inversion W as [|k' w x t P its' S Px W' E1 E2 E3|k' w x t q its' S Px W' E1 E2 E3]; subst.
  - destruct I as [I|I]; [discriminate|]. destruct (IH _ W' I) as (a & y & b & -> & Sp). exists (w ++ x ++ a), y, b.
    rewrite <- !app_assoc. auto.
  - destruct I as [I|I].
    + injection I as ->. exists w, x, t. auto.
    + destruct (IH _ W' I) as (a & y & b & -> & Sp). exists (w ++ x ++ a), y, b. rewrite <- !app_assoc. auto.
Qed.
Lemma loc_trans k u p q : loc k u p -> (forall k u, spells m k u p -> loc k u q) -> loc k u q.
Proof.
  intros (a & x & b & -> & S) H. destruct (H _ _ S) as (a' & y & b' & -> & S'). exists (a ++ a'), y, (b' ++ b).
  rewrite <- !app_assoc. auto.
Qed.
Lemma loc_by k u p its q : production m p its -> writes m k u its -> In (Pt q) its -> loc k u q.
Proof. intros _. apply loc_in. Qed.
Lemma csae_loc k u a c : spells m k u (X_csae a) -> In c (csae_cols a) -> loc k u (X_colref c).
Proof.
  intros S I. inversion S as [k' t p its P W]; subst. inversion P; subst; cbn [csae_cols] in I; try contradiction.
  destruct I as [->|[]]. eapply loc_in; [exact W|now left].
Qed.
Lemma via_csae k u its a c : writes m k u its -> In c (csae_cols a) -> In (Pt (X_csae a)) its -> loc k u (X_colref c).
Proof. intros W I J. eapply loc_trans; [eapply loc_in; eauto|]. intros. eapply csae_loc; eauto. Qed.
Lemma coord_loc k u a c : spells m k u (X_coord a) -> In c (coord_cols a) -> loc k u (X_colref c).
Proof.
  intros S I. inversion S as [k' t p its P W]; subst. inversion P; subst; cbn [coord_cols] in I.
  apply in_app_iff in I as [I|I]; (eapply via_csae; [exact W|exact I|cbn; tauto]).
Qed.
Lemma via_coord k u its a c : writes m k u its -> In c (coord_cols a) -> In (Pt (X_coord a)) its -> loc k u (X_colref c).
Proof. intros W I J. eapply loc_trans; [eapply loc_in; eauto|]. intros. eapply coord_loc; eauto. Qed.
Lemma in_commas p l : In p l -> In (Pt p) (commas l).
Proof.
  destruct l as [|b l]; [contradiction|]. intros [->|I]; [now left|]. right. apply in_flat_map. exists p. split; auto. right; now left.
Qed.
Lemma shape_loc k u s c : spells m k u (X_shape s) -> In c (shape_cols s) -> loc k u (X_colref c).
Proof.
  intros S I. inversion S as [k' t p its P W]; subst. inversion P; subst; cbn [shape_cols] in I;
    rewrite ?in_app_iff in I; repeat match goal with H : _ \/ _ |- _ => destruct H as [I|I] end;
    try (first [eapply via_coord; [exact W|exact I|] | eapply via_csae; [exact W|exact I|]]; cbn; tauto).
  apply in_flat_map in I as (a & Ia & I). eapply via_coord; [exact W|exact I|]. apply in_app_iff. right. apply in_app_iff. left. apply in_commas, in_map, Ia.
Qed.
Lemma node_col_loc k u n c : spells m k u (X n) -> In c (node_cols n) -> loc k u (X_colref c).
Proof.
  intros S I. inversion S as [k' t p its P W]; subst.
  inversion P; subst; cbn [node_cols] in I; try contradiction;
    try (destruct I as [<-|[]]; (eapply loc_in; [exact W|cbn; eauto 12]; fail)).
  - eapply loc_trans; [eapply loc_in; [exact W|now left]|]. intros k1 u1 S1. eapply shape_loc; eauto.
  - eapply loc_trans; [eapply loc_in; [exact W|now left]|]. intros k1 u1 S1. eapply shape_loc; [exact S1|exact I].
  - destruct k0 as [c0|x]; [|contradiction]. destruct I as [<-|[]].
    match goal with H : _ \/ _ |- _ => destruct H as [(y & Ey & ->)|(y & Ey & ->)]; [|discriminate]; injection Ey as -> end.
    eapply loc_in; [exact W|now left].
Qed.

(** ** Names *)
Lemma ident_ordinary k v : identifier_before k v -> upper v <> L "TAP_UPLOAD".
Proof.
  intros [(W & _ & H)|((b & -> & _) & _)] E; [|discriminate]. destruct H as [H|[H|H]].
  - apply H. unfold reserved. rewrite E. apply (in_map L). apply in_app_iff. right. repeat (try (now left); right).
  - unfold shadowed in H. rewrite E in H. repeat (destruct H as [H|H]; [discriminate|]). contradiction.
  - destruct H as (H & _). rewrite E in H. discriminate.
Qed.
Lemma dotted_ordinary n k v : dotted n k v -> ordinary v.
Proof. intros D. induction D; [eapply ordinary_one|eapply ordinary_more]; eauto using ident_ordinary. Qed.
Lemma name_ordinary k x v : x = v /\ identifier_before k v -> ordinary v.
Proof. intros [_ H]. eapply ordinary_one; eauto using ident_ordinary. Qed.
Lemma upload_in a x b k v : upload m v (b ++ k) x -> uploaded m (a ++ x ++ b ++ k) v.
Proof.
  intros (n & -> & I & E). exists n, a, (b ++ k). rewrite <- !app_assoc. auto.
Qed.
Lemma terminal_in k u its (P : terminal) : writes m k u its -> In (T P) its -> exists a x b, u = a ++ x ++ b /\ P (b ++ k) x.
Proof.
  intros W. induction its as [|i its IH] in u, W |- *; [contradiction|]. intros I.
  inversion W as [|k' w x t P' its' S Px W' E1 E2 E3|k' w x t q its' S Px W' E1 E2 E3]; subst.
  - destruct I as [I|I].
    + injection I as ->. exists w, x, t. auto.
    + destruct (IH _ W' I) as (a & y & b & -> & Sp). exists (w ++ x ++ a), y, b. rewrite <- !app_assoc. auto.
  - destruct I as [I|I]; [discriminate|]. destruct (IH _ W' I) as (a & y & b & -> & Sp). exists (w ++ x ++ a), y, b.
    rewrite <- !app_assoc. auto.
Qed.
Lemma table_terminal k u its v pre : writes m k u its -> In (T (table_name m v)) its -> uploaded m (pre ++ u ++ k) v \/ ordinary v.
Proof.
  intros W I. destruct (terminal_in _ _ _ _ W I) as (a & x & b & -> & [U|(-> & n & _ & D)]).
  - left. rewrite <- !app_assoc. rewrite (app_assoc pre). now apply upload_in.
  - right. eapply dotted_ordinary; eauto.
Qed.
Lemma colref_names k u c pre : spells m k u (X_colref c) ->
  Forall ordinary (parts_of c) /\ Forall (fun v => uploaded m (pre ++ u ++ k) v \/ ordinary v) (table_of c).
Proof.
  intros S. inversion S as [k' t p its P W]; subst.
  assert (N : forall v, In (name v) its -> ordinary v).
  { intros v I. destruct (terminal_in _ _ _ _ W I) as (a & x & b & -> & H). eapply name_ordinary; eauto. }
  inversion P; subst; cbn [parts_of table_of]; split; repeat apply Forall_cons; try apply Forall_nil;
    try (apply N; cbn; tauto); try (right; apply N; cbn; tauto).
  destruct (terminal_in _ _ _ _ W (or_introl eq_refl)) as (x & y & z & -> & H). left. rewrite <- !app_assoc. rewrite (app_assoc pre). now apply upload_in.
Qed.
Lemma node_names k u n pre : spells m k u (X n) ->
  Forall ordinary (node_parts n) /\ Forall (fun v => uploaded m (pre ++ u ++ k) v \/ ordinary v) (node_tables n) /\
  Forall (fun s => exists v, s = v ++ L ".*" /\ (uploaded m (pre ++ u ++ k) v \/ ordinary v)) (node_stars n).
Proof.
  intros S.
  assert (C : forall c, In c (node_cols n) -> Forall ordinary (parts_of c) /\ Forall (fun v => uploaded m (pre ++ u ++ k) v \/ ordinary v) (table_of c)).
  { intros c I. destruct (node_col_loc _ _ _ _ S I) as (a & x & b & -> & S').
    apply colref_names with (pre := pre ++ a) in S'. now rewrite <- !app_assoc in *. }
  split; [|split].
  - apply Forall_forall. intros v I. unfold node_parts in I. apply in_flat_map in I as (c & Ic & I). apply C in Ic as [Ic _].
    rewrite Forall_forall in Ic. auto.
  - assert (D : Forall (fun v => uploaded m (pre ++ u ++ k) v \/ ordinary v) (flat_map table_of (node_cols n))).
    { apply Forall_forall. intros v I. apply in_flat_map in I as (c & Ic & I). apply C in Ic as [_ Ic]. rewrite Forall_forall in Ic. auto. }
    destruct n; try exact D; match goal with x : tref |- _ => destruct x | x : qjhead |- _ => destruct x end; try exact D; apply Forall_cons; try apply Forall_nil;
      inversion S as [k' t' p its P W]; subst; inversion P; subst; (eapply table_terminal; [exact W|now left]).
  - destruct n; try apply Forall_nil. match goal with x : colv |- _ => destruct x end; try apply Forall_nil. apply Forall_cons; [|apply Forall_nil].
    inversion S as [k' t p its P W]; subst. inversion P; subst. eexists; split; [reflexivity|].
    destruct (terminal_in _ _ _ _ W (or_introl eq_refl)) as (a & x & b & -> & (y & -> & [U|(-> & j & _ & D)])).
    + left. rewrite <- !app_assoc in *. rewrite (app_assoc pre). apply (upload_in _ _ (L ".*" ++ b)). rewrite <- app_assoc. exact U.
    + right. eapply dotted_ordinary; eauto.
Qed.

(** ** Coordinate systems *)
(** The text starts, behind white space, with something other than a quote. *)
Definition unquoted (t : text) : Prop := exists w c r, t = w ++ c :: r /\ white w /\ is_space c = false /\ c <> "'"%char.
Lemma unquoted_next t : unquoted t -> ~ next "'" t.
Proof.
  intros (w & c & r & -> & W & C & N) (w' & r' & E & W').
  assert (skip (w ++ c :: r) = c :: r) as S1 by (rewrite skip_over by auto; cbn [skip]; now rewrite C).
  assert (skip (w ++ c :: r) = "'"%char :: r') as S2 by (rewrite E; now rewrite skip_over by auto).
  rewrite S1 in S2. injection S2 as -> _. contradiction.
Qed.
Lemma unquoted_lead w t : white w -> unquoted t -> unquoted (w ++ t).
Proof. intros W (w' & c & r & -> & W' & C & N). exists (w ++ w'), c, r. rewrite <- app_assoc. split; auto. split; auto. now apply Forall_app. Qed.
Lemma unquoted_app t r : unquoted t -> unquoted (t ++ r).
Proof. intros (w' & c & x & -> & W' & C & N). exists w', c, (x ++ r). rewrite <- app_assoc. auto. Qed.
Lemma unquoted_char c r : is_space c = false -> c <> "'"%char -> unquoted (c :: r).
Proof. intros C N. exists [], c, r. split; auto. split; [constructor|auto]. Qed.
Lemma plain_char c : (letter c \/ digit c \/ In c [dq; "+"; "-"; "."]%char) -> is_space c = false /\ c <> "'"%char.
Proof.
  intros [H|[H|H]].
  - apply is_letter_iff in H. destruct c as [[] [] [] [] [] [] [] []]; vm_compute in H |- *; split; congruence.
  - apply is_digit_iff in H. destruct c as [[] [] [] [] [] [] [] []]; vm_compute in H |- *; split; congruence.
  - repeat (destruct H as [<-|H]; [split; [reflexivity|discriminate]|]). contradiction.
Qed.
Lemma unquoted_plain c r : (letter c \/ digit c \/ In c [dq; "+"; "-"; "."]%char) -> unquoted (c :: r).
Proof. intros H. apply plain_char in H as [A B]. now apply unquoted_char. Qed.
Lemma ident_unquoted k v : identifier_before k v -> unquoted v.
Proof.
  intros [((c & w & -> & Lc & _) & _)|((b & -> & _) & _)]; apply unquoted_plain; auto. right; right; now left.
Qed.
Lemma upper_unquoted u : In (upper u) (map L ["NAN"; "INF"; "INFINITY"]%string) -> unquoted u.
Proof.
  intros H. destruct u as [|c u]; [repeat (destruct H as [H|H]; [discriminate|]); contradiction|].
  assert (letter c); [|apply unquoted_plain; auto].
  assert (upc c = "N"%char \/ upc c = "I"%char) as H'.
  { repeat (destruct H as [H|H]; [injection H; intros; subst; auto|]). contradiction. }
  apply is_letter_iff. destruct H' as [H'|H']; clear - H'; destruct c as [[] [] [] [] [] [] [] []]; vm_compute in H' |- *; congruence.
Qed.
Lemma digits_unquoted a : digits a -> unquoted a.
Proof. intros [N F]. destruct F; [contradiction|]. apply unquoted_plain; auto. Qed.
Lemma real_unquoted v : real_number v -> unquoted v.
Proof.
  intros (s & u & -> & S & R). assert (unquoted u) as U.
  { destruct R as [(a & x & -> & A & _)|[H|(n & b & -> & E & _)]].
    - apply unquoted_app. destruct A as [A|(b & c & -> & B & C & N)]; [now apply digits_unquoted|].
      destruct B; [|apply unquoted_plain; auto]. apply unquoted_plain. right; right. cbn; tauto.
    - now apply upper_unquoted.
    - apply unquoted_app, upper_unquoted. rewrite E. now left. }
  destruct S as [->|[->| ->]]; [exact U| |]; apply unquoted_plain; right; right; cbn; tauto.
Qed.
Lemma first_t k u its (P : terminal) : writes m k u (T P :: its) -> (forall k' x, P k' x -> unquoted x) -> unquoted u.
Proof. intros W H. inversion W; subst. apply unquoted_lead; auto. apply unquoted_app. eauto. Qed.
Lemma first_p k u its p : writes m k u (Pt p :: its) -> (forall k' x, spells m k' x p -> unquoted x) -> unquoted u.
Proof. intros W H. inversion W; subst. apply unquoted_lead; auto. apply unquoted_app. eauto. Qed.
Lemma colref_unquoted k u c : spells m k u (X_colref c) -> unquoted u.
Proof.
  intros S. inversion S as [k' t p its P W]; subst. inversion P; subst; (eapply first_t; [exact W|]); intros k' x Px;
    try (destruct Px as [-> I]; eapply ident_unquoted; eauto). destruct Px as (n & -> & _). apply unquoted_plain. left. unfold letter. cbn. lia.
Qed.
Lemma csae_unquoted k u c : spells m k u (X_csae c) -> unquoted u.
Proof.
  intros S. inversion S as [k' t p its P W]; subst. inversion P; subst.
  - eapply first_t; [exact W|]. intros k' x [-> R]. now apply real_unquoted.
  - eapply first_p; [exact W|]. intros. eapply colref_unquoted; eauto.
  - eapply first_t; [exact W|]. intros k' x [-> R]. now apply real_unquoted.
Qed.
Lemma coord_unquoted k u c : spells m k u (X_coord c) -> unquoted u.
Proof.
  intros S. inversion S as [k' t p its P W]; subst. inversion P; subst. eapply first_p; [exact W|]. intros. eapply csae_unquoted; eauto.
Qed.
Lemma writes_t_inv k u (P : terminal) its : writes m k u (T P :: its) -> exists w x t, u = w ++ x ++ t /\ white w /\ P (t ++ k) x /\ writes m k t its.
Proof. intros W. inversion W; subst. eauto 8. Qed.
Lemma writes_p_inv k u p its : writes m k u (Pt p :: its) -> exists w x t, u = w ++ x ++ t /\ white w /\ spells m (t ++ k) x p /\ writes m k t its.
Proof. intros W. inversion W; subst. eauto 8. Qed.
Lemma writes_nil_inv k u : writes m k u [] -> white u.
Proof. intros W. now inversion W; subst. Qed.
Ltac wstep :=
  match goal with
  | W : writes m _ ?u (_ :: _) |- _ =>
      first [apply writes_t_inv in W as (?w & ?x & ?t & -> & ? & ? & W) | apply writes_p_inv in W as (?w & ?x & ?t & -> & ? & ? & W)]
  end.
Lemma fw_app k u a its : writes m k u (a ++ its) -> (a = [] \/ exists i, a = [i]) -> exists x y, u = x ++ y /\ writes m (y ++ k) x a /\ writes m k y its.
Proof.
  intros W [->|(i & ->)].
  - exists [], u. split; auto. split; auto. constructor. constructor.
  - inversion W; subst.
    + exists (w ++ x), t. rewrite <- app_assoc. split; auto. split; auto. apply writes_lead; auto. now apply writes_one_t.
    + exists (w ++ x), t. rewrite <- app_assoc. split; auto. split; auto. apply writes_lead; auto. now apply writes_one.
Qed.
Lemma word_inv k u w s a : white w -> writes m k u a -> a = [key s] \/ a = [] ->
  exists w1 x w2, w ++ u = w1 ++ x ++ w2 /\ white w1 /\ white w2 /\ (a = [key s] /\ upper x = L s \/ a = [] /\ x = []).
Proof.
  intros Ww W [->| ->].
  - unfold key in W. wstep. apply writes_nil_inv in W. exists (w ++ w0), x, t. rewrite <- app_assoc. split; auto.
    split; [now apply Forall_app|]. auto.
  - apply writes_nil_inv in W. exists (w ++ u), [], []. cbn [app]. rewrite !app_nil_r. repeat split; auto; [now apply Forall_app|constructor].
Qed.
Lemma system_inv k u f : spells m k u (X_system f) -> (f = ICRS /\ white u) \/
  exists w st w' r, u = w ++ st ++ w' ++ L "," ++ r /\ white w /\ white w' /\ white r /\ system_text st f.
Proof.
  intros S. inversion S as [k' t p its P W]; subst. inversion P; subst.
  - left. split; auto. eapply writes_nil_inv; eauto.
  - right. match goal with H : _ \/ fr = [] /\ _, H2 : _ \/ ps = [] |- _ => rename H into Hf; rename H2 into Hp end.
    apply writes_t_inv in W as (w & x & t & -> & Ww & -> & W).
    apply fw_app in W as (a & y & -> & Wa & W); [|destruct Hf as [->|(-> & _)]; eauto].
    apply fw_app in W as (b & z & -> & Wb & W); [|destruct Hp as [->| ->]; eauto].
    apply writes_t_inv in W as (w3 & x3 & t3 & -> & Ww3 & -> & W). apply writes_t_inv in W as (w4 & x4 & t4 & -> & Ww4 & -> & W).
    apply writes_nil_inv in W.
    destruct (word_inv _ _ [] (frame_name f) fr (Forall_nil _) Wa) as (v1 & fx & v2 & E1 & V1 & V2 & Hfx); [tauto|]. cbn [app] in E1. subst a.
    destruct (word_inv _ _ v2 "GEOCENTER" ps V2 Wb Hp) as (v3 & px & v4 & E2 & V3 & V4 & Hpx).
    exists w, (L "'" ++ v1 ++ fx ++ v3 ++ px ++ (v4 ++ w3) ++ L "'"), w4, t4. split.
    { rewrite <- !app_assoc. do 4 f_equal. rewrite (app_assoc v2), E2. now rewrite <- !app_assoc. }
    repeat (split; auto). exists v1, fx, v3, px, (v4 ++ w3). repeat (split; auto); [now apply Forall_app| |tauto].
    destruct Hfx as [[-> Hx]|[-> ->]]; auto. right. destruct Hf as [Hf|[_ Hf]]; [discriminate|auto].
Qed.
Lemma shape_items s its : production m (X_shape s) its ->
  exists c l, its = key (shape_word s) :: mark "(" :: Pt (X_system (shape_frame s)) :: Pt (X_coord c) :: l.
Proof.
  intros P. inversion P; subst; cbn [shape_word shape_frame]; eauto. destruct cs as [|c cs]; [contradiction|]. cbn [map commas app]. eauto.
Qed.
Lemma shape_system k u s : spells m k u (X_shape s) -> exists w x w' rest, u = w ++ x ++ w' ++ L "(" ++ rest /\
  white w /\ white w' /\ upper x = L (shape_word s) /\ forall t, frame_written (rest ++ t) (shape_frame s).
Proof.
  intros S. inversion S as [k' t p its P W]; subst. apply shape_items in P as (c & l & ->).
  apply writes_t_inv in W as (w & x & t & -> & Ww & E & W). apply writes_t_inv in W as (w2 & x2 & t2 & -> & Ww2 & -> & W).
  apply writes_p_inv in W as (w3 & x3 & t3 & -> & Ww3 & Sy & W).
  exists w, x, w2, (w3 ++ x3 ++ t3). repeat (split; auto). intros t.
  apply system_inv in Sy as [(-> & Wx)|(v & st & v' & r & -> & V & V' & Vr & St)].
  - right. split; auto. apply unquoted_next. apply unquoted_app. apply unquoted_lead; auto. apply unquoted_lead; auto.
    eapply first_p; [exact W|]. intros. eapply coord_unquoted; eauto.
  - left. exists (w3 ++ v), st, v', (r ++ t3 ++ t). rewrite <- !app_assoc. repeat (split; auto). now apply Forall_app.
Qed.
Lemma node_system k u n s : spells m k u (X n) -> node_shape n = Some s -> exists w x w' rest, u = w ++ x ++ w' ++ L "(" ++ rest /\
  white w /\ white w' /\ upper x = L (shape_word s) /\ forall t, frame_written (rest ++ t) (shape_frame s).
Proof.
  intros S E. assert (exists w y t, u = w ++ y ++ t /\ white w /\ white t /\ spells m (t ++ k) y (X_shape s)) as (w & y & t & -> & Ww & Wt & S').
  { inversion S as [k' t p its P W]; subst. inversion P; subst; cbn [node_shape] in E; try discriminate; injection E as <-;
      apply writes_p_inv in W as (w & x & t & -> & Ww & Sx & W); apply writes_nil_inv in W; eauto 8. }
  apply shape_system in S' as (w1 & x & w2 & rest & -> & W1 & W2 & E1 & F).
  exists (w ++ w1), x, w2, (rest ++ t). rewrite <- !app_assoc. repeat (split; auto); [now apply Forall_app|].
  intros t'. rewrite <- app_assoc. auto.
Qed.
End Use.
