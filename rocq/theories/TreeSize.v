(** How many parts the tree of an accepted query has (C55). *)
From Verif Require Import Query Spec SpecNodes SpecLexical SpecContent SpecSpelling SpellMain BracketProofs TextLemmas StatementProofs FormatSize.
From Coq Require Import Lia.
Local Open Scope nat_scope.

Definition below (n : node) : list node :=
  match n with
  | N_ve v => nodes_ve v | N_venb v => nodes_venb v | N_vterm v => nodes_vterm v | N_factor v => nodes_factor v | N_nprim v => nodes_nprim v
  | N_nvf v => nodes_nvf v | N_vep v => nodes_vep v | N_vepv v => nodes_vepv v | N_swhen v => nodes_swhen v | N_qwhen v => nodes_qwhen v
  | N_result v => nodes_result v | N_sc v => nodes_sc v | N_bfac v => nodes_bfac v | N_bprim v => nodes_bprim v | N_pred v => nodes_pred v
  | N_intarget v => nodes_intarget v | N_subq v => nodes_subq v | N_jt v => nodes_jt v | N_qjhead v => nodes_qjhead v
  | N_jsuf v => nodes_jsuf v | N_jspec v => nodes_jspec v | N_tref v => nodes_tref v | N_qspec v => nodes_qspec v | N_with v => nodes_with v
  | N_addon v => nodes_addon v | N_sfw v => nodes_sfw v | N_where v => nodes_where v | N_geom v => nodes_geom v | N_gpred v => nodes_gpred v
  | N_select v => nodes_select v | N_columns v => nodes_columns v | N_colv v => nodes_colv v | N_gterm v => nodes_gterm v
  | N_sort _ | N_soc _ | N_poc _ => [n]
  end.
(** Parts that are written like the part they consist of need room. *)
Definition rank (n : node) : nat :=
  match n with
  | N_vepv _ | N_soc _ | N_poc _ => 16
  | N_vep _ | N_nvf _ => 15
  | N_nprim _ => 14
  | N_factor _ => 13
  | N_venb _ => 12
  | N_pred _ => 12
  | N_bprim _ => 11
  | N_bfac _ => 10
  | N_sc _ => 9
  | N_ve _ => 8
  | N_jt (JT_p _) => 8
  | N_qjhead _ => 7
  | N_colv _ | N_gterm _ | N_result _ | N_subq _ | N_sort _ | N_gpred _ => 7
  | N_columns _ | N_intarget _ | N_geom _ => 6
  | N_jt (JT_q _) => 6
  | N_tref _ => 5
  | N_sfw _ => 4
  | _ => 0
  end.
Definition weight (p : part) : nat :=
  match p with
  | X (N_where w) => length (nodes_where w) - 1
  | X n => length (below n) + rank n
  | X_qjoin q => length (nodes_qjoin q) + 7
  | X_colref _ | X_shape _ => 17
  | _ => 0
  end.
Definition Z := 17.
Definition wz (i : item) (n : nat) : Prop :=
  match i with T P => exists k x, P k x /\ length x = n | Pt p => weight p <= Z * n end.
Section Tree.
Variable mp : text -> option text.
Lemma w_key w n : wz (key w) n -> n = length (L w). Proof. intros (k & x & U & <-). now rewrite <- U, length_upper. Qed.
Lemma w_keyb w n : wz (keyb w) n -> n = length (L w). Proof. intros (k & x & [U _] & <-). now rewrite <- U, length_upper. Qed.
Lemma w_mark w n : wz (mark w) n -> n = length (L w). Proof. intros (k & x & U & <-). now rewrite U. Qed.
Lemma w_name v n : wz (name v) n -> 1 <= n.
Proof. intros (k & x & [-> I] & <-). now apply ident_len in I. Qed.
Lemma w_one ws v n : wz (one_of ws v) n -> nonempty ws = true -> 1 <= n.
Proof. intros (k & x & [-> I] & <-) N. apply (listed_len _ _ N) in I. now rewrite length_upper in I. Qed.
Lemma w_oneb ws v n : wz (one_ofb ws v) n -> nonempty ws = true -> 1 <= n.
Proof. intros (k & x & (-> & I & _) & <-) N. apply (listed_len _ _ N) in I. now rewrite length_upper in I. Qed.
Lemma w_omark ws v n : wz (one_mark ws v) n -> nonempty ws = true -> 1 <= n.
Proof. intros (k & x & [-> I] & <-) N. now apply (listed_len _ _ N) in I. Qed.
Lemma upload_1 v k x : upload mp v k x -> 1 <= length x.
Proof. intros (m & -> & _ & E). rewrite app_length. cbn. lia. Qed.
Lemma table_1 v k x : table_name mp v k x -> 1 <= length x.
Proof. intros [U|(-> & n & _ & D)]; [eapply upload_1, U|]. now apply dotted_len in D. Qed.
Lemma w_upload v n : wz (T (upload mp v)) n -> 1 <= n.
Proof. intros (k & x & U & <-). eapply upload_1, U. Qed.
Lemma w_table v n : wz (T (table_name mp v)) n -> 1 <= n.
Proof. intros (k & x & U & <-). eapply table_1, U. Qed.
Lemma w_value v n : wz (value v) n -> 1 <= n.
Proof.
  intros (k & x & [(_ & D & ->)|[-> V]] & <-); [exact (tame_len _ (digits_tame _ D))|].
  apply tame_len. destruct V as [N|[P|I]]; [now apply number_tame|now apply literal_tame|now apply (listed_tame _ _ I)].
Qed.
Lemma w_real v n : wz (real v) n -> 1 <= n.
Proof. intros (k & x & [-> R] & <-). now apply real_len. Qed.
Lemma w_whole v n : wz (whole v) n -> 1 <= n.
Proof. intros (k & x & [-> D] & <-). now apply nonnil_len, (proj1 D). Qed.
Lemma w_function v n : wz (function_name v) n -> 1 <= n.
Proof. intros (k & x & (-> & (c & r & -> & _) & _) & <-). cbn [length]; lia. Qed.

Lemma w_cons i l ns : Forall2 wz (i :: l) ns -> exists n ns', ns = n :: ns' /\ wz i n /\ Forall2 wz l ns'.
Proof. intros F. inversion F; subst. eauto. Qed.
(** sums over lists; [r] is left over once *)
Lemma w_commas {A} (f : A -> part) l ns : Forall2 wz (commas (map f l)) ns ->
  forall (B : Type) (g : A -> list B) r, r <= 8 -> (forall a, length (g a) + r <= weight (f a)) -> l <> [] -> length (flat_map g l) + r <= Z * list_sum ns.
Proof.
  destruct l as [|a l]; [easy|]. cbn [map commas]. intros F B g r Hr G _. apply w_cons in F as (n & ns' & -> & H & F). cbn [wz] in H. pose proof (G a) as Ga. cbn [flat_map]. rewrite app_length, sum_cons.
  enough (length (flat_map g l) <= Z * list_sum ns') by lia. clear - F G. revert ns' F. induction l as [|b l IH]; intros ns F; [cbn; lia|].
  cbn [map flat_map app] in F. apply w_cons in F as (n1 & ns1 & -> & H1 & F). apply w_cons in F as (n2 & ns2 & -> & H2 & F). cbn [wz] in H2. specialize (IH _ F). specialize (G b).
  cbn [flat_map]. rewrite app_length, !sum_cons. unfold Z in *. lia.
Qed.
Lemma w_each {A} (f : A -> node) l ns : Forall2 wz (each f l) ns ->
  forall (B : Type) (g : A -> list B), (forall a, length (g a) <= weight (X (f a))) -> length (flat_map g l) <= Z * list_sum ns.
Proof.
  intros F B g G. revert ns F. induction l as [|a l IH]; intros ns F; [cbn; lia|]. cbn [each map] in F. apply w_cons in F as (n & ns' & -> & H & F). specialize (IH _ F). specialize (G a).
  cbn [flat_map]. rewrite app_length, sum_cons. cbn [wz] in H. lia.
Qed.
Lemma w_index l ns : Forall2 wz (flat_map (fun a => [mark "["; Pt (X (N_ve a)); mark "]"]) l) ns -> length (flat_map nodes_ve l) <= Z * list_sum ns.
Proof.
  revert ns. induction l as [|a l IH]; intros ns F; [cbn; lia|]. cbn [flat_map app] in F. apply w_cons in F as (n1 & ns1 & -> & H1 & F). apply w_cons in F as (n2 & ns2 & -> & H2 & F).
  apply w_cons in F as (n3 & ns3 & -> & H3 & F). specialize (IH _ F). cbn [flat_map]. rewrite app_length, !sum_cons. change (length (nodes_ve a) + 8 <= Z * n2) in H2. lia.
Qed.
Ltac wfacts := repeat match goal with
  | F : Forall2 wz [] ?ns |- _ => inversion F; subst ns; clear F
  | F : Forall2 wz (optional _ ?o) _ |- _ => destruct o; cbn [optional] in F
  | F : Forall2 wz (if ?b then _ else _) _ |- _ => destruct b eqn:?
  | F : Forall2 wz (commas (map ?f ?l)) ?ns |- _ => let J := fresh "J" in pose proof (w_commas f l ns F) as J; clear F
  | F : Forall2 wz (each ?f ?l) ?ns |- _ => let J := fresh "J" in pose proof (w_each f l ns F) as J; clear F
  | F : Forall2 wz (names ?l) ?ns |- _ => clear F
  | F : Forall2 wz (flat_map (fun a => [mark "["; _; _]) _) _ |- _ => apply w_index in F
  | F : Forall2 wz (_ ++ _) _ |- _ => apply Forall2_app_inv_l in F as (? & ? & ? & F & ->)
  | F : Forall2 wz (_ :: _) _ |- _ => apply w_cons in F as (? & ? & -> & ? & F)
  | F : wz (key _) _ |- _ => apply w_key in F
  | F : wz (keyb _) _ |- _ => apply w_keyb in F
  | F : wz (mark _) _ |- _ => apply w_mark in F
  | F : wz gap _ |- _ => clear F
  | F : wz (in_not _) _ |- _ => clear F
  | F : wz (count _) _ |- _ => clear F
  | F : wz (optional_not _) _ |- _ => clear F
  | F : wz (spaced_not _) _ |- _ => clear F
  | F : wz (name _) _ |- _ => apply w_name in F
  | F : wz (one_of _ _) _ |- _ => apply w_one in F; [|reflexivity]
  | F : wz (one_ofb _ _) _ |- _ => apply w_oneb in F; [|reflexivity]
  | F : wz (one_mark _ _) _ |- _ => apply w_omark in F; [|reflexivity]
  | F : wz (T (upload _ _)) _ |- _ => apply w_upload in F
  | F : wz (T (table_name _ _)) _ |- _ => apply w_table in F
  | F : wz (value _) _ |- _ => apply w_value in F
  | F : wz (real _) _ |- _ => apply w_real in F
  | F : wz (whole _) _ |- _ => apply w_whole in F
  | F : wz (function_name _) _ |- _ => apply w_function in F
  | F : wz (Pt ?p) ?n |- _ => change (weight p <= Z * n) in F
  end.
Ltac try_r J g Q := first [pose proof (J _ g 7 ltac:(lia) ltac:(intros ?; cbn [weight below rank length]; lia)) as Q
  |pose proof (J _ g 5 ltac:(lia) ltac:(intros ?; cbn [weight below rank length]; lia)) as Q|pose proof (J _ g 0 ltac:(lia) ltac:(intros ?; cbn [weight below rank length]; lia)) as Q].
Ltac fwd := repeat match goal with
  | J : forall (B : Type) (g : _ -> list B) r, r <= 8 -> _ |- context [flat_map ?g ?l] =>
      match type of J with context [flat_map _ l] => let Q := fresh "Q" in try_r J g Q; clear J end
  | J : forall (B : Type) (g : _ -> list B), (forall a, _) -> _ |- context [flat_map ?g ?l] =>
      match type of J with context [flat_map _ l] => let Q := fresh "Q" in pose proof (J _ g ltac:(intros ?; cbn [weight below rank length]; lia)) as Q; clear J end
  | Q : ?l <> [] -> _, N : ?l <> [] |- _ => specialize (Q N)
  end.
Ltac lens := repeat match goal with
  | H : context [length (L ?s)] |- _ => let n := eval compute in (length (L s)) in change (length (L s)) with n in H
  end.
Ltac fin := repeat first [rewrite list_sum_app | rewrite sum_cons | rewrite sum_nil]; cbn [weight below rank nodes_ve nodes_venb nodes_vterm nodes_factor nodes_nprim nodes_nvf nodes_vep nodes_vepv
  nodes_swhen nodes_qwhen nodes_result nodes_sc nodes_bfac nodes_bprim nodes_pred nodes_intarget nodes_subq nodes_jt nodes_qjoin nodes_qjhead nodes_jsuf nodes_jspec nodes_tref nodes_qspec nodes_with
  nodes_addon nodes_sfw nodes_where nodes_geom nodes_gpred nodes_select nodes_columns nodes_colv nodes_gterm onodes length app] in *; rewrite ?app_length; fwd; lens; unfold Z in *; cbn [length] in *; lia.
Lemma sort_nodes (o : list sort_spec) : map N_sort o = flat_map (fun s => [N_sort s]) o.
Proof. induction o as [|a o IH]; [reflexivity|]. cbn. now rewrite IH. Qed.
Lemma is_nil_iff {A} (l : list A) : is_nil l = true -> l = []. Proof. now destruct l. Qed.
Lemma not_nil {A} (l : list A) : is_nil l = false -> l <> []. Proof. now destruct l. Qed.
Lemma production_weight p its ns : production mp p its -> Forall2 wz its ns -> weight p <= Z * list_sum ns.
Proof.
  intros P F. destruct P; wfacts; try (fin; fail).
  { destruct l; [cbn [weight below nodes_nvf flat_map]; fin|]. assert (N : v :: l <> []) by discriminate. fin. }
  { destruct j; fin. }
  { match goal with H : wz _ _ |- _ => destruct H as (k & y & (z & -> & U) & <-) end. apply table_1 in U. rewrite sum_cons, app_length. fin. }
  { repeat match goal with H : _ \/ _ |- _ => destruct H end; repeat match goal with H : _ /\ _ |- _ => destruct H | H : exists _, _ |- _ => destruct H end; subst; wfacts; fin. }
  all: repeat match goal with H : is_nil _ = true |- _ => apply is_nil_iff in H; subst | H : is_nil _ = false |- _ => apply not_nil in H end.
  all: cbn [weight below nodes_qspec flat_map map onodes]; rewrite ?sort_nodes; fin.
Qed.
Lemma spells_weight k t p : spells mp k t p -> weight p <= Z * length t.
Proof.
  intros S. revert k t p S. apply (spells_w mp (fun _ t p => weight p <= Z * length t) (fun _ t its => exists ns, Forall2 wz its ns /\ list_sum ns <= length t)).
  - intros k t p its P _ (ns & F & L). etransitivity; [exact (production_weight p its ns P F)|]. apply Nat.mul_le_mono_l, L.
  - intros k w _. exists []. split; [constructor|cbn; lia].
  - intros k w x t P its _ Px _ (ns & F & L). exists (length x :: ns). split; [constructor; [now exists (t ++ k), x|exact F]|]. rewrite sum_cons, !app_length. lia.
  - intros k w x t p its _ _ IHp _ (ns & F & L). exists (length x :: ns). split; [constructor; [exact IHp|exact F]|]. rewrite sum_cons, !app_length. lia.
Qed.
Lemma written_nodes t q : written mp t q -> length (nodes_qspec q) <= Z * length t.
Proof. intros (u & w & -> & _ & S). apply spells_weight in S. cbn [weight below rank] in S. rewrite app_length. lia. Qed.
End Tree.
