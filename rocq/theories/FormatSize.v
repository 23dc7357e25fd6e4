(** How long the formatted text is (C50). *)
From Verif Require Import Query Print Spec SpecNodes SpecLexical SpecContent SpecSpelling PrintEq SpellMain BracketProofs TextLemmas StatementProofs.
From Coq Require Import Lia.
Local Open Scope nat_scope.

Lemma length_upper x : length (upper x) = length x. Proof. unfold upper. apply map_length. Qed.

Section Size.
Variable mp : text -> option text.
Variable fmt : text -> text.
Variable M : nat.
Hypothesis mp_len : forall n v, mp n = Some v -> length v <= M.
Hypothesis fmt_len : forall d, real_number d -> length (fmt d) <= M.
Notation pr_part := (pr_part fmt).
Definition K : nat := M + 8.

(** Some parts leave room for a blank or the like. *)
Definition slack (p : part) : nat :=
  match p with
  | X (N_venb _) | X (N_factor _) | X (N_nprim _) | X (N_nvf _) | X (N_vep _) | X (N_vepv _) | X (N_bprim _) | X (N_pred _) | X_colref _ => 4
  | X (N_gpred _) => 2
  | X (N_jt (JT_p _)) => 1
  | X (N_swhen _) | X (N_qwhen _) | X (N_jsuf _) | X (N_with _) | X (N_qjhead _) => 1
  | X_alias a => if is_nil a then 0 else 1
  | _ => 0
  end.
Definition size (p : part) : nat :=
  match p with
  | X_system _ => 0
  | X (N_where w) => if where_empty w then 0 else 7 + length (pr_where fmt w)
  | _ => length (pr_part p) + slack p
  end.
Definition isz (i : item) (n : nat) : Prop :=
  match i with T P => exists k x, P k x /\ length x = n | Pt p => size p <= K * n end.
Lemma room a n : a <= n -> 1 <= n -> a + 7 <= K * n.
Proof. unfold K. nia. Qed.
Lemma room_M a n : a <= M -> 1 <= n -> a + 7 <= K * n.
Proof. unfold K. nia. Qed.
Lemma nonnil_len (t : text) : t <> [] -> 1 <= length t. Proof. destruct t; [contradiction|cbn; lia]. Qed.

Lemma z_key w n : isz (key w) n -> n = length (L w). Proof. intros (k & x & U & <-). now rewrite <- U, length_upper. Qed.
Lemma z_keyb w n : isz (keyb w) n -> n = length (L w). Proof. intros (k & x & [U _] & <-). now rewrite <- U, length_upper. Qed.
Lemma z_mark w n : isz (mark w) n -> n = length (L w). Proof. intros (k & x & U & <-). now rewrite U. Qed.
Lemma z_gap n : isz gap n -> n = 0. Proof. now intros (k & x & [-> _] & <-). Qed.
Lemma ident_len k v : identifier_before k v -> 1 <= length v.
Proof. intros I. apply nonnil_len. now apply identifier_nonempty in I. Qed.
Lemma z_name v n : isz (name v) n -> length v + 7 <= K * n.
Proof. intros (k & x & [-> I] & <-). apply room; [lia|now apply ident_len in I]. Qed.
Definition nonempty (ws : list string) : bool := forallb (fun w => negb (is_nil (L w))) ws.
Lemma listed_len ws v : nonempty ws = true -> In v (map L ws) -> 1 <= length v.
Proof.
  intros N I. apply in_map_iff in I as (w & <- & I). unfold nonempty in N. rewrite forallb_forall in N. specialize (N w I). destruct (L w); [discriminate|cbn; lia].
Qed.
Lemma z_one ws v n : isz (one_of ws v) n -> nonempty ws = true -> length v + 7 <= K * n.
Proof. intros (k & x & [-> I] & <-) N. apply room; [lia|]. apply (listed_len _ _ N) in I. now rewrite length_upper in I. Qed.
Lemma z_oneb ws v n : isz (one_ofb ws v) n -> nonempty ws = true -> length v + 7 <= K * n.
Proof. intros (k & x & (-> & I & _) & <-) N. apply room; [lia|]. apply (listed_len _ _ N) in I. now rewrite length_upper in I. Qed.
Lemma z_omark ws v n : isz (one_mark ws v) n -> nonempty ws = true -> length v + 7 <= K * n.
Proof. intros (k & x & [-> I] & <-) N. apply room; [lia|]. now apply (listed_len _ _ N) in I. Qed.
Lemma upload_room v k x : upload mp v k x -> length v + 7 <= K * length x.
Proof. intros (m & -> & _ & E). apply room_M; [eauto|rewrite app_length; cbn; lia]. Qed.
Lemma z_upload v n : isz (T (upload mp v)) n -> length v + 7 <= K * n.
Proof. intros (k & x & U & <-). eapply upload_room, U. Qed.
Lemma dotted_len n k v : dotted n k v -> 1 <= length v.
Proof. induction 1 as [k v I|n k v w I _ IH]; [now apply ident_len in I|]. rewrite app_length. cbn. lia. Qed.
Lemma table_room v k x : table_name mp v k x -> length v + 7 <= K * length x.
Proof. intros [U|(-> & n & _ & D)]; [eapply upload_room, U|]. apply room; [lia|now apply dotted_len in D]. Qed.
Lemma z_table v n : isz (T (table_name mp v)) n -> length v + 7 <= K * n.
Proof. intros (k & x & U & <-). eapply table_room, U. Qed.
Lemma tame_len v : tame v -> 1 <= length v.
Proof. intros H. destruct v; [now apply nil_tame in H|cbn; lia]. Qed.
Lemma z_value v n : isz (value v) n -> length v + 6 <= K * n.
Proof.
  intros (k & x & [(_ & D & ->)|[-> V]] & <-).
  - pose proof (tame_len _ (digits_tame _ D)) as H. pose proof (room _ _ (le_n (length x)) H). rewrite app_length. change (length (L ".")) with 1. lia.
  - assert (H : 1 <= length v). { apply tame_len. destruct V as [N|[P|I]]; [now apply number_tame|now apply literal_tame|now apply (listed_tame _ _ I)]. }
    pose proof (room _ _ (le_n (length v)) H). lia.
Qed.
Lemma real_len d : real_number d -> 1 <= length d.
Proof.
  intros (s & u & -> & _ & R). rewrite app_length. enough (1 <= length u) by lia. destruct R as [(a & x & -> & A & _)|[I|(m & b & -> & U & _)]].
  - rewrite app_length. destruct A as [[N _]|(b & c & -> & _)]; [apply nonnil_len in N; lia|rewrite app_length; cbn; lia].
  - apply listed_len in I; [|reflexivity]. now rewrite length_upper in I.
  - rewrite !app_length. cbn. lia.
Qed.
Lemma z_real v n : isz (real v) n -> length (fmt v) + 7 <= K * n.
Proof. intros (k & x & [-> R] & <-). apply room_M; [now apply fmt_len|now apply real_len]. Qed.
Lemma z_whole v n : isz (whole v) n -> length v + 7 <= K * n.
Proof. intros (k & x & [-> D] & <-). apply room; [lia|]. now apply nonnil_len, (proj1 D). Qed.
Lemma not_len v : is_not v -> length v = 3. Proof. intros E. now rewrite <- length_upper, E. Qed.
Lemma z_onot v n : isz (optional_not v) n -> length v <= 3. Proof. intros (k & x & [[-> _]|[(N & _)|(N & _)]] & _); [cbn; lia|rewrite (not_len _ N); lia ..]. Qed.
Lemma z_snot v n : isz (spaced_not v) n -> length v <= 3. Proof. intros (k & x & [[-> _]|(_ & N & _)] & _); [cbn; lia|rewrite (not_len _ N); lia]. Qed.
Lemma z_function v n : isz (function_name v) n -> length v + 7 <= K * n.
Proof. intros (k & x & (-> & (c & r & -> & _) & _) & <-). apply room; cbn [length]; lia. Qed.

Lemma z_cons i l ns : Forall2 isz (i :: l) ns -> exists n ns', ns = n :: ns' /\ isz i n /\ Forall2 isz l ns'.
Proof. intros F. inversion F; subst. eauto. Qed.
Lemma z_commas {A} (f : A -> part) l ns : Forall2 isz (commas (map f l)) ns ->
  forall (g : A -> text) sep, length sep <= 8 -> (forall a, length (g a) <= size (f a)) -> length (join sep (map g l)) <= K * list_sum ns.
Proof.
  destruct l as [|a l]; [intros F g sep _ _; cbn; lia|]. cbn [map commas]. intros F g sep S G. apply z_cons in F as (n & ns' & -> & H & F). cbn [isz] in H.
  revert a n ns' H F. induction l as [|b l IH]; intros a n ns' H F.
  - inversion F; subst. cbn [map join list_sum fold_right]. specialize (G a). rewrite Nat.add_0_r. lia.
  - cbn [map flat_map app] in F. apply z_cons in F as (n1 & ns1 & -> & H1 & F). apply z_cons in F as (n2 & ns2 & -> & H2 & F). cbn [isz] in H2.
    apply z_mark in H1. change (length (L ",")) with 1 in H1. subst n1. pose proof (IH b n2 ns2 H2 F) as J. specialize (G a).
    cbn [map] in J |- *. change (join sep (g a :: g b :: map g l)) with (g a ++ sep ++ join sep (g b :: map g l)). rewrite !app_length.
    unfold list_sum in *. cbn [fold_right] in J |- *. unfold K in *. lia.
Qed.
Lemma z_each {A} (f : A -> node) l ns : Forall2 isz (each f l) ns ->
  forall g : A -> text, (forall a, length (g a) <= size (X (f a))) -> length (concat (map g l)) <= K * list_sum ns.
Proof.
  intros F g G. revert ns F. induction l as [|a l IH]; intros ns F; [cbn; lia|]. cbn [each map] in F. apply z_cons in F as (n & ns' & -> & H & F). specialize (IH _ F). specialize (G a).
  cbn [map concat]. rewrite app_length. cbn [isz] in H. unfold list_sum in *. cbn [fold_right]. lia.
Qed.
Lemma z_index l ns : Forall2 isz (flat_map (fun a => [mark "["; Pt (X (N_ve a)); mark "]"]) l) ns ->
  length (concat (map (fun i => L "[" ++ pr_ve fmt i ++ L "]") l)) <= K * list_sum ns.
Proof.
  revert ns. induction l as [|a l IH]; intros ns F; [cbn; lia|]. cbn [flat_map app] in F. apply z_cons in F as (n1 & ns1 & -> & H1 & F). apply z_cons in F as (n2 & ns2 & -> & H2 & F).
  apply z_cons in F as (n3 & ns3 & -> & H3 & F). specialize (IH _ F). apply z_mark in H1. apply z_mark in H3. cbn in H1, H3. subst n1 n3.
  cbn [map concat]. rewrite !app_length. change (length (L "[")) with 1. change (length (L "]")) with 1.
  change (length (pr_ve fmt a) + 0 <= K * n2) in H2. unfold list_sum in *. cbn [fold_right]. unfold K in *. lia.
Qed.
Lemma z_names l ns : Forall2 isz (names l) ns -> forall sep, length sep <= 8 -> length (join sep l) <= K * list_sum ns.
Proof.
  destruct l as [|a l]; [intros F sep _; cbn; lia|]. cbn [names]. intros F sep S. apply z_cons in F as (n & ns' & -> & H & F). apply z_name in H.
  revert a n ns' H F. induction l as [|b l IH]; intros a n ns' H F.
  - inversion F; subst. cbn [join list_sum fold_right]. rewrite Nat.add_0_r. lia.
  - cbn [flat_map app] in F. apply z_cons in F as (n1 & ns1 & -> & H1 & F). apply z_cons in F as (n2 & ns2 & -> & H2 & F). apply z_name in H2.
    apply z_mark in H1. change (length (L ",")) with 1 in H1. subst n1. pose proof (IH b n2 ns2 H2 F) as J.
    change (join sep (a :: b :: l)) with (a ++ sep ++ join sep (b :: l)). rewrite !app_length. unfold list_sum in *. cbn [fold_right] in J |- *. unfold K in *. lia.
Qed.
Lemma value_bound t : Forall digit t -> forall a, (value_from a t < (a + 1) * 10 ^ N.of_nat (length t))%N.
Proof.
  induction 1 as [|c t D _ IH]; intros a; cbn [value_from length]; [change (10 ^ N.of_nat 0)%N with 1%N; lia|].
  eapply N.lt_le_trans; [apply IH|]. rewrite Nat2N.inj_succ, N.pow_succ_r'. destruct D as [D1 D2]. change (N_of_ascii "0"%char) with 48%N in *. change (N_of_ascii "9"%char) with 57%N in *. nia.
Qed.
Lemma pr_N_len fuel : forall n acc k, 1 <= k -> (n < 10 ^ N.of_nat k)%N -> length (pr_N_aux fuel n acc) <= k + length acc.
Proof.
  induction fuel as [|f IH]; intros n acc k H B; cbn [pr_N_aux]; [lia|]. destruct (n / 10 =? 0)%N eqn:E; [cbn [length]; lia|].
  apply N.eqb_neq in E. destruct k as [|[|k]]; [lia| |].
  - exfalso. apply E. apply N.div_small. exact B.
  - etransitivity; [apply (IH _ _ (S k)); [lia|]|cbn [length]; lia].
    rewrite (Nat2N.inj_succ (S k)), N.pow_succ_r' in B. apply N.div_lt_upper_bound; [lia|exact B].
Qed.
Lemma z_count t n : isz (count t) n -> length (pr_N t) + 7 <= K * n.
Proof.
  intros (k & x & [[N D] E] & <-). pose proof (nonnil_len x N) as H. apply room; [|exact H]. unfold pr_N. rewrite <- (Nat.add_0_r (length x)).
  change 0 with (length (@nil ascii)) at 1. apply pr_N_len; [exact H|]. rewrite <- E. pose proof (value_bound x D 0) as V. unfold decimal. lia.
Qed.
Ltac zfacts := repeat match goal with
  | F : Forall2 isz [] ?ns |- _ => inversion F; subst ns; clear F
  | F : Forall2 isz (optional _ ?o) _ |- _ => destruct o; cbn [optional] in F
  | F : Forall2 isz (if ?b then _ else _) _ |- _ => destruct b eqn:?
  | F : Forall2 isz (commas (map ?f ?l)) ?ns |- _ => let J := fresh "J" in pose proof (z_commas f l ns F) as J; clear F
  | F : Forall2 isz (each ?f ?l) ?ns |- _ => let J := fresh "J" in pose proof (z_each f l ns F) as J; clear F
  | F : Forall2 isz (names ?l) ?ns |- _ => let J := fresh "J" in pose proof (z_names l ns F) as J; clear F
  | F : Forall2 isz (flat_map (fun a => [mark "["; _; _]) _) _ |- _ => apply z_index in F
  | F : Forall2 isz (_ ++ _) _ |- _ => apply Forall2_app_inv_l in F as (? & ? & ? & F & ->)
  | F : Forall2 isz (_ :: _) _ |- _ => apply z_cons in F as (? & ? & -> & ? & F)
  | F : isz (key _) _ |- _ => apply z_key in F
  | F : isz (keyb _) _ |- _ => apply z_keyb in F
  | F : isz (mark _) _ |- _ => apply z_mark in F
  | F : isz gap _ |- _ => apply z_gap in F
  | F : isz (in_not _) _ |- _ => clear F
  | F : isz (count _) _ |- _ => apply z_count in F
  | F : isz (name _) _ |- _ => apply z_name in F
  | F : isz (one_of _ _) _ |- _ => apply z_one in F; [|reflexivity]
  | F : isz (one_ofb _ _) _ |- _ => apply z_oneb in F; [|reflexivity]
  | F : isz (one_mark _ _) _ |- _ => apply z_omark in F; [|reflexivity]
  | F : isz (T (upload _ _)) _ |- _ => apply z_upload in F
  | F : isz (T (table_name _ _)) _ |- _ => apply z_table in F
  | F : isz (value _) _ |- _ => apply z_value in F
  | F : isz (real _) _ |- _ => apply z_real in F
  | F : isz (whole _) _ |- _ => apply z_whole in F
  | F : isz (optional_not _) _ |- _ => apply z_onot in F
  | F : isz (spaced_not _) _ |- _ => apply z_snot in F
  | F : isz (function_name _) _ |- _ => apply z_function in F
  | F : isz (Pt ?p) ?n |- _ => change (size p <= K * n) in F
  end.
Ltac lens := repeat match goal with
  | |- context [length (L ?s)] => let n := eval compute in (length (L s)) in change (length (L s)) with n
  | H : context [length (L ?s)] |- _ => let n := eval compute in (length (L s)) in change (length (L s)) with n in H
  end.
Ltac small := lens; lia.
Ltac lists := repeat match goal with
  | J : forall (g : _ -> text) sep, length sep <= 8 -> _ |- context [length (join ?sep (map ?g ?l))] =>
      let Q := fresh "Q" in pose proof (J g sep ltac:(small)) as Q; clear J; specialize (Q ltac:(intros ?; cbn [size slack StatementProofs.pr_part]; rewrite ?app_length; small))
  | J : forall (g : _ -> text) sep, length sep <= 8 -> _ |- context [length (concat (map ?g ?l))] => fail 1
  | J : forall g : _ -> text, (forall a, _) -> _ |- context [length (concat (map ?g ?l))] =>
      let Q := fresh "Q" in pose proof (J g) as Q; clear J; specialize (Q ltac:(intros ?; cbn [size slack StatementProofs.pr_part]; rewrite ?app_length; small))
  | J : forall sep, length sep <= 8 -> _ |- context [length (join ?sep ?l)] => let Q := fresh "Q" in pose proof (J sep ltac:(small)) as Q; clear J
  end.
Ltac ifs := repeat match goal with
  | E : ?b = _ |- context [if ?b then _ else _] => rewrite E
  | |- context [if ?b then _ else _] => destruct b eqn:?
  | |- context [match ?o with Some _ => _ | None => _ end] => destruct o
  end.
Lemma sum_cons x l : list_sum (x :: l) = x + list_sum l. Proof. reflexivity. Qed.
Lemma sum_nil : list_sum [] = 0. Proof. reflexivity. Qed.
Ltac fin := repeat first [rewrite list_sum_app | rewrite sum_cons | rewrite sum_nil]; rewrite ?app_length, ?length_upper, ?map_length; lists;
  cbn [length]; subst; lens; change text with (list ascii) in *; pose proof (eq_refl : K = M + 8); lia.
Lemma system_len f : length (pr_coordsys f) <= 18. Proof. destruct f; cbn; lia. Qed.
Lemma concat_join {A} (g : A -> text) sep l : length (concat (map (fun a => sep ++ g a) l)) <= length sep + length (join sep (map g l)).
Proof.
  induction l as [|a [|b l] IH]; [cbn; lia|cbn [map concat join]; rewrite app_nil_r, app_length; lia|].
  change (concat (map (fun a => sep ++ g a) (a :: b :: l))) with ((sep ++ g a) ++ concat (map (fun a => sep ++ g a) (b :: l))).
  change (join sep (map g (a :: b :: l))) with (g a ++ sep ++ join sep (map g (b :: l))). rewrite !app_length. lia.
Qed.
Lemma production_size p its ns : production mp p its -> Forall2 isz its ns -> size p <= K * list_sum ns.
Proof.
  intros P F. destruct P; zfacts; cbn [size slack StatementProofs.pr_part] in *; autorewrite with pr_eq; cbn [pr_colref pr_csae pr_coord pr_shape pr_jtype pr_sort pr_soc pr_poc] in *;
    unfold nl_sp, pr_tc, pr_vector, pr_point in *; try match goal with f : frame |- _ => pose proof (system_len f) end; try (ifs; fin; fail).
  - pose proof (concat_join (pr_coord fmt) (L ",") cs). pose proof (J (pr_coord fmt) (L ",") ltac:(small) ltac:(intros ?; lia)). fin.
  - rewrite sum_cons, sum_nil. lia.
  - match goal with H : _ (pr_ve fmt (VE_nb p)) + 0 <= _ |- _ => rewrite pr_ve_VE_nb in H end. ifs; fin.
  - cbn [length is_nil]. lia.
  - match goal with H : isz _ _, F : Forall2 isz _ _ |- _ => rename H into A; rename F into B end.
    destruct A as (k & y & (tb & -> & _ & _) & <-). unfold pr_tvf. 
    assert (Z : length (join (L ",") (map (fun a => L "'" ++ a ++ L "'") l)) <= K * list_sum x1 + 2).
    { destruct l as [|a l]; [cbn; lia|]. apply z_cons in B as (n & ns & -> & (k1 & y1 & [-> _] & E1) & B). subst n.
      revert a ns B. induction l as [|b l IH]; intros a ns B.
      - cbn [map join]. rewrite sum_cons, !app_length. lens. change text with (list ascii) in *. pose proof (Nat.le_0_l (M * length a)). unfold K. lia.
      - cbn [flat_map app] in B. apply z_cons in B as (n1 & ns1 & -> & H1' & B). apply z_cons in B as (n2 & ns2 & -> & (k2 & y2 & [-> _] & E2) & B). subst n2.
        specialize (IH b ns2 B). apply z_mark in H1'. cbn in H1'. subst n1.
        change (join (L ",") (map (fun a => L "'" ++ a ++ L "'") (a :: b :: l))) with ((L "'" ++ a ++ L "'") ++ L "," ++ join (L ",") (map (fun a => L "'" ++ a ++ L "'") (b :: l))).
        rewrite sum_cons in IH. rewrite 3 sum_cons. rewrite !app_length. lens. change text with (list ascii) in *. pose proof (Nat.le_0_l (M * length a)). unfold K in *. lia. }
    repeat first [rewrite list_sum_app | rewrite sum_cons | rewrite sum_nil]. rewrite !app_length. subst. lens. change text with (list ascii) in *.
    pose proof (Nat.le_0_l (M * length f)). pose proof (Nat.le_0_l (M * length tb)). unfold K in *. lia.
  - rewrite pr_jt_JT_p in *. rewrite sum_cons, sum_nil. lia.
  - match goal with H : isz _ _ |- _ => destruct H as (k & y & (z & -> & U) & <-) end. apply table_room in U. rewrite app_length. fin.
  - change largest_top with top_none in *.
    repeat match goal with H : _ \/ _ |- _ => destruct H end; repeat match goal with H : _ /\ _ |- _ => destruct H | H : exists _, _ |- _ => destruct H end; subst; zfacts;
      cbn [size slack StatementProofs.pr_part] in *; rewrite ?N.eqb_refl; ifs; fin.
  - apply Nat.le_0_l.
  - repeat match goal with H : _ \/ _ |- _ => destruct H end; repeat match goal with H : _ /\ _ |- _ => destruct H | H : exists _, _ |- _ => destruct H end; subst; zfacts;
      cbn [size slack StatementProofs.pr_part] in *; ifs; fin.
Qed.
Lemma spells_size k t p : spells mp k t p -> size p <= K * length t.
Proof.
  intros S. revert k t p S. apply (spells_w mp (fun _ t p => size p <= K * length t) (fun _ t its => exists ns, Forall2 isz its ns /\ list_sum ns <= length t)).
  - intros k t p its P _ (ns & F & L). etransitivity; [exact (production_size p its ns P F)|]. apply Nat.mul_le_mono_l, L.
  - intros k w _. exists []. split; [constructor|cbn; lia].
  - intros k w x t P its _ Px _ (ns & F & L). exists (length x :: ns). split; [constructor; [now exists (t ++ k), x|exact F]|]. rewrite sum_cons, !app_length. lia.
  - intros k w x t p its _ _ IHp _ (ns & F & L). exists (length x :: ns). split; [constructor; [exact IHp|exact F]|]. rewrite sum_cons, !app_length. lia.
Qed.
Lemma written_size t q : written mp t q -> length (pr_qspec fmt q) <= K * length t.
Proof. intros (u & w & -> & _ & S). apply spells_size in S. cbn [size slack StatementProofs.pr_part] in S. rewrite app_length. lia. Qed.
End Size.
