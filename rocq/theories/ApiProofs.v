(** Writing through the accessors (C44). *)
From Verif Require Import Query Spec Print SpecCanon SpecNorm PrintEq AccessProofs Api.
From Verif Require NormProofs.

Lemma put_split {A} (f : A -> A) l : forall i x, nth_error l i = Some x -> exists a b, length a = i /\ l = a ++ x :: b /\ put f l i = a ++ f x :: b.
Proof.
  induction l as [|y l IH]; intros [|i] x H; cbn [nth_error] in H; try discriminate.
  - injection H as ->. now exists [], l.
  - destruct (IH i x H) as (a & b & <- & -> & E). exists (y :: a), b. split; [reflexivity|]. split; [reflexivity|].
    change (put f (y :: a ++ x :: b) (S (length a))) with (y :: put f (a ++ x :: b) (length a)). now rewrite E.
Qed.
Definition on_select (f : select -> select) (s : sfw) : sfw := match s with SFW s ts w => SFW (f s) ts w end.
Definition on_addon (f : sfw -> sfw) (a : addon) : addon := match a with Addon op s => Addon op (f s) end.

Section Write.
Variable q : qspec.
Hypothesis Hne : tables_of (q_initial q) <> [].
Hypothesis Hc : countable_query q.

(** the query that is left behind, component by component *)
Lemma write_split i s f : nth_error (components q) i = Some s ->
  exists q' a b, write_sfw q (N.of_nat i) f = A_ok q' /\ length a = i /\ components q = a ++ s :: b /\ components q' = a ++ f s :: b /\
    operators q' = operators q /\ q_with q' = q_with q /\ q_group q' = q_group q /\ q_having q' = q_having q /\ q_order q' = q_order q.
Proof.
  intros H. assert (Hi : i < length (components q)) by (apply nth_error_Some; congruence).
  pose proof (validate_in q Hne Hc i Hi) as V. destruct q as [w s0 ad g h o]. unfold write_sfw. destruct i as [|i].
  - injection H as <-. eexists. exists [], (map addon_sfw ad). repeat (split; [reflexivity|]). reflexivity.
  - replace (N.of_nat (S i) =? 0)%N with false by (symmetry; apply N.eqb_neq; lia). rewrite V. cbn [abind].
    replace (N.to_nat (N.of_nat (S i) - 1)) with i by lia. unfold at_. replace (N.to_nat (N.of_nat (S i) - 1)) with i by lia.
    cbn [components nth_error] in H. rewrite nth_error_map in H. destruct (nth_error ad i) as [[op x]|] eqn:E; [|discriminate]. injection H as ->.
    cbn [abind]. destruct (put_split (on_addon f) ad i _ E) as (a & b & La & -> & P). fold (on_addon f). rewrite P. cbn [on_addon].
    eexists. exists (s0 :: map addon_sfw a), (map addon_sfw b). split; [reflexivity|]. split; [cbn; now rewrite map_length, La|].
    cbn [components operators q_with q_group q_having q_order]. unfold addon_sfw. rewrite !map_app. cbn [map]. now repeat split.
Qed.
Lemma write_select_in i f : i < length (components q) -> write_select q (N.of_nat i) f = write_sfw q (N.of_nat i) (on_select f).
Proof. intros H. unfold write_select. now rewrite (validate_in q Hne Hc i H). Qed.
Lemma write_select_out i f : length (components q) <= i -> write_select q (N.of_nat i) f = A_throw.
Proof. intros H. unfold write_select. now rewrite (validate_out q Hne Hc i H). Qed.
End Write.

Section Text.
Variable fmt : text -> text.
Lemma pr_addons_split op s ad1 ad2 : concat (map (pr_addon fmt) (ad1 ++ Addon op s :: ad2)) =
  concat (map (pr_addon fmt) ad1) ++ L " " ++ upper op ++ L " " ++ pr_sfw fmt s ++ concat (map (pr_addon fmt) ad2).
Proof. rewrite map_app, concat_app. cbn [map concat]. rewrite pr_addon_Addon, <- !app_assoc. reflexivity. Qed.
(** the written texts differ in the text of the component only *)
Lemma write_text q i s f q' : nth_error (components q) i = Some s -> write_sfw q (N.of_nat i) f = A_ok q' ->
  exists a b, to_string fmt q = a ++ pr_sfw fmt s ++ b /\ to_string fmt q' = a ++ pr_sfw fmt (f s) ++ b.
Proof.
  intros H W. destruct q as [w s0 ad g h o]. unfold write_sfw in W. destruct i as [|i].
  - injection H as <-. injection W as <-. unfold to_string. rewrite !pr_qspec_QS. match goal with |- exists x y, ?W ++ _ ++ ?G = _ /\ _ => exists W, G; generalize W G end. intros W G. split; reflexivity.
  - replace (N.of_nat (S i) =? 0)%N with false in W by (symmetry; apply N.eqb_neq; lia).
    destruct (validate_sfw_index _ _) in W; try discriminate. cbn [abind] in W.
    unfold at_ in W. replace (N.to_nat (N.of_nat (S i) - 1)) with i in W by lia.
    cbn [components nth_error] in H. rewrite nth_error_map in H. destruct (nth_error ad i) as [[op x]|] eqn:E; [|discriminate]. injection H as ->.
    cbn [abind] in W. destruct (put_split (on_addon f) ad i _ E) as (a & b & La & -> & P). fold (on_addon f) in W. rewrite P in W. cbn [on_addon] in W. injection W as <-.
    unfold to_string. rewrite !pr_qspec_QS, !pr_addons_split.
    match goal with |- exists x y, ?W ++ _ ++ _ ++ ?G = _ /\ _ =>
      exists (W ++ pr_sfw fmt s0 ++ concat (map (pr_addon fmt) a) ++ L " " ++ upper op ++ L " "), (concat (map (pr_addon fmt) b) ++ G); generalize W G end.
    intros W G. rewrite <- !app_assoc. split; reflexivity.
Qed.
(** canonical queries stay canonical *)
Lemma write_canonical q i s f q' : canonical fmt q = true -> nth_error (components q) i = Some s -> c_sfw fmt true (f s) = true ->
  write_sfw q (N.of_nat i) f = A_ok q' -> canonical fmt q' = true.
Proof.
  intros C H Cf W. destruct q as [w s0 ad g h o]. unfold canonical in *. unfold write_sfw in W. destruct i as [|i].
  - injection H as <-. injection W as <-. rewrite c_qspec_QS in C |- *. rewrite !andb_true_iff in C |- *. tauto.
  - replace (N.of_nat (S i) =? 0)%N with false in W by (symmetry; apply N.eqb_neq; lia).
    destruct (validate_sfw_index _ _) in W; try discriminate. cbn [abind] in W.
    unfold at_ in W. replace (N.to_nat (N.of_nat (S i) - 1)) with i in W by lia.
    cbn [components nth_error] in H. rewrite nth_error_map in H. destruct (nth_error ad i) as [[op x]|] eqn:E; [|discriminate]. injection H as ->.
    cbn [abind] in W. destruct (put_split (on_addon f) ad i _ E) as (a & b & La & -> & P). fold (on_addon f) in W. rewrite P in W. cbn [on_addon] in W. injection W as <-.
    rewrite c_qspec_QS in C |- *. rewrite forallb_app in C |- *. cbn [forallb] in C |- *. rewrite c_addon_Addon in C |- *. rewrite !andb_true_iff in C |- *. tauto.
Qed.
Lemma canonical_component q : canonical fmt q = true -> forall s, In s (components q) -> c_sfw fmt true s = true.
Proof.
  intros C s I. destruct q as [w s0 ad g h o]. unfold canonical in C. rewrite c_qspec_QS, !andb_true_iff in C. destruct C as (((((_ & C0) & Ca) & _) & _) & _).
  cbn [components] in I. destruct I as [<-|I]; [exact C0|]. apply in_map_iff in I as ([op x] & <- & I). rewrite forallb_forall in Ca. apply Ca in I.
  rewrite c_addon_Addon, andb_true_iff in I. apply I.
Qed.
Lemma write_normal q i s f q' : canonical fmt (normal fmt q) = true -> nth_error (components q) i = Some s -> c_sfw fmt true (n_sfw fmt (f s)) = true ->
  write_sfw q (N.of_nat i) f = A_ok q' -> canonical fmt (normal fmt q') = true.
Proof.
  intros C H Cf W. destruct q as [w s0 ad g h o]. unfold canonical in *. unfold write_sfw in W. destruct i as [|i].
  - injection H as <-. injection W as <-. unfold normal in *. rewrite NormProofs.n_qspec_QS, c_qspec_QS in C |- *. rewrite !andb_true_iff in C |- *. tauto.
  - replace (N.of_nat (S i) =? 0)%N with false in W by (symmetry; apply N.eqb_neq; lia).
    destruct (validate_sfw_index _ _) in W; try discriminate. cbn [abind] in W.
    unfold at_ in W. replace (N.to_nat (N.of_nat (S i) - 1)) with i in W by lia.
    cbn [components nth_error] in H. rewrite nth_error_map in H. destruct (nth_error ad i) as [[op x]|] eqn:E; [|discriminate]. injection H as ->.
    cbn [abind] in W. destruct (put_split (on_addon f) ad i _ E) as (a & b & La & -> & P). fold (on_addon f) in W. rewrite P in W. cbn [on_addon] in W. injection W as <-.
    unfold normal in *. rewrite NormProofs.n_qspec_QS, c_qspec_QS in C |- *. rewrite map_app, forallb_app in C |- *. cbn [map forallb] in C |- *. rewrite NormProofs.n_addon_Addon, c_addon_Addon in C |- *. rewrite !andb_true_iff in C |- *. tauto.
Qed.
Lemma normal_component q : canonical fmt (normal fmt q) = true -> forall s, In s (components q) -> c_sfw fmt true (n_sfw fmt s) = true.
Proof.
  intros C s I. apply (canonical_component _ C). destruct q as [w s0 ad g h o]. unfold normal. rewrite NormProofs.n_qspec_QS. cbn [components] in *.
  destruct I as [<-|I]; [now left|]. right. apply in_map_iff in I as ([op x] & <- & I). rewrite map_map. apply in_map_iff. exists (Addon op x). split; [now rewrite NormProofs.n_addon_Addon|exact I].
Qed.
Lemma top_ok n s : c_sfw fmt true s = true -> (n <= top_none)%N -> c_sfw fmt true (on_select (set_top n) s) = true.
Proof.
  intros C H. destruct s as [[q t c] ts w]. cbn [on_select set_top]. rewrite c_sfw_SFW, c_select_Select in C |- *. apply N.leb_le in H. rewrite !andb_true_iff in C |- *. rewrite H. tauto.
Qed.
Lemma n_top n s : n_sfw fmt (on_select (set_top n) s) = on_select (set_top n) (n_sfw fmt s).
Proof. now destruct s as [[q t c] ts w]. Qed.
End Text.
