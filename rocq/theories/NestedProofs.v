(** Chains of parts inside of parts (C56). *)
From Verif Require Import Query Print Spec SpecNodes SpecLexical SpecCanon SpecNested AstInd PrintEq CanonBase CanonHead FineProofs TextLemmas RewriteSound WorkProofs DepthProofs.
From Coq Require Import Lia.
Local Open Scope nat_scope.

Definition small (l : list node) : Prop := forall n, In n l -> length (parts n) <= length l.
Lemma small_nil : small []. Proof. intros n []. Qed.
Lemma small_self n l : parts n = n :: l -> small l -> small (n :: l).
Proof. intros E C x [<-|I]; [rewrite E; reflexivity|]. cbn [length]. apply C in I. lia. Qed.
Lemma small_one n : parts n = [n] -> small [n].
Proof. intros E. apply small_self; [exact E|apply small_nil]. Qed.
Lemma small_app a b : small a -> small b -> small (a ++ b).
Proof. intros A B x I. rewrite app_length. apply in_app_iff in I as [I|I]; [apply A in I|apply B in I]; lia. Qed.
Lemma small_flat {A : Set} (f : A -> list node) l : Forall (fun x => small (f x)) l -> small (flat_map f l).
Proof. induction 1; cbn [flat_map]; [apply small_nil|now apply small_app]. Qed.
Lemma small_opt {A : Set} (f : A -> list node) o : optP (fun x => small (f x)) o -> small (onodes f o).
Proof. destruct o; cbn; [auto|intros; apply small_nil]. Qed.
Lemma small_two a b : parts a = [a] -> parts b = [b] -> small [a; b].
Proof. intros A B. apply (small_app [a] [b]); now apply small_one. Qed.
Lemma small_sort o : small (map N_sort o).
Proof. induction o as [|s o IH]; [apply small_nil|]. apply (small_app [N_sort s]); [now apply small_one|exact IH]. Qed.
Lemma all_forall {A : Set} (P : A -> Prop) (l : list A) : (forall x, P x) -> Forall P l.
Proof. intros H. induction l; constructor; auto. Qed.
Lemma all_opt {A : Set} (P : A -> Prop) (o : option A) : (forall x, P x) -> optP P o.
Proof. intros H. destruct o; cbn; auto. Qed.
Notation K f := (fun v => small (f v)).
Theorem inside_small : forall n, small (tl (parts n)).
Proof.
  edestruct (ast_ind (K nodes_ve) (K nodes_venb) (K nodes_vterm) (K nodes_factor) (K nodes_nprim) (K nodes_nvf) (K nodes_vep) (K nodes_vepv) (K nodes_swhen) (K nodes_qwhen) (K nodes_result)
    (K nodes_sc) (K nodes_bfac) (K nodes_bprim) (K nodes_pred) (K nodes_intarget) (K nodes_subq) (K nodes_jt) (K nodes_qjoin) (K nodes_qjhead) (K nodes_jsuf) (K nodes_jspec) (K nodes_tref)
    (K nodes_qspec) (K nodes_with) (K nodes_addon) (K nodes_sfw) (K nodes_where) (K nodes_geom) (K nodes_gpred) (K nodes_select) (K nodes_columns) (K nodes_colv) (K nodes_gterm)).
  all: try solve [intros; autorewrite with nd_eq; first [apply small_self; [reflexivity|]|idtac]; eauto 12 using small_nil, small_one, small_two, small_app, small_flat, small_opt, small_sort].
  repeat match goal with H : _ /\ _ |- _ => destruct H as [? H] end.
  intros [v|v|v|v|v|v|v|v|v|v|v|v|v|v|v|v|v|v|v|v|v|v|v|v|v|v|v|v|v|v|v|v|v|v|v|v]; cbn [parts]; try apply small_nil; destruct v; autorewrite with nd_eq; cbn [tl];
    eauto 14 using small_nil, small_one, small_two, small_app, small_flat, small_opt, small_sort, all_forall, all_opt.
Qed.
Lemma parts_head n : parts n = n :: tl (parts n).
Proof. destruct n as [v|v|v|v|v|v|v|v|v|v|v|v|v|v|v|v|v|v|v|v|v|v|v|v|v|v|v|v|v|v|v|v|v|v|v|v]; try reflexivity; destruct v; reflexivity. Qed.
Theorem nested_bound : forall l n, nested n l -> length l < length (parts n).
Proof.
  induction l as [|m l IH]; intros n H; [rewrite parts_head; cbn; lia|]. destruct H as [I H]. apply IH in H. apply inside_small in I. rewrite (parts_head n). cbn [length]. lia.
Qed.

(** * Conditions in a row *)
Definition a_is_1 : bfac := BF [] (BP_pred (P_cmp (atom (VP_col (CR1 (L "a")))) (L "=") (VE_nb (atom (VP_str (L "1")))))).
Fixpoint flat_cond (k : nat) : sc := match k with O => SC_f a_is_1 | S k' => SC_t a_is_1 (L "AND") (flat_cond k') end.
Definition flat_text (k : nat) : text := L "SELECT * FROM t WHERE " ++ concat (repeat (L "a = 1 AND ") k) ++ L "a = 1".
Fixpoint flat_chain (k : nat) : list node := match k with O => [] | S k' => N_sc (flat_cond k') :: flat_chain k' end.
Lemma flat_length k : length (flat_text k) = 10 * k + 27.
Proof.
  unfold flat_text. rewrite !app_length. enough (E : length (concat (repeat (L "a = 1 AND ") k)) = 10 * k) by (rewrite E; cbn [length L list_ascii_of_string]; lia).
  induction k as [|k IH]; [reflexivity|]. cbn [repeat concat]. rewrite app_length, IH. cbn [length L list_ascii_of_string]. lia.
Qed.
Lemma flat_in k c : In c (flat_text k) -> In c (L "SELECT * FROM t WHERE a = 1 AND ").
Proof.
  unfold flat_text. rewrite !in_app_iff. intros [H|[H|H]]; [vm_compute in H |- *; tauto| |vm_compute in H |- *; tauto].
  induction k as [|k IH]; [destruct H|]. cbn [repeat concat] in H. apply in_app_iff in H as [H|H]; [vm_compute in H |- *; tauto|auto].
Qed.
Lemma flat_plain k : preprocess (flat_text k) = inr (flat_text k).
Proof.
  apply not_rewritten. right. split; intros O; (apply (occurs_char _ "I"%char) in O; [|vm_compute; tauto]);
    apply in_map_iff in O as (c & E & I); apply flat_in in I; vm_compute in I; repeat (destruct I as [<-|I]; [discriminate E|]); destruct I.
Qed.
Lemma flat_canonical fmt k : c_sc fmt (flat_cond k) = true.
Proof. induction k as [|k IH]; [reflexivity|]. cbn [flat_cond]. rewrite c_sc_SC_t, IH. reflexivity. Qed.
Lemma flat_cond_text fmt k : pr_sc fmt (flat_cond k) = concat (repeat (L "a = 1 AND ") k) ++ L "a = 1".
Proof.
  induction k as [|k IH]; [reflexivity|]. pose proof (flat_canonical fmt (S k)) as C. cbn [flat_cond] in *. rewrite pr_sc_t by exact C. rewrite IH. cbn [repeat concat]. rewrite <- app_assoc. reflexivity.
Qed.
Lemma flat_accepted tm k : query tm (flat_text k) = Q_ok (star_query (flat_cond k)).
Proof.
  unfold query. rewrite flat_plain. set (fmt := fun x : text => x). unfold flat_text. rewrite <- (flat_cond_text fmt), <- star_text by apply flat_canonical.
  destruct (parse_cost tm fmt 0 (flat_cond k) (flat_canonical fmt k)) as [Q _]. exact Q.
Qed.
Lemma flat_nested k : nested (N_sc (flat_cond k)) (flat_chain k).
Proof.
  induction k as [|k IH]; [exact I|]. cbn [flat_chain nested flat_cond]. split; [|exact IH]. cbn [parts nodes_sc tl]. apply in_or_app. right. destruct k; now left.
Qed.
Lemma flat_chain_length k : length (flat_chain k) = k.
Proof. induction k as [|k IH]; [reflexivity|]. cbn [flat_chain length]. now rewrite IH. Qed.
Lemma flat_inside k : nested (N_qspec (star_query (flat_cond k))) (N_sc (flat_cond k) :: flat_chain k).
Proof.
  split; [|apply flat_nested]. unfold star_query. cbn [parts nodes_qspec tl onodes app nodes_sfw nodes_where]. right. apply in_or_app. left.
  apply in_or_app. right. apply in_or_app. right. right. destruct k; now left.
Qed.
