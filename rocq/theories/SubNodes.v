(** The parts of the parts of a query are parts of the query (for C13). *)
From Verif Require Import Chars Ast AstInd SpecNodes SpecSpelling SpellMain FineProofs.

Definition closed (l : list node) : Prop := forall n, In n l -> incl (nodes_part (X n)) l.
Lemma closed_nil : closed []. Proof. intros n []. Qed.
Lemma closed_self n l : nodes_part (X n) = n :: l -> closed l -> closed (n :: l).
Proof. intros E C x [<-|I]; [rewrite E; apply incl_refl|]. apply incl_tl. now apply C. Qed.
Lemma closed_one n : nodes_part (X n) = [n] -> closed [n].
Proof. intros E. apply closed_self; [exact E|apply closed_nil]. Qed.
Lemma closed_app a b : closed a -> closed b -> closed (a ++ b).
Proof. intros A B x I. apply in_app_iff in I as [I|I]; [apply incl_appl|apply incl_appr]; auto. Qed.
Lemma closed_flat {A : Set} (f : A -> list node) l : Forall (fun x => closed (f x)) l -> closed (flat_map f l).
Proof. induction 1; cbn [flat_map]; [apply closed_nil|now apply closed_app]. Qed.
Lemma closed_opt {A : Set} (f : A -> list node) o : optP (fun x => closed (f x)) o -> closed (onodes f o).
Proof. destruct o; cbn; [auto|intros; apply closed_nil]. Qed.
Lemma closed_two a b : nodes_part (X a) = [a] -> nodes_part (X b) = [b] -> closed [a; b].
Proof. intros A B. apply (closed_app [a] [b]); now apply closed_one. Qed.
Lemma closed_sort o : closed (map N_sort o).
Proof. induction o as [|s o IH]; [apply closed_nil|]. apply (closed_app [N_sort s]); [now apply closed_one|exact IH]. Qed.
Notation K f := (fun v => closed (f v)).
Theorem parts_closed : forall n, closed (nodes_part (X n)).
Proof.
  edestruct (ast_ind (K nodes_ve) (K nodes_venb) (K nodes_vterm) (K nodes_factor) (K nodes_nprim) (K nodes_nvf) (K nodes_vep) (K nodes_vepv) (K nodes_swhen) (K nodes_qwhen) (K nodes_result)
    (K nodes_sc) (K nodes_bfac) (K nodes_bprim) (K nodes_pred) (K nodes_intarget) (K nodes_subq) (K nodes_jt) (K nodes_qjoin) (K nodes_qjhead) (K nodes_jsuf) (K nodes_jspec) (K nodes_tref)
    (K nodes_qspec) (K nodes_with) (K nodes_addon) (K nodes_sfw) (K nodes_where) (K nodes_geom) (K nodes_gpred) (K nodes_select) (K nodes_columns) (K nodes_colv) (K nodes_gterm)).
  all: try solve [intros; autorewrite with nd_eq; first [apply closed_self; [reflexivity|]|idtac]; eauto 12 using closed_nil, closed_one, closed_two, closed_app, closed_flat, closed_opt, closed_sort].
  repeat match goal with H : _ /\ _ |- _ => destruct H as [? H] end. intros []; cbn [nodes_part]; auto; now apply closed_one.
Qed.
Theorem nodes_closed : forall q, closed (nodes_qspec q).
Proof. intros q. exact (parts_closed (N_qspec q)). Qed.
