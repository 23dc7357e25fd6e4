(** Parts inside of parts (C56): what is on the stack at the same time while a query is written (every operator<< calls those
    of the parts inside) or destroyed. *)
From Verif Require Import Chars Ast SpecNodes.

(** A part and all the parts inside of it. *)
Definition parts (n : node) : list node :=
  match n with
  | N_ve v => nodes_ve v | N_venb v => nodes_venb v | N_vterm v => nodes_vterm v | N_factor v => nodes_factor v
  | N_nprim v => nodes_nprim v | N_nvf v => nodes_nvf v | N_vep v => nodes_vep v | N_vepv v => nodes_vepv v
  | N_swhen v => nodes_swhen v | N_qwhen v => nodes_qwhen v | N_result v => nodes_result v | N_sc v => nodes_sc v
  | N_bfac v => nodes_bfac v | N_bprim v => nodes_bprim v | N_pred v => nodes_pred v | N_intarget v => nodes_intarget v
  | N_subq v => nodes_subq v | N_jt v => nodes_jt v | N_qjhead v => nodes_qjhead v | N_jsuf v => nodes_jsuf v
  | N_jspec v => nodes_jspec v | N_tref v => nodes_tref v | N_qspec v => nodes_qspec v | N_with v => nodes_with v
  | N_addon v => nodes_addon v | N_sfw v => nodes_sfw v | N_where v => nodes_where v | N_geom v => nodes_geom v
  | N_gpred v => nodes_gpred v | N_select v => nodes_select v | N_columns v => nodes_columns v | N_colv v => nodes_colv v
  | N_gterm v => nodes_gterm v | N_sort _ | N_soc _ | N_poc _ => [n]
  end.
(** [l]: a part inside of [n], a part inside of that part, and so on. *)
Fixpoint nested (n : node) (l : list node) : Prop :=
  match l with [] => True | m :: l' => In m (tl (parts n)) /\ nested m l' end.
