(** C52: no part of an accepted query reports itself as empty(). *)
From Verif Require Import Query Spec SpecNodes Nodes NodeProps QueryProofs EmptyParts EmptyProofs.

(** Unless an uploaded table is mapped to the empty name, empty() of a part of an accepted query is true only for a WHERE clause
    that was not written. *)
Theorem C52_not_empty :
  forall tm input q n, (forall k v, k <> [] -> lookup tm k = Some v -> v <> []) ->
  query tm input = Q_ok q -> In n (nodes_qspec q) -> node_empty n = true <-> n = N_where (Where None None).
Proof.
  intros tm input q n M H I. split; [|now intros ->]. intros E. apply query_accepted in H as (t & _ & H). pose proof (accepted_node _ _ _ _ H I) as F.
  assert (D : n = N_where (Where None None) \/ n <> N_where (Where None None)).
  { destruct n; try (right; discriminate). destruct v as [[g|] [s|]]; try (right; discriminate). now left. }
  destruct D as [D|D]; [exact D|]. rewrite (part_nz _ _ M n F D) in E. discriminate.
Qed.
Print Assumptions C52_not_empty.
Example C52_case : exists q, query default_mapping (L "select a+1 from t where exists (select * from t join u) group by a") = Q_ok q /\
  (forall k v, k <> [] -> lookup default_mapping k = Some v -> v <> []) /\ filter node_empty (nodes_qspec q) = [N_where (Where None None)].
Proof.
  eexists. split; [vm_compute; reflexivity|]. split; [|split; vm_compute; reflexivity].
  intros [|c k] v N H; [contradiction|discriminate].
Qed.
(** With such a mapping a table is empty. *)
Theorem C52_empty_name_refuted :
  exists tm input q n, query tm input = Q_ok q /\ In n (nodes_qspec q) /\ node_empty n = true /\ n <> N_where (Where None None).
Proof.
  exists [(L "e", [])], (L "select * from TAP_UPLOAD.e"). eexists. exists (N_tref (TR_tc [] [])).
  split; [vm_compute; reflexivity|]. split; [vm_compute; repeat first [left; reflexivity | right]|]. split; [reflexivity|discriminate].
Qed.
Print Assumptions C52_empty_name_refuted.
