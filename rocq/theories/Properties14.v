(** C32, C38: parts of accepted queries can be put into other queries. *)
From Verif Require Import Query Print Spec SpecLexical SpecNodes SpecCanon SpecNorm SpecFine SpecUsual QueryProofs PrintEq NormProofs CanonHead Compose Properties10 Properties11.

(** The names of uploaded tables are mapped to [upload_name]s. *)
Definition good_names (tm : mapping) : Prop := forall n v, n <> [] -> lookup tm n = Some v -> upload_name v = true.
Definition stable (fmt : text -> text) : Prop := forall d, fmt (fmt d) = fmt d.

(** ** C32: the joins of accepted queries are read as they are written *)
Theorem C32_accepted_partial :
  forall tm fmt input q j, stable fmt -> good_names tm -> query tm input = Q_ok q -> In (N_jt j) (nodes_qspec q) -> forallb (usual fmt) (nodes_jt j) = true ->
  parse_it tm (L "SELECT * FROM " ++ pr_jt fmt j) = Q_ok (from_alone (TR_jt (n_jt fmt j))).
Proof.
  intros tm fmt input q j I M H J U. destruct (normal_same_all fmt I) as (_ & _ & _ & E & _). rewrite <- (proj1 (E j)).
  apply C32_read_back_partial. eapply canonical_jt; eauto.
Qed.
Print Assumptions C32_accepted_partial.
Definition ex : text -> text := fun x => x.
Lemma ex_names : good_names default_mapping.
Proof. intros [|c n] v N H; [contradiction|discriminate]. Qed.
Example C32_accepted_case : exists q j, query default_mapping (L "select * from (a left join b using (k)) natural join c") = Q_ok q /\
  In (N_jt j) (nodes_qspec q) /\ forallb (usual ex) (nodes_jt j) = true /\ pr_jt ex j = L "(a left JOIN b USING (k) ) NATURAL  JOIN c ".
Proof. eexists; eexists. split; [vm_compute; reflexivity|]. split; [right; right; right; right; right; left; reflexivity|]. split; vm_compute; reflexivity. Qed.

(** ** C38 *)
Theorem C38_united_partial :
  forall tm fmt a b op w i ad i' ad' g h o, stable fmt -> good_names tm -> In op [L "UNION"; L "UNION ALL"; L "UNION DISTINCT"] ->
  query tm a = Q_ok (QS w i ad [] None []) -> query tm b = Q_ok (QS None i' ad' g h o) ->
  forallb (usual fmt) (nodes_qspec (QS w i ad [] None [])) = true -> forallb (usual fmt) (nodes_qspec (QS None i' ad' g h o)) = true ->
  parse_it tm (to_string fmt (QS w i ad [] None []) ++ L " " ++ op ++ L " " ++ to_string fmt (QS None i' ad' g h o))
  = Q_ok (normal fmt (QS w i (ad ++ Addon op i' :: ad') g h o)).
Proof.
  intros tm fmt a b op w i ad i' ad' g h o I M O A B UA UB.
  pose proof (canonical_qspec tm fmt I M a _ A _ true (self_in _) UA (or_introl eq_refl)) as CA.
  pose proof (canonical_qspec tm fmt I M b _ B _ true (self_in _) UB (or_introl eq_refl)) as CB.
  assert (E : to_string fmt (QS w i ad [] None []) ++ L " " ++ op ++ L " " ++ to_string fmt (QS None i' ad' g h o) = to_string fmt (QS w i (ad ++ Addon op i' :: ad') g h o)).
  { assert (X : upper op = op) by (destruct O as [<-|[<-|[<-|[]]]]; reflexivity). unfold to_string. rewrite !pr_qspec_QS, map_app, concat_app. cbn [map concat is_nil app].
    rewrite pr_addon_Addon, X, !app_nil_r, <- !app_assoc. reflexivity. }
  rewrite E. apply C13_normal_form; [exact I|]. unfold canonical, normal in *. autorewrite with n_eq c_eq in *.
  repeat match goal with H : _ && _ = true |- _ => apply andb_true_iff in H as [H ?] end.
  rewrite map_app, forallb_app. cbn [map forallb]. autorewrite with n_eq c_eq.
  repeat (apply andb_true_iff; split); auto.
  destruct O as [<-|[<-|[<-|[]]]]; reflexivity.
Qed.
Print Assumptions C38_united_partial.
Example C38_united_case : exists w i ad i' ad' g h o,
  query default_mapping (L "select a from t where not b") = Q_ok (QS w i ad [] None []) /\
  query default_mapping (L "select a from u union select b from v where contains(p,q)=0 order by a") = Q_ok (QS None i' ad' g h o) /\
  forallb (usual ex) (nodes_qspec (QS w i ad [] None [])) && forallb (usual ex) (nodes_qspec (QS None i' ad' g h o)) = true /\
  to_string ex (QS w i (ad ++ Addon (L "UNION ALL") i' :: ad') g h o)
  = L "SELECT a FROM t WHERE not b UNION ALL SELECT a FROM u UNION SELECT b FROM v WHERE CONTAINS(p,q)=0 ORDER BY a".
Proof. do 8 eexists. split; [vm_compute; reflexivity|]. split; [vm_compute; reflexivity|]. split; vm_compute; reflexivity. Qed.

(** A query without a condition on geometries, as a table of another one. *)
Theorem C38_nested_partial :
  forall tm fmt input q a, stable fmt -> good_names tm -> is_name a = true -> query tm input = Q_ok q -> plain_query q = true ->
  forallb (usual fmt) (nodes_qspec q) = true ->
  parse_it tm (L "SELECT * FROM (" ++ to_string fmt q ++ L ") " ++ a) = Q_ok (from_alone (TR_dc (SQ_q (normal fmt q)) a)).
Proof.
  intros tm fmt input q a I M N H P U. pose proof (canonical_qspec tm fmt I M input q H q false (self_in _) U (or_intror P)) as C.
  assert (Z : is_nil a = false) by (destruct a; [discriminate|reflexivity]).
  assert (E : L "SELECT * FROM (" ++ to_string fmt q ++ L ") " ++ a = to_string fmt (from_alone (TR_dc (SQ_q q) a))).
  { rewrite from_text, pr_tref_TR_dc, pr_subq_SQ_q, Z. unfold to_string. change (L "SELECT * FROM (") with (L "SELECT * FROM " ++ L "("). now rewrite <- !app_assoc. }
  rewrite E. destruct (C13_normal_form tm fmt (from_alone (TR_dc (SQ_q q) a)) I) as [R _].
  - unfold canonical, normal, from_alone. autorewrite with n_eq c_eq. cbn [map forallb]. autorewrite with n_eq c_eq. unfold normal in C. now rewrite C, N.
  - rewrite R. unfold normal, from_alone. autorewrite with n_eq. cbn [map]. autorewrite with n_eq. reflexivity.
Qed.
Print Assumptions C38_nested_partial.
Example C38_nested_case : exists q, query default_mapping (L "select a from t where b in (select c from u)") = Q_ok q /\
  plain_query q && forallb (usual ex) (nodes_qspec q) = true.
Proof. eexists. split; [vm_compute; reflexivity|]. vm_compute. reflexivity. Qed.
(** A query with a condition on geometries is not accepted as a table of another one. *)
Theorem C38_nested_refuted :
  exists q, query default_mapping (L "select * from t where contains(p,q)=1") = Q_ok q /\ forallb (usual ex) (nodes_qspec q) = true /\
  exists e, parse_it default_mapping (L "SELECT * FROM (" ++ to_string ex q ++ L ") u") = Q_err e.
Proof. eexists. split; [vm_compute; reflexivity|]. split; [vm_compute; reflexivity|]. eexists. vm_compute. reflexivity. Qed.
Print Assumptions C38_nested_refuted.

(** A value, a table and two conditions of four accepted queries in a new one. *)
Definition assembled (v : ve) (t : tref) (s s' : sc) : qspec :=
  QS None (SFW (Select [] top_none (C_list [CV_ve v])) [t] (Where None (Some (SC_t (BF [] (BP_sc s)) (L "AND") (SC_f (BF [] (BP_sc s'))))))) [] [] None [].
Theorem C38_assembled_partial :
  forall tm fmt a b c d qa qb qc qd v t s s', stable fmt -> good_names tm ->
  query tm a = Q_ok qa -> In (N_ve v) (nodes_qspec qa) -> forallb (usual fmt) (nodes_ve v) = true ->
  query tm b = Q_ok qb -> In (N_tref t) (nodes_qspec qb) -> forallb (usual fmt) (nodes_tref t) = true ->
  query tm c = Q_ok qc -> In (N_sc s) (nodes_qspec qc) -> forallb (usual fmt) (nodes_sc s) = true ->
  query tm d = Q_ok qd -> In (N_sc s') (nodes_qspec qd) -> forallb (usual fmt) (nodes_sc s') = true ->
  parse_it tm (L "SELECT " ++ pr_ve fmt v ++ L " FROM " ++ pr_tref fmt t ++ L " WHERE (" ++ pr_sc fmt s ++ L ") AND (" ++ pr_sc fmt s' ++ L ")")
  = Q_ok (assembled (n_ve fmt v) (n_tref fmt t) (n_sc fmt s) (n_sc fmt s')).
Proof.
  intros tm fmt a b c d qa qb qc qd v t s s' I M A IA UA B IB UB C IC UC D ID UD.
  pose proof (canonical_ve tm fmt I M a qa A v IA UA) as CV. pose proof (canonical_tref tm fmt I M b qb B t IB UB) as CT.
  pose proof (canonical_sc tm fmt I M c qc C s IC UC) as CS. pose proof (canonical_sc tm fmt I M d qd D s' ID UD) as CS'.
  pose proof (sc_nonempty fmt _ CS) as E1. pose proof (sc_nonempty fmt _ CS') as E2. rewrite sc_empty_n in E1, E2 by exact I.
  assert (E : L "SELECT " ++ pr_ve fmt v ++ L " FROM " ++ pr_tref fmt t ++ L " WHERE (" ++ pr_sc fmt s ++ L ") AND (" ++ pr_sc fmt s' ++ L ")" = to_string fmt (assembled v t s s')).
  { unfold to_string, assembled. autorewrite with pr_eq. cbn [map join]. autorewrite with pr_eq.
    assert (Z1 : where_empty (Where None (Some (SC_t (BF [] (BP_sc s)) (L "AND") (SC_f (BF [] (BP_sc s')))))) = false) by reflexivity.
    assert (Z2 : sc_empty (SC_t (BF [] (BP_sc s)) (L "AND") (SC_f (BF [] (BP_sc s')))) = false) by reflexivity.
    assert (Z3 : sc_empty (SC_f (BF [] (BP_sc s'))) = false) by exact E2.
    rewrite Z1, Z2. autorewrite with pr_eq. rewrite ?Z2. autorewrite with pr_eq. rewrite ?Z3. autorewrite with pr_eq. cbn [is_nil nl_sp concat]. rewrite N.eqb_refl, !app_nil_r, <- !app_assoc. reflexivity. }
  rewrite E. destruct (C13_normal_form tm fmt (assembled v t s s') I) as [R _].
  - unfold canonical, normal, assembled. autorewrite with n_eq c_eq. cbn [map forallb]. autorewrite with n_eq c_eq. rewrite CV, CT, CS, CS', !pr_bprim_BP_sc. reflexivity.
  - rewrite R. unfold normal, assembled. autorewrite with n_eq. cbn [map]. autorewrite with n_eq. reflexivity.
Qed.
Print Assumptions C38_assembled_partial.
Example C38_assembled_case : exists qa qb qc qd v t s s',
  query default_mapping (L "select not a from t") = Q_ok qa /\ In (N_ve v) (nodes_qspec qa) /\
  query default_mapping (L "select * from (select a from t) u") = Q_ok qb /\ In (N_tref t) (nodes_qspec qb) /\
  query default_mapping (L "select * from t where b=1 or c") = Q_ok qc /\ In (N_sc s) (nodes_qspec qc) /\
  query default_mapping (L "select * from t where x in (1,2)") = Q_ok qd /\ In (N_sc s') (nodes_qspec qd) /\
  forallb (usual ex) (nodes_ve v) && forallb (usual ex) (nodes_tref t) && forallb (usual ex) (nodes_sc s) && forallb (usual ex) (nodes_sc s') = true /\
  to_string ex (assembled v t s s') = L "SELECT not a FROM (SELECT a FROM t) u WHERE (b = 1 OR c) AND (x IN (1, 2))".
Proof.
  do 8 eexists. split; [vm_compute; reflexivity|]. split; [apply (nth_error_In _ 5); reflexivity|].
  split; [vm_compute; reflexivity|]. split; [apply (nth_error_In _ 4); reflexivity|].
  split; [vm_compute; reflexivity|]. split; [apply (nth_error_In _ 6); reflexivity|].
  split; [vm_compute; reflexivity|]. split; [apply (nth_error_In _ 6); reflexivity|].
  split; vm_compute; reflexivity.
Qed.
