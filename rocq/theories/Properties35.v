(** C23: Geometry::get_predicate. *)
From Verif Require Import Query Print Predicate Spec SpecNodes SpecNorm SpecCanon SpecUsual SpecFlags Properties12 Properties17.

(** The geometry of a WHERE. *)
Definition geometry_of (s : sfw) : option geom := match where_of s with Where g _ => g end.
(** [get_predicate] does not see how the condition was spelt: in every spelling (SpecFlags.v: the flag in front, behind or left
    out) of a canonical query, it gives the same predicate for each of the SELECTs, and nothing where there is no geometry. *)
Theorem C23_get_predicate :
  forall tm fmt q t q', canonical fmt q = true -> query_spelt fmt q t q' ->
  exists r, parse_it tm t = Q_ok r /\
    map (fun s => option_map get_predicate (geometry_of s)) (components r) = map (fun s => option_map get_predicate (geometry_of s)) (components q).
Proof.
  intros tm fmt q t q' C S. exists q'. split; [now apply (C23_any_query tm fmt q t q')|]. clear C.
  assert (G : forall p f t g, geometry_spelt fmt p f t g -> get_predicate g = p) by (intros p f u g []; reflexivity).
  assert (W : forall s t s', sfw_spelt fmt s t s' -> option_map get_predicate (geometry_of s') = option_map get_predicate (geometry_of s)).
  { intros s u s' []. unfold geometry_of. cbn [where_of]. destruct H; cbn [option_map get_predicate]; try reflexivity; f_equal; eauto. }
  destruct S as [w i t i' ad u ad' g h o I A]. cbn [components map]. f_equal; [eauto|].
  induction A as [|op s v s' l x l' Ss A IH]; [reflexivity|]. cbn [map]. f_equal; [eauto|exact IH].
Qed.
Print Assumptions C23_get_predicate.
Example C23_get_predicate_case := C23_any_query_case.
(** Accepted queries with usual parts: the predicates of the query read from the formatted text are those of the query, up to
    the spellings inside them (SpecNorm.v), on whichever side the flag was. *)
Theorem C23_predicate_formatted_partial :
  forall tm fmt input q, (forall d, fmt (fmt d) = fmt d) -> (forall n v, n <> [] -> lookup tm n = Some v -> upload_name v = true) ->
  query tm input = Q_ok q -> forallb (usual fmt) (nodes_qspec q) = true ->
  exists r, parse_it tm (to_string fmt q) = Q_ok r /\
    map (fun s => option_map get_predicate (geometry_of s)) (components r) =
    map (fun s => option_map (fun g => n_gpred fmt (get_predicate g)) (geometry_of s)) (components q) /\
    map (fun s => option_map (fun g => pr_gpred fmt (get_predicate g)) (geometry_of s)) (components r) =
    map (fun s => option_map (fun g => pr_gpred fmt (get_predicate g)) (geometry_of s)) (components q).
Proof.
  intros tm fmt input q I M H U. destruct (C13_accepted_partial tm fmt input q I M H U) as (_ & P & _).
  exists (normal fmt q). split; [exact P|].
  assert (X : components (normal fmt q) = map (n_sfw fmt) (components q)).
  { destruct q as [w s0 ad g h o]. unfold normal. rewrite NormProofs.n_qspec_QS. cbn [components map]. f_equal. rewrite !map_map. apply map_ext. now intros [op x]. }
  assert (G : forall s, option_map get_predicate (geometry_of (n_sfw fmt s)) = option_map (fun g => n_gpred fmt (get_predicate g)) (geometry_of s)).
  { intros [s ts [[[f p|p f]|] c]]; reflexivity. }
  rewrite X, !map_map. split; [now apply map_ext|]. apply map_ext. intros s. specialize (G s). unfold geometry_of in *. destruct s as [s ts [[g|] c]]; [|reflexivity].
  cbn [n_sfw where_of n_where option_map] in *. f_equal. injection G as G. rewrite G.
  destruct (NormProofs.normal_same_all fmt I) as (V & _).
  destruct (get_predicate g) as [e x|a b]; rewrite ?NormProofs.n_gpred_GP_intersects, ?NormProofs.n_gpred_GP_contains, ?PrintEq.pr_gpred_GP_intersects, ?PrintEq.pr_gpred_GP_contains, ?NormProofs.pr_n_soc; auto.
  now rewrite (proj1 (V e)).
Qed.
Print Assumptions C23_predicate_formatted_partial.
Example C23_predicate_formatted_case : exists q,
  query default_mapping (L "select * from t where 0=contains(p,q)") = Q_ok q /\ forallb (usual (fun x => x)) (nodes_qspec q) = true /\
  map (fun s => option_map get_predicate (geometry_of s)) (components q) = [Some (GP_contains (Soc_col (CR1 (L "p"))) (Soc_col (CR1 (L "q"))))].
Proof. eexists. split; [vm_compute; reflexivity|]. split; [vm_compute; reflexivity|reflexivity]. Qed.
