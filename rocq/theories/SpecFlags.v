(** Other spellings of the conditions on geometries in the text of a query (properties C23 and C24). *)
From Verif Require Import Query Print Spec SpecSpelling SpecSystem.

Section Spelt.
Variable fmt : text -> text.

(** the arguments of a shape behind the coordinate system *)
Definition shape_arguments (s : shape) : text :=
  match s with
  | Sh_point _ c => pr_coord fmt c
  | Sh_circle _ c r => pr_coord fmt c ++ L "," ++ pr_csae fmt r
  | Sh_box _ c w h => pr_coord fmt c ++ L "," ++ pr_csae fmt w ++ L "," ++ pr_csae fmt h
  | Sh_ellipse _ c a b r => pr_coord fmt c ++ L "," ++ pr_csae fmt a ++ L "," ++ pr_csae fmt b ++ L "," ++ pr_csae fmt r
  | Sh_polygon _ cs => join (L ",") (map (pr_coord fmt) cs)
  end.
(** A shape, with its coordinate system in any spelling, or a column. *)
Definition operand_spelt (o : soc) (t : text) : Prop :=
  match o with
  | Soc_col c => t = pr_colref c
  | Soc_shape s => exists word w a, t = word ++ w ++ L "(" ++ a ++ shape_arguments s ++ L ")" /\
      upper word = L (shape_word s) /\ white w /\ system_argument a (shape_frame s)
  end.
Definition predicate_spelt (p : gpred) (t : text) : Prop :=
  match p with
  | GP_contains a b => exists u v, t = L "CONTAINS(" ++ u ++ L "," ++ v ++ L ")" /\ operand_spelt a u /\ operand_spelt b v
  | GP_intersects e b => exists v, t = L "INTERSECTS(" ++ pr_ve fmt e ++ L "," ++ v ++ L ")" /\ operand_spelt b v
  end.
(** The condition [p] with flag [f] is spelt [t] and recorded as [g]: the flag behind, in front, or left
    out if it is 1. *)
Inductive geometry_spelt (p : gpred) : text -> text -> geom -> Prop :=
| gs_behind u f w w' : predicate_spelt p u -> white w -> white w' -> geometry_spelt p f (u ++ w ++ L "=" ++ w' ++ f) (G_right p f)
| gs_front u f w w' : predicate_spelt p u -> white w -> white w' -> geometry_spelt p f (f ++ w ++ L "=" ++ w' ++ u) (G_left f p)
| gs_alone u : predicate_spelt p u -> geometry_spelt p (L "1") u (G_right p (L "1")).
(** The WHERE clause [w] is spelt [t] and recorded as [w']. *)
Inductive where_spelt : wherec -> text -> wherec -> Prop :=
| ws_none : where_spelt (Where None None) [] (Where None None)
| ws_condition s : where_spelt (Where None (Some s)) (L " WHERE " ++ pr_sc fmt s) (Where None (Some s))
| ws_geometry p f t g : geometry_spelt p f t g ->
    where_spelt (Where (Some (G_right p f)) None) (L " WHERE " ++ t) (Where (Some g) None)
| ws_parentheses p f t g : geometry_spelt p f t g ->
    where_spelt (Where (Some (G_right p f)) None) (L " WHERE (" ++ t ++ L ")") (Where (Some g) None)
| ws_both p f t g s : geometry_spelt p f t g ->
    where_spelt (Where (Some (G_right p f)) (Some s)) (L " WHERE " ++ t ++ L " AND " ++ pr_sc fmt s) (Where (Some g) (Some s)).
Inductive sfw_spelt : sfw -> text -> sfw -> Prop :=
| ss_sfw s ts w t w' : where_spelt w t w' ->
    sfw_spelt (SFW s ts w) (pr_select fmt s ++ L " FROM " ++ join (L ", ") (map (pr_tref fmt) ts) ++ t) (SFW s ts w').
Inductive addons_spelt : list addon -> text -> list addon -> Prop :=
| as_nil : addons_spelt [] [] []
| as_cons op s t s' l u l' : sfw_spelt s t s' -> addons_spelt l u l' ->
    addons_spelt (Addon op s :: l) (L " " ++ op ++ L " " ++ t ++ u) (Addon op s' :: l').
(** The query [q] is spelt [t] and recorded as [q']. *)
Inductive query_spelt : qspec -> text -> qspec -> Prop :=
| qs_query w i t i' ad u ad' g h o : sfw_spelt i t i' -> addons_spelt ad u ad' ->
    query_spelt (QS w i ad g h o)
      (match w with Some w => pr_with fmt w ++ L " " | None => [] end ++ t ++ u ++
       (if is_nil g then [] else L " GROUP BY " ++ join (L ",") (map (pr_gterm fmt) g)) ++
       match h with Some s => L " HAVING " ++ pr_sc fmt s | None => [] end ++
       (if is_nil o then [] else L " ORDER BY " ++ join (L ",") (map pr_sort o)))
      (QS w i' ad' g h o).
End Spelt.
