(** Geometry::get_predicate. *)
From Verif Require Import Chars Ast.

(** Geometry.hxx:31-42 (Geometry_Predicate_Visitor) and 44-47 (get_predicate). *)
Definition get_predicate (g : geom) : gpred := match g with G_left _ p => p | G_right p _ => p end.
