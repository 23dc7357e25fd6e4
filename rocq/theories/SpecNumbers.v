(** The numbers, columns and sums that stand as coordinates and sizes in the parts of a query (C25). *)
From Verif Require Import Chars Ast SpecNodes.

Definition coord_numbers (c : coordinate) : list csae := match c with Coord a b => [a; b] end.
Definition shape_numbers (s : shape) : list csae :=
  match s with
  | Sh_point _ c => coord_numbers c
  | Sh_circle _ c r => coord_numbers c ++ [r]
  | Sh_box _ c w h => coord_numbers c ++ [w; h]
  | Sh_ellipse _ c a b r => coord_numbers c ++ [a; b; r]
  | Sh_polygon _ cs => flat_map coord_numbers cs
  end.
Definition node_numbers (n : node) : list csae :=
  match n with
  | N_soc (Soc_shape s) => shape_numbers s
  | N_poc (Poc_point _ c) => coord_numbers c
  | _ => []
  end.
