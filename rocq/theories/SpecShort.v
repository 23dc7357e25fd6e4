(** WHERE clauses in which AND and at most one character follow the last geometry (C18, C39). *)
From Verif Require Import Chars Spec SpecRewrite.

(** [kept] is [pre], WHERE, the condition [l], AND and the geometry [g], as in [last_geometry] (SpecRewrite.v); behind it stand
    AND with a blank in front ([m2]) and [s], which is empty or one character. *)
Inductive short_end (kept pre l g m2 s : text) : Prop :=
| short_end_intro w m1 f gw d :
    kept = pre ++ w ++ l ++ m1 ++ g ->
    spelt "WHERE " w -> ~ occurs_nc (L "WHERE ") pre ->
    starts_dark l -> ends_dark l -> (2 < length l)%nat -> oneline (l ++ m1 ++ g ++ m2 ++ s) ->
    and_between m1 ->
    g = f ++ gw ++ d -> flag f -> geometry_word gw -> ends_dark g ->
    ~ occurs_nc (L "AND") d -> ~ occurs_nc (L "HAVING") d ->
    ~ occurs_nc (L "GROUP") d -> ~ occurs_nc (L "ORDER") d ->
    and_between m2 -> breaks m2 -> s = [] \/ (exists c, s = [c] /\ c <> " "%char) ->
    ~ occurs_nc (L "CONTAINS") (d ++ m2 ++ s) -> ~ occurs_nc (L "INTERSECTS") (d ++ m2 ++ s) ->
    short_end kept pre l g m2 s.
(** The same with a condition [r] of at least two characters behind AND, then HAVING ([k], possibly in the middle of a word) and anything ([u]). *)
Inductive cut_end (kept pre l g m2 r k u : text) : Prop :=
| cut_end_intro w m1 f gw d :
    kept = pre ++ w ++ l ++ m1 ++ g ->
    spelt "WHERE " w -> ~ occurs_nc (L "WHERE ") pre ->
    starts_dark l -> ends_dark l -> (2 < length l)%nat -> oneline (l ++ m1 ++ g ++ m2 ++ r ++ k ++ u) ->
    and_between m1 ->
    g = f ++ gw ++ d -> flag f -> geometry_word gw -> ends_dark g ->
    ~ occurs_nc (L "AND") d -> ~ occurs_nc (L "HAVING") d ->
    ~ occurs_nc (L "GROUP") d -> ~ occurs_nc (L "ORDER") d ->
    and_between m2 -> breaks m2 -> starts_dark r -> ends_dark r -> (1 < length r)%nat ->
    ~ occurs_nc (L "HAVING") r -> ~ occurs_nc (L " GROUP") r -> ~ occurs_nc (L " ORDER") r -> spelt "HAVING" k ->
    ~ occurs_nc (L "CONTAINS") (d ++ m2 ++ r ++ k ++ u) -> ~ occurs_nc (L "INTERSECTS") (d ++ m2 ++ r ++ k ++ u) ->
    cut_end kept pre l g m2 r k u.
