(** White space behind a text (property C04): the words behind which it is looked for. *)
From Verif Require Import Chars Spec.

Definition end_words : list string :=
  ["NOT"; "LIKE"; "AND"; "OR"; "AS"; "LEFT"; "RIGHT"; "FULL"; "OUTER"; "INNER"; "ON"; "USING"; "NATURAL"; "JOIN"; "WHERE"; "TOP"; "UNION";
   "DISTINCT"; "ALL"; "ACOS"; "ASIN"; "ATAN"; "COS"; "COT"; "SIN"; "TAN"; "ATAN2"; "COORD1"; "COORD2"; "DISTANCE"; "CASE"; "WHEN"; "THEN"; "ELSE"]%string.
(** Words behind which the next one may start at once. *)
Definition glued_words : list string :=
  ["TRUE"; "FALSE"; "AVG"; "MAX"; "MIN"; "SUM"; "COUNT"; "NULL"; "NULL::char"; "NULL::int"; "NULL::float"; "RIGHT"; "LEFT";
   "UPPER"; "LOWER"; "DISTINCT"; "TRIM"; "CURRENT_TIMESTAMP"; "NUMERIC"; "INTEGER"; "BIGINT"; "VARCHAR"; "CHAR"; "TEXT"; "PI";
   "RAND"; "ABS"; "CEILING"; "DEGREES"; "EXP"; "FLOOR"; "LOG"; "RADIANS"; "SQRT"; "ROUND"; "TRUNCATE"; "MOD"; "POWER"; "ASC";
   "DESC"; "AND"; "ANY"; "ARRAY"; "AS"; "CASE"; "CAST"; "COALESCE"; "CONTAINS"; "ELSE"; "END"; "INTERSECTS"; "NULLIF"; "THEN";
   "WHEN"; "GALACTIC"; "GEOCENTER"; "ICRS"; "POINT"; "CIRCLE"; "ELLIPSE"; "BOX"; "POLYGON"; "NAN"; "INF"; "INFINITY"]%string.
(** A word may start behind [a]: behind a byte that belongs to no name, behind a digit (which may end a
    number), or behind a word of the second list. *)
Inductive bound : text -> Prop :=
| bound_start : bound []
| bound_mark a c : is_idchar c = false \/ is_digit c = true -> bound (a ++ [c])
| bound_word a v w : bound a -> In w glued_words -> upper v = upper (L w) -> bound (a ++ v).
(** The text ends with a word of the first list, in any letter case, at a place where a word may start. *)
Definition open_end (t : text) : Prop := exists w a v, In w end_words /\ t = a ++ v /\ bound a /\ upper v = L w.
