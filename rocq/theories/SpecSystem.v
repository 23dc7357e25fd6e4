(** Specification of "the same text up to the spelling of coordinate systems" (property C24). *)
From Verif Require Import Query Spec SpecWhite SpecSpelling.

(** The argument that names the coordinate system, with its comma, or nothing at all for ICRS. *)
Definition system_argument (a : text) (f : frame) : Prop :=
  (a = [] /\ f = ICRS) \/ exists w st w', a = w ++ st ++ w' ++ L "," /\ white w /\ white w' /\ system_text st f.
(** The shapes whose names are reserved words (ELLIPSE is not one: ellipse('x') may be a call of a function). *)
Definition shape_names : list string := ["POINT"; "CIRCLE"; "BOX"; "POLYGON"]%string.
(** A byte behind which no new word starts. *)
Definition goes_on (c : ascii) : bool := is_idchar c || Ascii.eqb c ".".

(** The texts differ in the arguments behind names of shapes only; these are spelt differently, for
    the same frame.  ([b]: the byte in front goes on.)  Nothing is respelt inside of quotes, inside of
    longer words, in comments that belong to a string literal, and behind "nan(". *)
Inductive respelt : bool -> text -> text -> Prop :=
| rs_same b t : respelt b t t
| rs_char b c i j : c <> "'"%char -> c <> dq -> ~ starts "NAN(" (c :: i) -> respelt (goes_on c) i j -> respelt b (c :: i) (c :: j)
| rs_quoted b q t i j : q = "'"%char \/ q = dq -> ~ In q t -> (q = "'"%char -> followed "--" i -> i = j) ->
    respelt false i j -> respelt b (q :: t ++ q :: i) (q :: t ++ q :: j)
| rs_shape word w a a' f i j : In (upper word) (map L shape_names) -> white w -> system_argument a f -> system_argument a' f ->
    ~ followed "'" i -> ~ followed "'" j -> respelt false i j -> respelt false (word ++ w ++ L "(" ++ a ++ i) (word ++ w ++ L "(" ++ a' ++ j).

(** The same answer: the same structure, or a rejection of the same kind. *)
Definition like_answer (a b : qres) : Prop :=
  match a, b with
  | Q_ok q, Q_ok q' => q = q'
  | Q_err (E_trailing t), Q_err (E_trailing t') => respelt false t t'
  | Q_err (E_expect _), Q_err (E_expect _) => True
  | Q_err (E_table n), Q_err (E_table n') => n = n'
  | Q_err (E_select _), Q_err (E_select _) => True
  | _, _ => False
  end.
