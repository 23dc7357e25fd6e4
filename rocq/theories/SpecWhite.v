(** Specification of "the same text up to white space" (property C37). *)
From Verif Require Import Query Spec.

(** [t] starts with [w] in any letter case. *)
Definition starts (w : string) (t : text) : Prop := exists v r, t = v ++ r /\ upper v = L w.
(** The same behind white space. *)
Definition followed (w : string) (t : text) : Prop := exists u r, t = u ++ r /\ white u /\ starts w r.
(** [t] does not start with white space. *)
Definition dark (t : text) : Prop := match t with c :: _ => is_space c = false | [] => True end.
(** The white space in front. *)
Fixpoint lead (t : text) : text := match t with c :: t' => if is_space c then c :: lead t' else [] | [] => [] end.
Definition dq : ascii := """"%char.

(** White space that is part of a word: UNION ALL and UNION DISTINCT are one word each, and the
    first byte behind NOT is kept when IN follows.  ([i] and [j] are the two texts.) *)
Definition kept (i j : text) : Prop := forall v r r', i = v ++ r -> j = v ++ r' ->
  (upper v = L "UNION" -> followed "ALL" r \/ followed "DISTINCT" r -> lead r = lead r') /\
  (upper v = L "NOT" -> followed "IN" r -> firstn 1 r = firstn 1 r').
(** A string literal may go on behind white space or behind a comment. *)
Definition behind_string (i j : text) : Prop :=
  (followed "'" i -> lead i = lead j) /\ (followed "--" i -> i = j).

(** The texts differ in the white space between words and marks only: where one has any, the other
    has some, too.  Kept is the white space inside of quotes, inside of words and behind "nan(". *)
Inductive spaced : text -> text -> Prop :=
| sp_same t : spaced t t
| sp_char c i j : is_space c = false -> c <> "'"%char -> c <> dq ->
    ~ starts "NAN(" (c :: i) -> kept (c :: i) (c :: j) -> spaced i j -> spaced (c :: i) (c :: j)
| sp_white w w' i j : white w -> white w' -> w <> [] -> w' <> [] -> dark i -> dark j -> spaced i j -> spaced (w ++ i) (w' ++ j)
| sp_quoted q b i j : q = "'"%char \/ q = dq -> ~ In q b -> (q = "'"%char -> behind_string i j) ->
    spaced i j -> spaced (q :: b ++ q :: i) (q :: b ++ q :: j).

(** The same answer: the same structure, or a rejection of the same kind. *)
Definition same_answer (a b : qres) : Prop :=
  match a, b with
  | Q_ok q, Q_ok q' => q = q'
  | Q_err (E_trailing t), Q_err (E_trailing t') => spaced t t'
  | Q_err (E_expect _), Q_err (E_expect _) => True
  | Q_err (E_table n), Q_err (E_table n') => n = n'
  | Q_err (E_select _), Q_err (E_select _) => True
  | _, _ => False
  end.
