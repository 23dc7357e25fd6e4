(** Brackets and quotes (property C41). *)
From Verif Require Import Chars Spec.

(** Reading a text from left to right: the quote that is open, and the brackets that are open, the last
    one first.  None: a bracket is closed that is not the last one opened. *)
Definition state : Set := (option ascii * list ascii)%type.
Definition read1 (s : state) (c : ascii) : option state :=
  match s with
  | (Some q, st) => Some (if Ascii.eqb c q then None else Some q, st)
  | (None, st) =>
      if Ascii.eqb c "'" || Ascii.eqb c """" then Some (Some c, st)
      else if Ascii.eqb c "(" || Ascii.eqb c "[" then Some (None, c :: st)
      else if Ascii.eqb c ")" then match st with b :: st' => if Ascii.eqb b "(" then Some (None, st') else None | [] => None end
      else if Ascii.eqb c "]" then match st with b :: st' => if Ascii.eqb b "[" then Some (None, st') else None | [] => None end
      else Some s
  end.
Fixpoint scan (s : state) (t : text) : option state :=
  match t with [] => Some s | c :: t' => match read1 s c with Some s' => scan s' t' | None => None end end.
(** Every bracket outside of quotes has its partner, and every quote is closed. *)
Definition bracketed (t : text) : Prop := scan (None, []) t = Some (None, []).
