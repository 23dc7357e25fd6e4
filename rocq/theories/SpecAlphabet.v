(** The bytes outside of quotes (property C54). *)
From Verif Require Import Chars Spec.

(** Letters, digits and the underscore; white space; the marks of the language. *)
Definition usable (c : ascii) : bool :=
  let n := N_of_ascii c in
  ((48 <=? n) && (n <=? 57) || (65 <=? n) && (n <=? 90) || (97 <=? n) && (n <=? 122) || (n =? 95)
   || (9 <=? n) && (n <=? 13) || (n =? 32))%N
  || existsb (Ascii.eqb c) (L "()[],.*/+-|=!<>:").
(** Reading a text from left to right: the quote that is open.  None: a byte outside of quotes that is not usable. *)
Definition see1 (s : option ascii) (c : ascii) : option (option ascii) :=
  match s with
  | Some q => Some (if Ascii.eqb c q then None else Some q)
  | None => if Ascii.eqb c "'" || Ascii.eqb c """" then Some (Some c) else if usable c then Some None else None
  end.
Fixpoint see (s : option ascii) (t : text) : option (option ascii) :=
  match t with [] => Some s | c :: t' => match see1 s c with Some s' => see s' t' | None => None end end.
(** Every byte outside of quotes is usable, and every quote is closed. *)
Definition tidy (t : text) : Prop := see None t = Some None.
(** The quote that is open behind [t], whatever the other bytes are. *)
Fixpoint quote_after (s : option ascii) (t : text) : option ascii :=
  match t with
  | [] => s
  | c :: t' =>
      quote_after (match s with
                   | Some q => if Ascii.eqb c q then None else Some q
                   | None => if Ascii.eqb c "'" || Ascii.eqb c """" then Some c else None
                   end) t'
  end.
(** Every quote of [t] is closed in [t]. *)
Definition closed (t : text) : Prop := quote_after None t = None.
