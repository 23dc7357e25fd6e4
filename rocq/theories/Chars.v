(** Bytes, texts, character classes.

    Texts are [list ascii]: a C++ [std::string] is a finite sequence of bytes
    (all 256 values, including NUL).  [char] is treated as a byte; the Spirit
    ascii classifiers and the C-locale <cctype> functions are false on bytes
    above 127. *)
From Coq Require Export Ascii String List NArith Bool Arith Lia.
Export ListNotations.
Open Scope bool_scope.
Open Scope list_scope.

Definition text := list ascii.

(** A Coq string literal as a text. *)
Definition L (s : string) : text := list_ascii_of_string s.

Definition code (c : ascii) : N := N_of_ascii c.

(** boost::spirit::ascii::space / qi::space (the skipper and the look-aheads used
    all over /repo/src/Query/ADQL_parser/ADQL_parser/*.cxx): HT LF VT FF CR SP. *)
Definition is_space (c : ascii) : bool :=
  ((9 <=? code c) && (code c <=? 13) || (code c =? 32))%N.

(** qi::digit *)
Definition is_digit (c : ascii) : bool :=
  ((48 <=? code c) && (code c <=? 57))%N.

Definition is_upper (c : ascii) : bool :=
  ((65 <=? code c) && (code c <=? 90))%N.
Definition is_lower (c : ascii) : bool :=
  ((97 <=? code c) && (code c <=? 122))%N.

(** simple_Latin_letter, init_identifier.cxx:28 *)
Definition is_letter (c : ascii) : bool := is_upper c || is_lower c.

(** identifier_character, init_identifier.cxx:29 *)
Definition is_idchar (c : ascii) : bool :=
  is_digit c || is_letter c || Ascii.eqb c "_"%char.

(** Upper-case folding of one byte: std::toupper in the C locale, used by the
    printers (boost::to_upper_copy) and, up to symmetry, by ascii::no_case. *)
Definition upc (c : ascii) : ascii :=
  if is_lower c then ascii_of_N (code c - 32) else c.
Definition upper (t : text) : text := map upc t.

(** ascii::no_case comparison of a literal's character with an input character:
    Spirit compares the input with the lower- and the upper-case version of the
    literal's character. *)
Definition eq_nc (a b : ascii) : bool := Ascii.eqb (upc a) (upc b).

Definition eq_ch (nc : bool) (a b : ascii) : bool :=
  if nc then eq_nc a b else Ascii.eqb a b.

(** The skipper: drop leading white space. *)
Fixpoint skip (i : text) : text :=
  match i with
  | c :: i' => if is_space c then skip i' else i
  | [] => []
  end.

(** Match a literal at the beginning of the input; the result is the text
    matched (as spelt in the input) and the rest. *)
Fixpoint strip (nc : bool) (lit i : text) : option (text * text) :=
  match lit with
  | [] => Some ([], i)
  | a :: lit' =>
      match i with
      | [] => None
      | b :: i' =>
          if eq_ch nc a b then
            match strip nc lit' i' with
            | Some (m, r) => Some (b :: m, r)
            | None => None
            end
          else None
      end
  end.

Fixpoint span (f : ascii -> bool) (i : text) : text * text :=
  match i with
  | c :: i' => if f c then let (a, b) := span f i' in (c :: a, b) else ([], i)
  | [] => ([], [])
  end.

Fixpoint text_eqb (a b : text) : bool :=
  match a, b with
  | [], [] => true
  | x :: a', y :: b' => Ascii.eqb x y && text_eqb a' b'
  | _, _ => false
  end.

Definition is_nil {A} (l : list A) : bool :=
  match l with [] => true | _ => false end.

(** Join with a separator, as the printers do with their
    "first element, then separator and element" loops. *)
Fixpoint join (sep : text) (l : list text) : text :=
  match l with
  | [] => []
  | [x] => x
  | x :: l' => x ++ sep ++ join sep l'
  end.
