(** The fragment of Boost.Spirit Qi that the grammar uses, as data ([se], [pe])
    together with an interpreter ([srun], [run]).

    This file models library behaviour (Boost.Spirit 2.x) that
    /repo/src/Query/ADQL_parser relies on:

    - ordered choice, no backtracking into a committed alternative;
    - [a > b] (expectation): failing in [a] is an ordinary failure, failing in [b]
      throws [qi::expectation_failure] carrying the iterator at that point;
    - rules declared without a skipper, [lexeme[]] and the primitive parsers
      pre-skip white space once when used in a rule with a skipper, and leave the
      iterator behind the skipped space even when they then fail;
    - sequences work on a local copy of the iterator, hence restore it on failure;
    - a [std::string] attribute is appended to in place and not rolled back when an
      optional, alternative or sequence fails, except under [hold[]];
    - [&p] and [!p] neither consume nor produce an attribute. *)
From Verif Require Export Chars.

Inductive exn : Set :=
| ExExpect (at_ : text)        (* qi::expectation_failure, with the unread text *)
| ExTable (name : text).       (* std::runtime_error of checked_mapping,
                                  init_column_reference.cxx:10 *)

(** * String-valued expressions without skipper (the "no-skipper rules for
      std::string / char" of ADQL_parser.hxx:73-103). *)
Inductive se : Type :=
| SChr (f : ascii -> bool)         (* char_(...), digit: one byte, appended *)
| SLit (nc : bool) (s : text)      (* lit(...), no_case["..."]: no attribute *)
| SStr (nc : bool) (s : text)      (* ascii::string(...): the matched text is appended *)
| SSeq (a b : se)                  (* a >> b *)
| SAlt (a b : se)                  (* a | b *)
| SStar (a : se)                   (* *a *)
| SPlus (a : se)                   (* +a *)
| SOpt (a : se)                    (* -a *)
| SHold (a : se)                   (* hold[a] *)
| SAnd (a : se)                    (* &a *)
| SNot (a : se)                    (* !a *)
| SDiff (a b : se)                 (* a - b *)
| SExp (a b : se)                  (* a > b *)
| SMap (m : text -> option text) (a : se). (* a[_val += checked_mapping(_1)] *)

Inductive sout : Set :=
| SOk (acc rest : text)
| SFail (acc : text)               (* iterator unchanged; the attribute may not be *)
| SThrow (e : exn)
| SLoop.                           (* the loop of *a would not terminate *)

(** The repetition loop of the kleene star: [body] is run until it fails.  The
    fuel is the number of iterations that can each consume a byte; a successful
    iteration that consumes nothing makes the C++ loop diverge. *)
Fixpoint sstar (body : text -> text -> sout) (n : nat) (acc i : text) : sout :=
  match body acc i with
  | SOk acc' i' =>
      match n with
      | O => SLoop
      | S n' => if (length i' <? length i)%nat then sstar body n' acc' i' else SLoop
      end
  | SFail acc' => SOk acc' i
  | SThrow e => SThrow e
  | SLoop => SLoop
  end.

Fixpoint srun (e : se) (acc i : text) : sout :=
  match e with
  | SChr f =>
      match i with
      | c :: i' => if f c then SOk (acc ++ [c]) i' else SFail acc
      | [] => SFail acc
      end
  | SLit nc s =>
      match strip nc s i with
      | Some (_, r) => SOk acc r
      | None => SFail acc
      end
  | SStr nc s =>
      match strip nc s i with
      | Some (m, r) => SOk (acc ++ m) r
      | None => SFail acc
      end
  | SSeq a b =>
      match srun a acc i with
      | SOk acc' i' => srun b acc' i'
      | o => o
      end
  | SAlt a b =>
      match srun a acc i with
      | SFail acc' => srun b acc' i
      | o => o
      end
  | SStar a => sstar (srun a) (length i) acc i
  | SPlus a =>
      match srun a acc i with
      | SOk acc' i' => sstar (srun a) (length i') acc' i'
      | o => o
      end
  | SOpt a =>
      match srun a acc i with
      | SFail acc' => SOk acc' i
      | o => o
      end
  | SHold a =>
      match srun a acc i with
      | SFail _ => SFail acc
      | o => o
      end
  | SAnd a =>
      match srun a [] i with
      | SOk _ _ => SOk acc i
      | SFail _ => SFail acc
      | o => o
      end
  | SNot a =>
      match srun a [] i with
      | SOk _ _ => SFail acc
      | SFail _ => SOk acc i
      | o => o
      end
  | SDiff a b =>
      match srun b [] i with
      | SOk _ _ => SFail acc
      | SFail _ => srun a acc i
      | o => o
      end
  | SExp a b =>
      match srun a acc i with
      | SOk acc' i' =>
          match srun b acc' i' with
          | SFail _ => SThrow (ExExpect i')
          | o => o
          end
      | o => o
      end
  | SMap m a =>
      match srun a [] i with
      | SOk s i' =>
          match m s with
          | Some t => SOk (acc ++ t) i'
          | None => SThrow (ExTable s)
          end
      | SFail _ => SFail acc
      | o => o
      end
  end.

(** * Typed expressions in a rule with skipper. *)
Inductive out (A : Set) : Set :=
| Ok (v : A) (rest : text)
| Fail (rest : text)               (* ordinary failure, with the iterator left behind *)
| Throw (e : exn)
| OOF.                             (* the interpreter's fuel is exhausted *)
Arguments Ok {A}. Arguments Fail {A}. Arguments Throw {A}. Arguments OOF {A}.

(** qi::double_ (real_parser with the default policies): the lexeme recognised.
    Simplified: exponents of any size are accepted and the legacy "1.#INF"
    notation is not. *)
Definition dbl_exp (i : text) : text * text :=
  match i with
  | c :: i1 =>
      if Ascii.eqb c "e" || Ascii.eqb c "E" then
        let (sg, i2) := match i1 with
                        | s :: i' => if Ascii.eqb s "+" || Ascii.eqb s "-" then ([s], i') else ([], i1)
                        | [] => ([], i1)
                        end in
        let (ds, i3) := span is_digit i2 in
        if is_nil ds then ([], i) else (c :: sg ++ ds, i3)
      else ([], i)
  | [] => ([], i)
  end.

Definition dbl_unsigned (i : text) : option (text * text) :=
  let (ds, i1) := span is_digit i in
  let special :=
    match strip true (L "nan") i with
    | Some (m, "("%char :: r) =>
        let (body, r') := span (fun c => negb (Ascii.eqb c ")")) r in
        match r' with
        | _ :: r'' => Some (m ++ "("%char :: body ++ [")"%char], r'')
        | [] => None
        end
    | Some (m, r) => Some (m, r)
    | None =>
        match strip true (L "inf") i with
        | Some (m, r) =>
            match strip true (L "inity") r with
            | Some (m', r') => Some (m ++ m', r')
            | None => Some (m, r)
            end
        | None => None
        end
    end in
  match (if is_nil ds then special else None) with
  | Some x => Some x
  | None =>
      match i1 with
      | "."%char :: i2 =>
          let (fs, i3) := span is_digit i2 in
          if is_nil ds && is_nil fs then None
          else let (ex, i4) := dbl_exp i3 in Some (ds ++ "."%char :: fs ++ ex, i4)
      | _ =>
          if is_nil ds then None
          else let (ex, i4) := dbl_exp i1 in Some (ds ++ ex, i4)
      end
  end.

Definition dbl (i : text) : option (text * text) :=
  match i with
  | c :: i' =>
      if Ascii.eqb c "+" || Ascii.eqb c "-" then
        match dbl_unsigned i' with
        | Some (m, r) => Some (c :: m, r)
        | None => None
        end
      else dbl_unsigned i
  | [] => None
  end.

(** Decimal value of a digit string. *)
Definition dec_value (ds : text) : N :=
  fold_left (fun a c => a * 10 + (code c - 48))%N ds 0%N.

(** std::numeric_limits<unsigned long long>::max() + 1 *)
Definition ull_mod : N := (2 ^ 64)%N.

(** qi::ulong_long: decimal digits, failing on overflow. *)
Definition ulong (i : text) : option (N * text) :=
  let (ds, r) := span is_digit i in
  if is_nil ds then None
  else if (dec_value ds <? ull_mod)%N then Some (dec_value ds, r) else None.

Section Pe.

Variable rule : Set.
Variable attr : rule -> Set.

Inductive pe : Set -> Type :=
| PLit (nc : bool) (s : text) : pe unit          (* lit / no_case[""] with skipper *)
| PLex (e : se) : pe text                        (* no-skipper rule or lexeme[], fresh attribute *)
| POptLex (e : se) : pe text                     (* the same under unary minus, with a std::string
                                                    attribute: not rolled back on failure *)
| PSpace : pe unit                               (* &no_skip[space] *)
| PDbl : pe text                                 (* double_, as its lexeme *)
| PTop : pe N                                    (* lexeme[ulong_long > &space] *)
| PRet {A : Set} (v : A) : pe A                  (* attr(v) *)
| PSeq {A B : Set} (a : pe A) (b : pe B) : pe (A * B)
| PExp {A B : Set} (a : pe A) (b : pe B) : pe (A * B)
| PAlt {A : Set} (a b : pe A) : pe A
| POpt {A : Set} (a : pe A) : pe (option A)
| PStar {A : Set} (a : pe A) : pe (list A)
| PPlus {A : Set} (a : pe A) : pe (list A)
| PList {A : Set} (a : pe A) (s : pe unit) : pe (list A)
| PMap {A B : Set} (f : A -> B) (a : pe A) : pe B
| PRule (r : rule) : pe (attr r).

(** [*a]: run until it fails; the iterator stays where the last, failing, attempt
    left it. *)
Fixpoint pstar {A : Set} (body : text -> out A) (n : nat) (i : text) : out (list A) :=
  match body i with
  | Ok v i' =>
      match n with
      | O => OOF
      | S n' =>
          match pstar body n' i' with
          | Ok vs r => Ok (v :: vs) r
          | Fail r => Fail r
          | Throw e => Throw e
          | OOF => OOF
          end
      end
  | Fail r => Ok [] r
  | Throw e => Throw e
  | OOF => OOF
  end.

(** The tail [(s a)*] of [a % s]; the iterator is restored to the end of the last
    element. *)
Fixpoint plist {A : Set} (body : text -> out A) (sep : text -> out unit) (n : nat) (i : text)
  : out (list A) :=
  match sep i with
  | Ok _ i1 =>
      match body i1 with
      | Ok v i2 =>
          match n with
          | O => OOF
          | S n' =>
              match plist body sep n' i2 with
              | Ok vs r => Ok (v :: vs) r
              | Fail r => Fail r
              | Throw e => Throw e
              | OOF => OOF
              end
          end
      | Fail _ => Ok [] i
      | Throw e => Throw e
      | OOF => OOF
      end
  | Fail _ => Ok [] i
  | Throw e => Throw e
  | OOF => OOF
  end.

Definition lex (e : se) (i : text) : out text :=
  match srun e [] (skip i) with
  | SOk v r => Ok v r
  | SFail _ => Fail (skip i)
  | SThrow x => Throw x
  | SLoop => OOF
  end.

Variable body : forall r, pe (attr r).

(** [run n e i]: [n] bounds the nesting of rule calls.  Inside one expression the
    recursion is structural; repetitions are bounded by the length of the input
    (an iteration that consumes nothing ends in [OOF]; [Props] show it does not
    happen for the grammar). *)
Fixpoint run (n : nat) : forall A : Set, pe A -> text -> out A :=
  fix go (A : Set) (e : pe A) (i : text) {struct e} : out A :=
    match e in pe A return out A with
    | PLit nc s =>
        match strip nc s (skip i) with
        | Some (_, r) => Ok tt r
        | None => Fail (skip i)
        end
    | PLex e => lex e i
    | POptLex e =>
        match srun e [] (skip i) with
        | SOk v r => Ok v r
        | SFail v => Ok v (skip i)
        | SThrow x => Throw x
        | SLoop => OOF
        end
    | PSpace =>
        match i with
        | c :: _ => if is_space c then Ok tt i else Fail i
        | [] => Fail i
        end
    | PDbl =>
        match dbl (skip i) with
        | Some (m, r) => Ok m r
        | None => Fail (skip i)
        end
    | PTop =>
        match ulong (skip i) with
        | Some (v, r) =>
            match r with
            | c :: _ => if is_space c then Ok v r else Throw (ExExpect r)
            | [] => Throw (ExExpect r)
            end
        | None => Fail (skip i)
        end
    | PRet v => Ok v i
    | PSeq a b =>
        match go _ a i with
        | Ok va i1 =>
            match go _ b i1 with
            | Ok vb i2 => Ok (va, vb) i2
            | Fail _ => Fail i
            | Throw x => Throw x
            | OOF => OOF
            end
        | Fail _ => Fail i
        | Throw x => Throw x
        | OOF => OOF
        end
    | PExp a b =>
        match go _ a i with
        | Ok va i1 =>
            match go _ b i1 with
            | Ok vb i2 => Ok (va, vb) i2
            | Fail r => Throw (ExExpect r)
            | Throw x => Throw x
            | OOF => OOF
            end
        | Fail _ => Fail i
        | Throw x => Throw x
        | OOF => OOF
        end
    | PAlt a b =>
        match go _ a i with
        | Fail r => go _ b r
        | o => o
        end
    | POpt a =>
        match go _ a i with
        | Ok v r => Ok (Some v) r
        | Fail r => Ok None r
        | Throw x => Throw x
        | OOF => OOF
        end
    | PStar a => pstar (go _ a) (length i) i
    | PPlus a =>
        match go _ a i with
        | Ok v i1 =>
            match pstar (go _ a) (length i1) i1 with
            | Ok vs r => Ok (v :: vs) r
            | Fail r => Fail r
            | Throw x => Throw x
            | OOF => OOF
            end
        | Fail _ => Fail i
        | Throw x => Throw x
        | OOF => OOF
        end
    | PList a s =>
        match go _ a i with
        | Ok v i1 =>
            match plist (go _ a) (go _ s) (length i1) i1 with
            | Ok vs r => Ok (v :: vs) r
            | Fail r => Fail r
            | Throw x => Throw x
            | OOF => OOF
            end
        | Fail _ => Fail i
        | Throw x => Throw x
        | OOF => OOF
        end
    | PMap f a =>
        match go _ a i with
        | Ok v r => Ok (f v) r
        | Fail r => Fail r
        | Throw x => Throw x
        | OOF => OOF
        end
    | PRule r =>
        match n with
        | O => OOF
        | S n' => run n' _ (body r) i
        end
    end.

End Pe.

Arguments PLit {rule attr}. Arguments PLex {rule attr}. Arguments POptLex {rule attr}.
Arguments PSpace {rule attr}. Arguments PDbl {rule attr}. Arguments PTop {rule attr}.
Arguments PRet {rule attr A}. Arguments PSeq {rule attr A B}. Arguments PExp {rule attr A B}.
Arguments PAlt {rule attr A}. Arguments POpt {rule attr A}. Arguments PStar {rule attr A}.
Arguments PPlus {rule attr A}. Arguments PList {rule attr A}. Arguments PMap {rule attr A B}.
Arguments PRule {rule attr}.
Arguments run {rule attr}. Arguments pstar {A}. Arguments plist {A}.
