(** Binary_Arithmetic_Expression::evaluate and double_or_throw.

    A C++ [double] is an IEEE-754 binary64 datum; its operations are those of
    Coq.Floats.SpecFloat (round to nearest even, precision 53, emax 1024), which does not use
    the primitive floats. *)
From Coq Require Export ZArith SpecFloat.
From Verif Require Export Ast.

Definition prec : Z := 53.
Definition emax : Z := 1024.

Inductive eres : Type :=
| Ev_ok (d : spec_float)
| Ev_zero                 (* throw "Denominator must not be 0." *)
| Ev_unknown              (* throw "unknown operator." *)
| Ev_column.              (* throw "Expected a number, but got: ..." *)

(** 0.0 *)
Definition dzero : spec_float := S754_zero false.

(** Binary_Arithmetic_Expression.hxx:16-33 *)
Definition evaluate (arg0 : spec_float) (operation : ascii) (arg1 : spec_float) : eres :=
  if Ascii.eqb operation "+" then Ev_ok (SFadd prec emax arg0 arg1)
  else if Ascii.eqb operation "-" then Ev_ok (SFsub prec emax arg0 arg1)
  else if Ascii.eqb operation "*" then Ev_ok (SFmul prec emax arg0 arg1)
  else if Ascii.eqb operation "/" then
    if SFeqb arg1 dzero then Ev_zero else Ev_ok (SFdiv prec emax arg0 arg1)
  else Ev_unknown.

Section Double.
(** The value of a lexeme accepted by qi::double_ (not modelled). *)
Variable value : text -> spec_float.

(** Column_or_Simple_Arithmetic_Expression.hxx:24-34, 57-60.  The operator of the AST is a
    one-character text. *)
Definition double_or_throw (c : csae) : eres :=
  match c with
  | CS_dbl d => Ev_ok (value d)
  | CS_col _ => Ev_column
  | CS_bae a op b =>
      match op with
      | [o] => evaluate (value a) o (value b)
      | _ => Ev_unknown
      end
  end.
End Double.
