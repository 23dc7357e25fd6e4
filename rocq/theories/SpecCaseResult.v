(** Results of the constructor that agree up to letter case (property C12). *)
From Verif Require Import Query SpecCase.

(** The same kind of error, at the same place, with texts that agree up to letter case. *)
Definition same_error (e e' : qerr) : Prop :=
  match e, e' with
  | E_paren p, E_paren p' => p = p'
  | E_table n, E_table n' => n = n'
  | E_expect r, E_expect r' | E_select r, E_select r' | E_trailing r, E_trailing r' => respelled r r'
  | E_fuel, E_fuel => True
  | _, _ => False
  end.
(** Number formats that do not mind letter case: 1E5 and 1e5 are printed the same way up to case. *)
Definition caseless_fmt (fmt : text -> text) : Prop := forall a b, respelled a b -> respelled (fmt a) (fmt b).
Definition same_result (r r' : qres) : Prop :=
  match r, r' with
  | Q_ok q, Q_ok q' =>
      same_structure q q' /\
      forall fmt, caseless_fmt fmt -> respelled (to_string fmt q) (to_string fmt q')
  | Q_err e, Q_err e' => same_error e e'
  | _, _ => False
  end.
