(** The repository's own test vectors (/repo/test/parse_adql.cxx) run on the model.
    This validates the model; it is not a claim about all inputs. *)
From Verif Require Import Query.

Definition tm0 : mapping := [(L "mytable", L "xyzzy"); (L "pos", L "T18cbfcb3b9100bef4036ed")].
Definition stars (t : text) : nat := length (filter (Ascii.eqb "*") t).
(** Coordinates are printed as written here; the test compares printed texts only. *)
Definition ts (q : qspec) : text := to_string (fun x => x) q.
(** parse_adql.cxx:853-884 *)
Definition pass_ok (s : string) : bool :=
  match query tm0 (L s) with
  | Q_err _ => false
  | Q_ok q =>
      Nat.eqb (stars (L s)) (stars (ts q)) &&
      match query default_mapping (ts q) with
      | Q_err _ => false
      | Q_ok q' => text_eqb (ts q') (ts q)
      end
  end.
(** parse_adql.cxx:893-910 *)
Definition fail_ok (s : string) : bool :=
  match query tm0 (L s) with Q_ok _ => false | Q_err E_fuel => false | Q_err _ => true end.
