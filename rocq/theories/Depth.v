(** How deep the rules are nested that the interpreter enters: [nesting n e i] is the largest number of rules that are
    open at the same time in [run n e i] (Peg.v).  In /repo an open rule (ADQL_parser.hxx:106-265) is at least one stack frame.
    Simplified as in Work.v: rules that are inlined in Grammar.v are not counted. *)
From Verif Require Import Query.

Section Nesting.
Variable rule : Set.
Variable attr : rule -> Set.
Variable body : forall r, pe rule attr (attr r).

Fixpoint nesting_star {A : Set} (b : text -> out A) (c : text -> nat) (n : nat) (i : text) : nat :=
  Nat.max (c i) (match b i with Ok _ i' => match n with O => 0 | S n' => nesting_star b c n' i' end | _ => 0 end).
Fixpoint nesting_list {A : Set} (b : text -> out A) (c : text -> nat) (s : text -> out unit) (cs : text -> nat) (n : nat) (i : text) : nat :=
  Nat.max (cs i) (match s i with
    | Ok _ i1 => Nat.max (c i1) (match b i1 with Ok _ i2 => match n with O => 0 | S n' => nesting_list b c s cs n' i2 end | _ => 0 end)
    | _ => 0
    end).

Fixpoint nesting (n : nat) : forall A : Set, pe rule attr A -> text -> nat :=
  fix go (A : Set) (e : pe rule attr A) (i : text) {struct e} : nat :=
    match e with
    | PLit _ _ | PLex _ | POptLex _ | PSpace | PDbl | PTop | PRet _ => 0
    | PSeq a b | PExp a b => Nat.max (go _ a i) (match run body n _ a i with Ok _ i1 => go _ b i1 | _ => 0 end)
    | PAlt a b => Nat.max (go _ a i) (match run body n _ a i with Fail r => go _ b r | _ => 0 end)
    | POpt a => go _ a i
    | PStar a => nesting_star (run body n _ a) (go _ a) (length i) i
    | PPlus a => Nat.max (go _ a i) (match run body n _ a i with Ok _ i1 => nesting_star (run body n _ a) (go _ a) (length i1) i1 | _ => 0 end)
    | PList a s => Nat.max (go _ a i) (match run body n _ a i with
                                       | Ok _ i1 => nesting_list (run body n _ a) (go _ a) (run body n _ s) (go _ s) (length i1) i1
                                       | _ => 0
                                       end)
    | PMap _ a => go _ a i
    | PRule r => match n with O => 0 | S n' => S (nesting n' _ (body r) i) end
    end.
End Nesting.
Arguments nesting {rule attr}.

(** The rules that phrase_parse has open in ADQL::Query's constructor, Query.cxx:161-175. *)
Definition parse_depth (tm : mapping) (t : text) : nat := nesting (g_body (lookup tm)) (fuel_for t) _ (g_query (lookup tm)) t.
Definition depth (tm : mapping) (input : text) : nat :=
  match preprocess input with inl _ => 0 | inr t => parse_depth tm t end.
