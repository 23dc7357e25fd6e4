(** How often the interpreter enters a rule: [calls n e i] is the number of rules entered by [run n e i] (Peg.v).
    In /repo every one of the six recursive rules of ADQL_parser.hxx:106-265 that [rule] (Grammar.v) stands for is a
    qi::rule whose function object is called once per entry.  Simplified: the other rules of the grammar, which are
    inlined in Grammar.v, and the character level rules are not counted, so that this is a lower bound for the code. *)
From Verif Require Import Query.

Section Calls.
Variable rule : Set.
Variable attr : rule -> Set.
Variable body : forall r, pe rule attr (attr r).

Fixpoint calls_star {A : Set} (b : text -> out A) (c : text -> N) (n : nat) (i : text) : N :=
  (c i + match b i with Ok _ i' => match n with O => 0 | S n' => calls_star b c n' i' end | _ => 0 end)%N.
Fixpoint calls_list {A : Set} (b : text -> out A) (c : text -> N) (s : text -> out unit) (cs : text -> N) (n : nat) (i : text) : N :=
  (cs i + match s i with
          | Ok _ i1 => c i1 + match b i1 with Ok _ i2 => match n with O => 0 | S n' => calls_list b c s cs n' i2 end | _ => 0 end
          | _ => 0
          end)%N.

Fixpoint calls (n : nat) : forall A : Set, pe rule attr A -> text -> N :=
  fix go (A : Set) (e : pe rule attr A) (i : text) {struct e} : N :=
    (match e with
     | PLit _ _ | PLex _ | POptLex _ | PSpace | PDbl | PTop | PRet _ => 0
     | PSeq a b | PExp a b => go _ a i + match run body n _ a i with Ok _ i1 => go _ b i1 | _ => 0 end
     | PAlt a b => go _ a i + match run body n _ a i with Fail r => go _ b r | _ => 0 end
     | POpt a => go _ a i
     | PStar a => calls_star (run body n _ a) (go _ a) (length i) i
     | PPlus a => go _ a i + match run body n _ a i with Ok _ i1 => calls_star (run body n _ a) (go _ a) (length i1) i1 | _ => 0 end
     | PList a s => go _ a i + match run body n _ a i with
                               | Ok _ i1 => calls_list (run body n _ a) (go _ a) (run body n _ s) (go _ s) (length i1) i1
                               | _ => 0
                               end
     | PMap _ a => go _ a i
     | PRule r => match n with O => 0 | S n' => 1 + calls n' _ (body r) i end
     end)%N.
End Calls.
Arguments calls {rule attr}.

(** The rules entered by phrase_parse in ADQL::Query's constructor, Query.cxx:161-175. *)
Definition parse_work (tm : mapping) (t : text) : N := calls (g_body (lookup tm)) (fuel_for t) _ (g_query (lookup tm)) t.
Definition work (tm : mapping) (input : text) : N :=
  match preprocess input with inl _ => 0%N | inr t => parse_work tm t end.
