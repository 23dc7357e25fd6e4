(** The matcher of Regex.v again, counting.

    /repo/src/Query/Query.cxx:166-174 calls std::regex_search for every text, before it is
    parsed.  libstdc++'s depth-first executor (bits/regex_executor.tcc, _M_dfs) handles a
    state by calling itself for the next one: what [mt] hands to its continuation happens
    inside the call, so the calls of [mt] and [mstar] stand for those of _M_dfs, up to a constant
    factor (the executor has further states for the ends of groups and of alternatives).
    [steps] counts the calls, [stack] is how deeply they are nested. *)
From Verif Require Export Preprocess.

(** What a call gives: its answer, the number of calls it makes (itself included)
    and how deeply they are nested. *)
Record counted (X : Type) : Type := Cn { out : option X; steps : N; stack : N }.
Arguments Cn {X} _ _ _.
Arguments out {X} _.
Arguments steps {X} _.
Arguments stack {X} _.

(** No call. *)
Definition stop {X : Type} (x : option X) : counted X := Cn x 0 0.

(** A call around what it does. *)
Definition call {X : Type} (w : counted X) : counted X := Cn (out w) (steps w + 1) (stack w + 1).

(** The first one, and if it fails the second one. *)
Definition orelse {X Y : Type} (a : counted X) (yes : X -> counted Y) (no : unit -> counted Y) : counted Y :=
  let b := match out a with Some x => yes x | None => no tt end in
  Cn (out b) (steps a + steps b) (N.max (stack a) (stack b)).

Section Match.
Context {X : Type}.

(** [mstar], Regex.v; bits/regex_executor.tcc, _M_handle_repeat and _M_rep_once_more *)
Fixpoint cstar (body : text -> caps -> (text -> caps -> counted X) -> counted X) (greedy : bool)
         (n : nat) (i : text) (c : caps) (k : text -> caps -> counted X) : counted X :=
  let again := fun (_ : unit) =>
    match n with
    | O => stop None
    | S n' =>
        body i c (fun i' c' =>
          if (length i' <? length i)%nat then cstar body greedy n' i' c' k else stop None)
    end in
  call (if greedy
        then orelse (again tt) (fun x => stop (Some x)) (fun _ => k i c)
        else orelse (k i c) (fun x => stop (Some x)) again).
End Match.

(** [mt], Regex.v; bits/regex_executor.tcc, _M_dfs *)
Fixpoint cmt (r : re) {X : Type} (i : text) (c : caps) (k : text -> caps -> counted X) : counted X :=
  call
    match r with
    | RChr f =>
        match i with
        | a :: i' => if f a then k i' c else stop None
        | [] => stop None
        end
    | REps => k i c
    | RSeq a b => cmt a i c (fun i' c' => cmt b i' c' k)
    | RAlt a b => orelse (cmt a i c k) (fun x => stop (Some x)) (fun _ => cmt b i c k)
    | RStar g a => cstar (@cmt a X) g (length i) i c k
    | RGrp n a => cmt a i c (fun i' c' => k i' ((n, upto i i') :: c'))
    | RLook a => orelse (cmt a i c (fun _ c' => stop (Some c'))) (fun c' => k i c') (fun _ => stop None)
    | REnd => match i with [] => k i c | _ :: _ => stop None end
    end.

(** [search_from], Regex.v: the start positions from left to right.  The positions are
    tried one after the other (_M_search is a loop), so that their depths do not add up. *)
Fixpoint csearch (r : re) (i : text) : counted (text * caps) :=
  orelse (cmt r i [] (fun i' c' => stop (Some (i', c'))))
         (fun x => stop (Some x))
         (fun _ => match i with [] => stop None | _ :: i' => csearch r i' end).

(** Query.cxx:166-174: the search that every text undergoes. *)
Definition rewriting_steps (i : text) : N := steps (csearch the_regex i).
Definition rewriting_stack (i : text) : N := stack (csearch the_regex i).
