(** The fragment of std::regex (ECMAScript, icase) that /repo/src/Query/Query.cxx:20-22
    uses, as data ([re]) with a backtracking matcher ([mt], [search]), and
    match_results::format ([format]).

    This models libstdc++ (bits/regex_executor.tcc, depth-first executor; and
    bits/regex.tcc:319-432 for format): alternatives and repetitions are tried in priority
    order, the first complete match wins, and regex_search tries the start positions
    from left to right.  The executor's recursion depth is counted in RegexCost.v; that
    a long input can exhaust the stack is not modelled. *)
From Verif Require Export Chars.

Inductive re : Type :=
| RChr (f : ascii -> bool)          (* one character *)
| REps
| RSeq (a b : re)
| RAlt (a b : re)
| RStar (greedy : bool) (a : re)    (* a*  /  a*? *)
| RGrp (k : nat) (a : re)           (* capturing group number k *)
| RLook (a : re)                    (* (?=a) *)
| REnd.                             (* $ *)

(** Captured groups, latest first. *)
Definition caps := list (nat * text).

Fixpoint cap (k : nat) (c : caps) : option text :=
  match c with
  | [] => None
  | (k', t) :: c' => if Nat.eqb k k' then Some t else cap k c'
  end.

(** sub_match::str: the empty string for a group that did not participate. *)
Definition cap_str (k : nat) (c : caps) : text :=
  match cap k c with Some t => t | None => [] end.

(** [upto i r]: the part of [i] in front of its suffix [r]. *)
Definition upto (i r : text) : text := firstn (length i - length r) i.

Section Match.
Context {X : Type}.

(** The repetition loop.  [n] is the number of characters left, an iteration that consumes
    nothing is not continued. *)
Fixpoint mstar (body : text -> caps -> (text -> caps -> option X) -> option X) (greedy : bool)
         (n : nat) (i : text) (c : caps) (k : text -> caps -> option X) : option X :=
  let again := fun (_ : unit) =>
    match n with
    | O => None
    | S n' =>
        body i c (fun i' c' =>
          if (length i' <? length i)%nat then mstar body greedy n' i' c' k else None)
    end in
  if greedy then
    match again tt with
    | Some x => Some x
    | None => k i c
    end
  else
    match k i c with
    | Some x => Some x
    | None => again tt
    end.
End Match.

(** [mt r i c k]: match [r] at the beginning of [i] and continue with [k]. *)
Fixpoint mt (r : re) {X : Type} (i : text) (c : caps) (k : text -> caps -> option X) : option X :=
  match r with
  | RChr f =>
      match i with
      | a :: i' => if f a then k i' c else None
      | [] => None
      end
  | REps => k i c
  | RSeq a b => mt a i c (fun i' c' => mt b i' c' k)
  | RAlt a b =>
      match mt a i c k with
      | Some x => Some x
      | None => mt b i c k
      end
  | RStar g a => mstar (@mt a X) g (length i) i c k
  | RGrp n a => mt a i c (fun i' c' => k i' ((n, upto i i') :: c'))
  | RLook a =>
      match mt a i c (fun _ c' => Some c') with
      | Some c' => k i c'
      | None => None
      end
  | REnd => match i with [] => k i c | _ :: _ => None end
  end.

(** A successful search: text before the match, the match (group 0), text behind it, groups. *)
Record rmatch : Type := RM { m_pre : text; m_all : text; m_suf : text; m_caps : caps }.

(** std::regex_search *)
Fixpoint search_from (r : re) (pre i : text) : option rmatch :=
  match mt r i [] (fun i' c' => Some (i', c')) with
  | Some (i', c') => Some (RM pre (upto i i') i' c')
  | None =>
      match i with
      | [] => None
      | a :: i' => search_from r (pre ++ [a]) i'
      end
  end.

Definition search (r : re) (i : text) : option rmatch := search_from r [] i.

(** match_results::format for the default (ECMAScript) syntax.  [ngroups] is the
    number of capturing groups; match_results::size() is one more. *)
Definition digit_val (c : ascii) : nat := N.to_nat (code c - 48).

Definition group_text (m : rmatch) (ngroups k : nat) : text :=
  if (ngroups <? k)%nat then []
  else match k with O => m_all m | _ => cap_str k (m_caps m) end.

Fixpoint format (m : rmatch) (ngroups : nat) (fmt : text) : text :=
  match fmt with
  | [] => []
  | c :: f1 =>
      if Ascii.eqb c "$" then
        match f1 with
        | [] => ["$"%char]
        | d :: f2 =>
            if Ascii.eqb d "$" then "$"%char :: format m ngroups f2
            else if Ascii.eqb d "&" then m_all m ++ format m ngroups f2
            else if Ascii.eqb d "`" then m_pre m ++ format m ngroups f2
            else if Ascii.eqb d "'" then m_suf m ++ format m ngroups f2
            else if is_digit d then
              match f2 with
              | e :: f3 =>
                  if is_digit e
                  then group_text m ngroups (digit_val d * 10 + digit_val e) ++ format m ngroups f3
                  else group_text m ngroups (digit_val d) ++ format m ngroups f2
              | [] => group_text m ngroups (digit_val d)
              end
            else "$"%char :: format m ngroups f1
        end
      else c :: format m ngroups f1
  end.

(** std::regex_replace for a regex all of whose matches end at the end of the input
    and are not empty, so that there is at most one: text in front, formatted match. *)
Definition replace (r : re) (ngroups : nat) (i fmt : text) : text :=
  match search r i with
  | None => i
  | Some m => m_pre m ++ format m ngroups fmt ++ m_suf m
  end.

(** Abbreviations. *)
Definition RCi (c : ascii) : re := RChr (eq_nc c).             (* one character, icase *)
Fixpoint RLit (s : text) : re :=
  match s with [] => REps | c :: s' => RSeq (RCi c) (RLit s') end.
Definition RPlus (greedy : bool) (a : re) : re := RSeq a (RStar greedy a).
Definition ROpt (a : re) : re := RAlt a REps.
(** [.] does not match line terminators (ECMAScript: LF and CR). *)
Definition is_dot (c : ascii) : bool := negb ((code c =? 10) || (code c =? 13))%N.
Definition RDot : re := RChr is_dot.
Fixpoint RAlts (l : list re) : re :=
  match l with
  | [] => REps
  | [a] => a
  | a :: l' => RAlt a (RAlts l')
  end.
