(** Specifications for the preprocessing step: what a WHERE clause with a geometry behind other
    conditions looks like as a text, parentheses, and the truth value of a condition text.
    Nothing here refers to regular expressions or to the model of Query.cxx. *)
From Coq Require Import ZArith.
From Verif Require Import Chars Spec.

(** * Texts *)
(** Blanks only (the character 32). *)
Definition blank (t : text) : Prop := Forall (fun c => c = " "%char) t.
(** No LF and no CR. *)
Definition oneline (t : text) : Prop := Forall (fun c => code c <> 10%N /\ code c <> 13%N) t.
(** [t] is [w] up to letter case. *)
Definition spelt (w : string) (t : text) : Prop := upper t = L w.
(** [t] starts with a character other than a blank / ends with one. *)
Definition starts_dark (t : text) : Prop := exists c r, t = c :: r /\ c <> " "%char.
Definition ends_dark (t : text) : Prop := exists r c, t = r ++ [c] /\ c <> " "%char.
(** [t] is empty or starts with a blank. *)
Definition breaks (t : text) : Prop := t = [] \/ exists r, t = " "%char :: r.

(** * WHERE clauses that end with a geometry *)
(** CONTAINS or INTERSECTS in any case. *)
Definition geometry_word (t : text) : Prop := spelt "CONTAINS" t \/ spelt "INTERSECTS" t.
(** An optional "0 =" or "1 =". *)
Inductive flag : text -> Prop :=
| flag_none : flag []
| flag_some d b1 b2 : d = "0"%char \/ d = "1"%char -> blank b1 -> blank b2 -> flag (d :: b1 ++ "="%char :: b2).
(** A geometry condition: flag, word, anything. *)
Definition geometry (g : text) : Prop := exists f w d, g = f ++ w ++ d /\ flag f /\ geometry_word w.

(** [and_between m]: blanks, AND in any case, blanks. *)
Definition and_between (m : text) : Prop :=
  exists b1 a b2, m = b1 ++ a ++ b2 /\ blank b1 /\ spelt "AND" a /\ blank b2.

(** AND with a blank on each side. *)
Definition spaced_and (m : text) : Prop :=
  exists b1 a b2, m = b1 ++ a ++ b2 /\ blank b1 /\ b1 <> [] /\ spelt "AND" a /\ blank b2 /\ b2 <> [].

(** [wpart input pre l g r tl]: [input] is [pre], WHERE, a condition [l], AND, a
    geometry condition [g], and either nothing ([r] is empty) or AND and a condition
    [r]; then [tl].  (One text can have several such decompositions.) *)
Inductive wpart (input pre l g r tl : text) : Prop :=
| wpart_intro w m1 m2 :
    input = pre ++ w ++ l ++ m1 ++ g ++ m2 ++ r ++ tl ->
    spelt "WHERE " w ->
    starts_dark l -> ends_dark l -> (2 < length l)%nat ->
    and_between m1 ->
    geometry g ->
    (m2 = [] /\ r = []) \/ (and_between m2 /\ starts_dark r /\ (1 < length r)%nat) ->
    wpart input pre l g r tl.

(** [behind tl]: what follows the conditions: blanks, or a GROUP BY / HAVING / ORDER BY after at
    least one blank. *)
Definition behind (tl : text) : Prop :=
  blank tl \/
  exists b k r, tl = " "%char :: b ++ k ++ r /\ blank b /\ (spelt "HAVING" k \/ spelt "GROUP" k \/ spelt "ORDER" k).

(** [last_geometry input pre l g r tl]: a decomposition as above in which
    - the WHERE is the first one,
    - [g] is the last geometry condition, contains none of the words AND, HAVING, GROUP, ORDER behind its
      keyword and is followed by a blank or the end,
    - [r] is either absent or contains neither HAVING nor words starting with GROUP or ORDER,
      and is followed by a blank or the end. *)
Inductive last_geometry (input pre l g r tl : text) : Prop :=
| last_geometry_intro w m1 m2 f gw d :
    input = pre ++ w ++ l ++ m1 ++ g ++ m2 ++ r ++ tl ->
    spelt "WHERE " w -> ~ occurs_nc (L "WHERE ") pre ->
    starts_dark l -> ends_dark l -> (2 < length l)%nat -> oneline (l ++ m1 ++ g ++ m2 ++ r ++ tl) ->
    and_between m1 ->
    g = f ++ gw ++ d -> flag f -> geometry_word gw -> ends_dark g ->
    ~ occurs_nc (L "AND") d -> ~ occurs_nc (L "HAVING") d ->
    ~ occurs_nc (L "GROUP") d -> ~ occurs_nc (L "ORDER") d ->
    (m2 = [] /\ r = []) \/
    (and_between m2 /\ breaks m2 /\ starts_dark r /\ ends_dark r /\ (1 < length r)%nat /\
     ~ occurs_nc (L "HAVING") r /\ ~ occurs_nc (L " GROUP") r /\ ~ occurs_nc (L " ORDER") r) ->
    behind tl ->
    ~ occurs_nc (L "CONTAINS") (d ++ m2 ++ r ++ tl) -> ~ occurs_nc (L "INTERSECTS") (d ++ m2 ++ r ++ tl) ->
    last_geometry input pre l g r tl.

(** The rewritten text. *)
Definition moved (pre l g r : text) : text :=
  pre ++ L "WHERE " ++ g ++ L " AND " ++ l ++ match r with [] => [] | _ => L " AND " ++ r end.

(** * Parentheses *)
(** The nesting depth behind [t] when it is [d] in front of it; None if more is closed than open. *)
Fixpoint nest (d : nat) (t : text) : option nat :=
  match t with
  | [] => Some d
  | c :: t' =>
      if Ascii.eqb c "(" then nest (S d) t'
      else if Ascii.eqb c ")" then match d with O => None | S d' => nest d' t' end
      else nest d t'
  end.
Definition balanced (t : text) : Prop := nest 0 t = Some 0.
(** Nothing is closed that was not opened. *)
Definition well_closed (t : text) : Prop := nest 0 t <> None.
(** The deepest nesting reached in [t]. *)
Fixpoint peak (d : nat) (t : text) : nat :=
  match t with
  | [] => d
  | c :: t' =>
      Nat.max d (if Ascii.eqb c "(" then peak (S d) t'
                 else if Ascii.eqb c ")" then peak (pred d) t'
                 else peak d t')
  end.

(** The depth [n] fits a 16-bit counter. *)
Definition shallow (n : nat) : Prop := (N.of_nat n < 65536)%N.

(** [enclosed l g l' g']: one pair of parentheses encloses [l] and [g] together; [l'] and [g'] are what
    it encloses. *)
Definition enclosed (l g l' g' : text) : Prop :=
  l = "("%char :: l' /\ g = g' ++ [")"%char] /\ balanced l' /\ balanced g'.

(** * The truth value of a condition text *)
(** The words of a text, separated by blanks. *)
Fixpoint words_from (cur : text) (t : text) : list text :=
  match t with
  | [] => match cur with [] => [] | _ => [rev cur] end
  | c :: t' =>
      if Ascii.eqb c " " then match cur with [] => words_from [] t' | _ => rev cur :: words_from [] t' end
      else words_from (c :: cur) t'
  end.
Definition words (t : text) : list text := words_from [] t.

(** What a word does to the nesting depth. *)
Fixpoint delta (t : text) : Z :=
  match t with
  | [] => 0
  | c :: t' => (if Ascii.eqb c "(" then 1 else if Ascii.eqb c ")" then -1 else 0) + delta t'
  end.

Definition cons_head {A} (x : A) (l : list (list A)) : list (list A) :=
  match l with [] => [[x]] | h :: t => (x :: h) :: t end.
(** Cut a list of words at the word [k] outside of parentheses. *)
Fixpoint cut (k : text) (d : Z) (ws : list text) : list (list text) :=
  match ws with
  | [] => [[]]
  | w :: ws' =>
      if (d =? 0)%Z && text_eqb (upper w) k then [] :: cut k d ws'
      else cons_head w (cut k (d + delta w) ws')
  end.
(** AND binds tighter than OR; the elementary (and the parenthesised) conditions have the truth values
    given by [v]. *)
Definition truth (v : list text -> bool) (t : text) : bool :=
  existsb (fun dj => forallb v (cut (L "AND") 0 dj)) (cut (L "OR") 0 (words t)).
(** [v] treats parentheses as grouping. *)
Definition groups (v : list text -> bool) : Prop :=
  forall t, balanced t -> v (words ("("%char :: t ++ [")"%char])) = truth v t.
(** No OR outside of parentheses. *)
Definition or_free (t : text) : Prop := cut (L "OR") 0 (words t) = [words t].
