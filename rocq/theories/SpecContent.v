(** Specification for C14: the words, literals, names and marks of a text, and what formatting
    may do to them.  Nothing here refers to the parser or the printers. *)
From Verif Require Import Chars Spec SpecLexical.

(** * Tokens *)
(** A string literal, possibly in several parts with blanks, newlines and comments between. *)
Inductive comment : text -> Prop :=
| comment_intro d t nl : Forall (fun c => c = "-"%char) d -> d <> [] ->
    Forall (fun c => N_of_ascii c <> 10%N) t -> N_of_ascii nl = 10%N -> comment ("-"%char :: d ++ t ++ [nl]).
Inductive separation : text -> Prop :=
| separation_blank c : c = " "%char \/ N_of_ascii c = 10%N -> separation [c]
| separation_comment c : comment c -> separation c
| separation_more a b : separation a -> separation b -> separation (a ++ b).
Inductive literal_parts : text -> Prop :=
| literal_one s : string_literal s -> literal_parts s
| literal_more t p s : literal_parts t -> separation p -> string_literal s -> literal_parts (t ++ p ++ s).
(** A name of a table function, possibly with points. *)
Definition dotted_name (t : text) : Prop :=
  exists c r, t = c :: r /\ letter c /\ Forall (fun c => word_char c \/ c = "."%char) r.
Definition marks : list string :=
  ["."; ","; "("; ")"; "["; "]"; "*"; "/"; "+"; "-"; "||"; "="; "!="; "<>"; "<="; ">="; "<"; ">"; "::"]%string.
Definition token (t : text) : Prop :=
  word t \/ delimited t \/ literal_parts t \/ number t \/ dotted_name t \/ In t (map L marks).

(** A floating-point number with an optional sign, as in C. *)
Definition real_magnitude (u : text) : Prop :=
  (exists a x, u = a ++ x /\ (digits a \/ (exists b c, a = b ++ "."%char :: c /\ Forall digit b /\ Forall digit c /\ b ++ c <> [])) /\
     (x = [] \/ exponent x)) \/
  In (upper u) (map L ["NAN"; "INF"; "INFINITY"]%string) \/
  (exists n b, u = n ++ L "(" ++ b ++ L ")" /\ upper n = L "NAN" /\ ~ In ")"%char b).
Definition real_number (t : text) : Prop :=
  exists s u, t = s ++ u /\ (s = [] \/ s = L "+" \/ s = L "-") /\ real_magnitude u.

(** * Texts as sequences of tokens *)
Definition ends_word (x : text) : Prop := exists a c, x = a ++ [c] /\ word_char c.
(** [lexes tok glues k t l]: the text [t], which is followed by [k], is the sequence [l] of
    [tok]s with optional white space between and around them.  A token that ends with a word
    character is not followed by another word character, unless it [glues]. *)
Inductive lexes (tok glues : text -> Prop) (k : text) : text -> list text -> Prop :=
| lexes_white w : white w -> lexes tok glues k w []
| lexes_token w x t l : white w -> tok x -> glues x \/ (ends_word x -> stops word_char (t ++ k)) ->
    lexes tok glues k t l -> lexes tok glues k (w ++ x ++ t) (x :: l).

(** Words that are not names; in the input, other words and numbers may follow them directly
    ("1and", "nullthen"). *)
Definition keyword (x : text) : Prop :=
  reserved x \/ In (upper x) (map L ["COT"; "ARRAY"; "ELLIPSE"; "BIGINT"; "FLOAT4"; "FLOAT8"; "VARCHAR2"; "TEXT"]%string).
Definition input_token (t : text) : Prop := token t \/ real_number t.
Definition input_glues (t : text) : Prop := keyword t \/ number t \/ real_number t.

Section Content.
Variable mapping : text -> option text.       (* the uploaded tables *)
Variable fmt : text -> text.                  (* reading a number and writing it *)
Variable stray : Prop.                        (* may a NOT appear from nowhere? *)

Definition output_token (t : text) : Prop :=
  token t \/ (exists d, real_number d /\ t = fmt d) \/ (exists n, mapping n = Some t).

(** * What may change *)
(** Words that are written in upper case. *)
Definition upper_cased : list string :=
  ["SELECT"; "FROM"; "WHERE"; "WITH"; "AS"; "GROUP"; "BY"; "HAVING"; "ORDER"; "AND"; "OR"; "UNION"; "ALL"; "DISTINCT"; "TOP";
   "NOT"; "BETWEEN"; "IN"; "IS"; "NULL"; "LIKE"; "EXISTS"; "CASE"; "WHEN"; "THEN"; "ELSE"; "END"; "CAST"; "NULLIF"; "COALESCE";
   "ANY"; "ARRAY"; "NATURAL"; "OUTER"; "JOIN"; "ON"; "USING"; "CONTAINS"; "INTERSECTS"; "POINT"; "CIRCLE"; "BOX"; "ELLIPSE"; "POLYGON"]%string.
Definition shapes : list string := ["POINT"; "CIRCLE"; "BOX"; "ELLIPSE"; "POLYGON"]%string.
Definition coord_literal (f : text) : text := L "'" ++ f ++ L " GEOCENTER'".
(** [s] is a coordinate-system literal with the frame [f] (ICRS if it is not given). *)
Definition coord_sys (s f : text) : Prop :=
  exists w1 fr w2 ps w3, s = L "'" ++ w1 ++ fr ++ w2 ++ ps ++ w3 ++ L "'" /\ white w1 /\ white w2 /\ white w3 /\
    ((fr = [] /\ f = L "ICRS") \/ (upper fr = f /\ In f (map L ["ICRS"; "J2000"; "GALACTIC"]%string))) /\
    (ps = [] \/ upper ps = L "GEOCENTER").
Definition flag (f : text) : Prop := f = L "0" \/ f = L "1".
(** [p] is CONTAINS(...) or INTERSECTS(...). *)
Definition geometry_call (p : list text) : Prop :=
  exists x r, p = x :: L "(" :: r ++ [L ")"] /\ (upper x = L "CONTAINS" \/ upper x = L "INTERSECTS").
Definition geometry_condition (g : list text) : Prop :=
  exists p f, geometry_call p /\ flag f /\ (g = p \/ g = p ++ [L "="; f] \/ g = f :: L "=" :: p).
Definition largest_top : N := (2 ^ 64 - 1)%N.
(** The decimal notation of a number without superfluous zeros. *)
Definition canonical (d : text) : Prop := digits d /\ (d = L "0" \/ stops (fun c => c = "0"%char) d).

(** [normal l l']: [l'] is [l] up to the listed changes. *)
Inductive normal : list text -> list text -> Prop :=
| normal_nil : normal [] []
| normal_app a a' b b' : normal a a' -> normal b b' -> normal (a ++ b) (a' ++ b')
| normal_same x : normal [x] [x]
(* the letter case of keywords *)
| normal_case x y : upper x = y -> In y (map L upper_cased) -> normal [x] [y]
| normal_table x : upper x = L "TABLE" -> normal [x] [L "table"]
(* the optional AS before a table alias, and the one of WITH *)
| normal_alias x a : upper x = L "AS" -> word a \/ delimited a -> normal [x; a] [a]
| normal_with w n cols cols' q q' : upper w = L "WITH" -> normal cols cols' -> normal q q' ->
    normal (w :: n :: cols ++ q) (L "WITH" :: n :: cols' ++ L "AS" :: q')
(* numbers in coordinates *)
| normal_real d : real_number d -> normal [d] [fmt d]
(* coordinate systems *)
| normal_coord s f : coord_sys s f -> normal [s] [coord_literal f]
| normal_no_coord x : In (upper x) (map L shapes) -> normal [x; L "("] [upper x; L "("; coord_literal (L "ICRS"); L ","]
(* the flag of a geometry condition, and parentheses around it *)
| normal_flag_left f p p' : flag f -> geometry_call p -> normal p p' -> normal (f :: L "=" :: p) (p' ++ [L "="; f])
| normal_no_flag p p' : geometry_call p -> normal p p' -> normal p (p' ++ [L "="; L "1"])
| normal_parens g g' : geometry_condition g -> normal g g' -> normal (L "(" :: g ++ [L ")"]) g'
(* uploaded tables *)
| normal_upload n t : mapping n = Some t -> normal [L "TAP_UPLOAD"; L "."; n] [t]
(* TOP *)
| normal_top x d y : upper x = L "TOP" -> digits d -> decimal y = decimal d -> canonical y -> decimal d <> largest_top ->
    normal [x; d] [L "TOP"; y]
| normal_no_top x d : upper x = L "TOP" -> digits d -> decimal d = largest_top -> normal [x; d] []
(* arguments of table functions *)
| normal_argument w a w' : white w -> dotted_name a -> white w' -> normal [L "'" ++ w ++ a ++ w' ++ L "'"] [L "'" ++ a ++ L "'"]
| normal_no_argument w : white w -> normal [L "("; L "'" ++ w ++ L "'"; L ")"] [L "("; L ")"]
(* a NOT in front of a name that begins with it (a defect, see C16) *)
| normal_stray n : stray -> upper n = L "NOT" -> normal [] [n].
End Content.
(** The text has a NOT, in some mixture of upper and lower case, that no white space follows. *)
Definition tight_not (t : text) : Prop :=
  exists a n b, t = a ++ n ++ b /\ upper n = L "NOT" /\ stops (fun c => is_space c = true) b.
