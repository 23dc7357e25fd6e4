(** The remaining conditions under which the normal form of a query that the parser accepts is
    canonical (C13), part by part.  They exclude the constructs that DESIGN.md lists as findings:
    reserved words that are accepted as names, string literals in several pieces, and so on. *)
From Verif Require Import Chars Ast Print SpecLexical SpecCanon SpecNorm SpecNodes SpecFine.

(** None of the reserved words that are accepted as names (C05). *)
Definition shy (t : text) : bool := negb (one_of_nc t ["TOP"; "ATAN2"; "ATAN"; "ASIN"; "AREA"; "INTERSECTS"; "END"]%string).
(** The pieces of [t] between points. *)
Fixpoint pieces (t : text) : list text :=
  match t with
  | [] => [[]]
  | c :: t' => if Ascii.eqb c "." then [] :: pieces t' else match pieces t' with p :: ps => (c :: p) :: ps | [] => [[c]] end
  end.
Definition shy_table (t : text) : bool := forallb shy (pieces t).
Definition shy_col (c : colref) : bool :=
  match c with
  | CR4 a b c d => shy a && shy b && shy c && shy d
  | CR3 b c d => shy b && shy c && shy d
  | CR2 c d => shy c && shy d
  | CR1 d => shy d
  end.
(** At the end of the text COT is a column, elsewhere it is not. *)
Definition not_cot (c : colref) : bool := match c with CR1 d => negb (one_of_nc d ["COT"%string]) | _ => true end.
(** Not taken for a literal or a function (C06). *)
Definition value_start (t : text) : bool :=
  negb (begins_with_nc "TRUE" t || begins_with_nc "FALSE" t || begins_with_nc "CURRENT_TIMESTAMP" t || one_of_nc (hd [] (pieces t)) ["COT"%string]).

Section Usual.
Variable fmt : text -> text.
(** Numbers in shapes are written as numbers without a point at the end, and read as what they are written. *)
Definition u_double (d : text) : bool := c_double fmt (fmt d).
Definition u_csae (c : csae) : bool :=
  match c with CS_bae a _ b => u_double a && u_double b | CS_col c => shy_col c | CS_dbl d => u_double d end.
Definition u_coord (c : coordinate) : bool := match c with Coord a b => u_csae a && u_csae b end.
Definition u_shape (s : shape) : bool :=
  match s with
  | Sh_point _ c => u_coord c
  | Sh_circle _ c r => u_coord c && u_csae r
  | Sh_box _ c w h => u_coord c && u_csae w && u_csae h
  | Sh_ellipse _ c a b r => u_coord c && u_csae a && u_csae b && u_csae r
  | Sh_polygon _ cs => forallb u_coord cs
  end.

Definition usual (n : node) : bool :=
  match n with
  (* no operator in front of a sign that makes a comment of the rest *)
  | N_venb (VENB f ts) => no_comments f ts
  | N_nvf (NV_udf f _) => shy f
  (* a string literal in one piece, a number that does not end in a point *)
  | N_vepv (VP_str s) => is_number s || is_quoted sq s || one_of_nc s ["TRUE"; "FALSE"; "NULL"; "NULL::CHAR"; "NULL::INT"; "NULL::FLOAT"]%string
  | N_vepv (VP_col c) => shy_col c && not_cot c
  (* NOT in front of something that does not start with NOT (C16) *)
  | N_bfac (BF n p) => is_nil n || negb (begins_with_nc "NOT" (pr_bprim fmt p))
  (* no value in parentheses as a condition *)
  | N_bprim (BP_val v) => negb (head_is "(" (pr_venb fmt v))
  | N_qjhead (QH_tc n a) => shy_table n && shy a
  | N_jspec (JSp_using l) => forallb shy l
  | N_tref (TR_tc n a) => shy_table n && shy a
  | N_tref (TR_dc _ a) => shy a
  | N_tref (TR_tvf _ args) => negb (is_nil args)
  | N_with (With n cols _) => shy n && forallb shy cols
  | N_colv (CV_as _ a) => shy a
  | N_colv (CV_star s) => shy_table s && value_start s
  | N_sort (Sort (SK_col c) _) => shy_col c
  | N_soc (Soc_shape s) => u_shape s
  | N_soc (Soc_col c) => shy_col c
  | N_poc (Poc_point _ c) => u_coord c
  | N_poc (Poc_col c) => shy_col c
  | _ => true
  end.
End Usual.

(** The names that uploaded tables are mapped to: names that are not taken for a literal, a function or a keyword. *)
Definition upload_name (v : text) : bool :=
  is_value_name v && forallb (fun w => negb (begins_with_nc w v)) ["NOT"; "EXISTS"; "SELECT"; "WITH"]%string.
