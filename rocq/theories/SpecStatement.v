(** How a database reads a text (property C49): quotes, comments, and the semicolon between statements. *)
From Verif Require Import Chars Ast Spec SpecLexical SpecContent SpecNodes.

(** Outside of everything; behind a minus sign; behind a slash; inside of quotes; inside of a comment. *)
Inductive mode : Set := Code | Dash | Slash | Quoted (q : ascii) | Comment.
(** The characters that may stand outside of quotes and comments: letters, digits, underscores, white space, marks. *)
Definition harmless (c : ascii) : bool :=
  existsb (Ascii.eqb c) (L "ABCDEFGHIJKLMNOPQRSTUVWXYZabcdefghijklmnopqrstuvwxyz0123456789_.,()[]+|=<>!:") || is_space c.
(** None: a semicolon, the beginning /* of a block comment, or any other character that is not harmless. *)
Definition sql_char (m : mode) (c : ascii) : option mode :=
  match m with
  | Quoted q => Some (if Ascii.eqb c q then Code else Quoted q)
  | Comment => Some (if (N_of_ascii c =? 10)%N then Code else Comment)
  | _ =>
      if Ascii.eqb c sq || Ascii.eqb c dq then Some (Quoted c)
      else if Ascii.eqb c "-" then Some (match m with Dash => Comment | _ => Dash end)
      else if Ascii.eqb c "/" then Some Slash
      else if Ascii.eqb c "*" then match m with Slash => None | _ => Some Code end
      else if harmless c then Some Code else None
  end.
Fixpoint sql_read (m : mode) (t : text) : option mode :=
  match t with [] => Some m | c :: t' => match sql_char m c with Some m' => sql_read m' t' | None => None end end.
(** One statement: no semicolon outside of quotes and comments, and no quote or comment that is not closed. *)
Definition one_statement (t : text) : Prop := sql_read Code t = Some Code.

(** Not within quotes or a comment. *)
Definition outside (m : mode) : Prop := m = Code \/ m = Dash \/ m = Slash.
(** A name that can stand anywhere. *)
Definition harmless_name (v : text) : Prop := forall m, outside m -> sql_read m v = Some Code.
(** Numbers are written as numbers, with a minus sign only if there was one. *)
Definition minus_first (t : text) : Prop := exists r, t = "-"%char :: r.
Definition plain_numbers (fmt : text -> text) : Prop :=
  forall d m, real_number d -> outside m -> (m = Dash -> ~ minus_first d) -> sql_read m (fmt d) = Some Code.

(** The operators of a part, each with what is written behind it: a sign or a number. *)
Definition csae_ops (c : csae) : list (text * text) := match c with CS_bae _ o b => [(o, b)] | _ => [] end.
Definition coord_ops (c : coordinate) : list (text * text) := match c with Coord a b => csae_ops a ++ csae_ops b end.
Definition shape_ops (s : shape) : list (text * text) :=
  match s with
  | Sh_point _ c => coord_ops c
  | Sh_circle _ c r => coord_ops c ++ csae_ops r
  | Sh_box _ c w h => coord_ops c ++ csae_ops w ++ csae_ops h
  | Sh_ellipse _ c a b r => coord_ops c ++ csae_ops a ++ csae_ops b ++ csae_ops r
  | Sh_polygon _ cs => flat_map coord_ops cs
  end.
Definition node_ops (n : node) : list (text * text) :=
  match n with
  | N_vterm (VTerm o (Factor s _)) => [(o, s)]
  | N_soc (Soc_shape s) => shape_ops s
  | N_poc (Poc_point _ c) => coord_ops c
  | _ => []
  end.
(** No minus in front of a minus. *)
Definition apart (o : text * text) : Prop := fst o = L "-" -> ~ minus_first (snd o).
Definition minuses_apart (q : qspec) : Prop := Forall (fun n => Forall apart (node_ops n)) (nodes_qspec q).
(** Two minus signs with nothing but white space between them. *)
Definition minus_minus (t : text) : Prop := exists a w b, t = a ++ L "-" ++ w ++ L "-" ++ b /\ white w.
