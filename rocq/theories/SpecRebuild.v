(** A query put together again from what the accessors return (property C51). *)
From Verif Require Import Chars Ast Print.

(** A pair of simplified_columns as it is written in a select list. *)
Definition column_text (p : text * text) : text :=
  let (e, a) := p in if is_nil a || text_eqb a e then e else e ++ L " AS " ++ a.
(** SELECT columns FROM tables, followed by WHERE condition if there is one *)
Definition rebuilt (columns : list (text * text)) (tables : list text) (condition : option text) : text :=
  L "SELECT " ++ join (L ", ") (map column_text columns) ++ L " FROM " ++ join (L ", ") tables ++
  (match condition with None => [] | Some c => L " WHERE " ++ c end).
