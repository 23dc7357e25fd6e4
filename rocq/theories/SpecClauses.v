(** What "the clause is printed" means: the text of a node, written as a plain concatenation
    in which a clause contributes nothing exactly when it was not recorded. *)
From Verif Require Import Chars Ast Print SpecNodes.

Section Clauses.
Variable fmt : text -> text.

(** [kw] and the text of [x] if [x] was recorded. *)
Definition clause {A} (kw : string) (pr : A -> text) (suff : string) (x : option A) : text :=
  match x with None => [] | Some x => L kw ++ pr x ++ L suff end.
Definition list_clause {A} (kw : string) (pr : A -> text) (l : list A) : text :=
  match l with [] => [] | _ => L kw ++ join (L ",") (map pr l) end.

Definition clauses_printed (x : node) : Prop :=
  match x with
  | N_qspec (QS w i ad g h o) =>
      pr_qspec fmt (QS w i ad g h o) =
        clause "" (pr_with fmt) " " w ++ pr_sfw fmt i ++ concat (map (pr_addon fmt) ad) ++
        list_clause " GROUP BY " (pr_gterm fmt) g ++ clause " HAVING " (pr_sc fmt) "" h ++
        list_clause " ORDER BY " pr_sort o
  | N_sfw (SFW s ts w) =>
      pr_sfw fmt (SFW s ts w) =
        pr_select fmt s ++ L " FROM " ++ join (L ", ") (map (pr_tref fmt) ts) ++
        match w with
        | Where None None => []
        | Where (Some g) None => L " WHERE " ++ pr_geom fmt g
        | Where None (Some c) => L " WHERE " ++ pr_sc fmt c
        | Where (Some g) (Some c) => L " WHERE " ++ pr_geom fmt g ++ L " AND " ++ pr_sc fmt c
        end
  | N_geom (G_left fl p) => pr_geom fmt (G_left fl p) = pr_gpred fmt p ++ L "=" ++ fl
  | N_geom (G_right p fl) => pr_geom fmt (G_right p fl) = pr_gpred fmt p ++ L "=" ++ fl
  | N_sc (SC_f f) => pr_sc fmt (SC_f f) = pr_bfac fmt f
  | N_sc (SC_t f o s) => pr_sc fmt (SC_t f o s) = pr_bfac fmt f ++ L " " ++ upper o ++ L " " ++ pr_sc fmt s
  | N_vepv (VP_case x w e) =>
      pr_vepv fmt (VP_case x w e) =
        L "CASE " ++ pr_ve fmt x ++ L " " ++ concat (map (fun w => pr_swhen fmt w ++ L " ") w) ++
        clause "ELSE " (pr_result fmt) " " e ++ L "END"
  | N_vepv (VP_scase w e) =>
      pr_vepv fmt (VP_scase w e) =
        L "CASE " ++ concat (map (fun w => pr_qwhen fmt w ++ L " ") w) ++
        clause "ELSE " (pr_result fmt) " " e ++ L "END"
  | N_jsuf (JS nat ty t sp) =>
      pr_jsuf fmt (JS nat ty t sp) =
        (if nat then L "NATURAL " else []) ++ pr_jtype ty ++ L " JOIN " ++ pr_tref fmt t ++
        clause " " (pr_jspec fmt) "" sp
  | _ => True
  end.
End Clauses.
