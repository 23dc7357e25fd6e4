(** The members of the API that write, /repo/src/Query/Query_Specification.hxx:56-59 and
    /repo/src/Query/Query_Specification/Select_From_Where_List.hxx:48,58-64,91-94, and the default query.
    Writing [q.get_select(i) = s] through the returned reference is modelled by the query that it leaves behind; the
    new value is given as a function [f] of the old one.  A_throw and A_range: the accessor throws and nothing is written. *)
From Verif Require Import Query.

Definition put {A} (f : A -> A) : list A -> nat -> list A :=
  fix go (l : list A) (i : nat) : list A :=
    match l, i with [], _ => [] | x :: l', O => f x :: l' | x :: l', S i' => x :: go l' i' end.

(** Select_From_Where &get_sfw(uint idx), Select_From_Where_List.hxx:58-64 (and 48 for the first one) *)
Definition write_sfw (q : qspec) (i : N) (f : sfw -> sfw) : acc qspec :=
  match q with
  | QS w s ad g h o =>
      if (i =? 0)%N then A_ok (QS w (f s) ad g h o)
      else abind (validate_sfw_index q i) (fun _ =>
           abind (at_ ad (i - 1)) (fun _ =>
           A_ok (QS w s (put (fun a => match a with Addon op s => Addon op (f s) end) ad (N.to_nat (i - 1))) g h o)))
  end.
(** Select &get_select(uint sfw_index), Query_Specification.hxx:56-59 and Select_From_Where_List.hxx:91-94 *)
Definition write_select (q : qspec) (i : N) (f : select -> select) : acc qspec :=
  abind (validate_sfw_index q i) (fun _ =>
  write_sfw q i (fun s => match s with SFW s ts w => SFW (f s) ts w end)).
(** The public members of Select, Select.hxx:15-17 *)
Definition set_top (n : N) (s : select) : select := match s with Select q _ c => Select q n c end.
Definition set_columns (c : columns) (s : select) : select := match s with Select q n _ => Select q n c end.
Definition set_quantifier (q : text) (s : select) : select := match s with Select _ n c => Select q n c end.

(** Query() = default, Query.hxx:21: all members value initialised.  The columns are a variant whose first type is
    std::string, Select.hxx:13; no table, no WITH, no clause. *)
Definition default_query : qspec := QS None (SFW (Select [] top_none (C_star [])) [] (Where None None)) [] [] None [].
(** Query_Specification::empty(), Query_Specification.hxx:20-23 *)
Definition query_empty (q : qspec) : bool := sfw_empty (q_initial q).
