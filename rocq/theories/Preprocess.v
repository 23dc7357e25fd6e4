(** The preprocessing of the query text, /repo/src/Query/Query.cxx:8-134. *)
From Verif Require Export Regex.

Definition r_sp : re := RStar true (RCi " ").                  (* " *" *)
Definition r_nonsp : re := RChr (fun c => negb (Ascii.eqb c " ")).  (* [^ ] *)
Definition r_word (s : string) : re := RLit (L s).

(** Query.cxx:20-22, piece by piece. *)
(** WHERE ([^ ].+[^ ]) *)
Definition r_left : re :=
  RSeq (r_word "WHERE ") (RGrp 1 (RSeq r_nonsp (RSeq (RPlus true RDot) r_nonsp))).
(** " *AND *" *)
Definition r_and : re := RSeq r_sp (RSeq (r_word "AND") r_sp).
(** ((?:(?:0|1) *= * )?(?:CONTAINS|INTERSECTS)(?:.*?(?= *(?:AND|HAVING|GROUP|ORDER|$)))) *)
Definition r_geom : re :=
  RGrp 2 (RSeq (ROpt (RSeq (RAlt (RCi "0") (RCi "1")) (RSeq r_sp (RSeq (RCi "=") r_sp))))
         (RSeq (RAlt (r_word "CONTAINS") (r_word "INTERSECTS"))
         (RSeq (RStar false RDot)
               (RLook (RSeq r_sp
                  (RAlts [r_word "AND"; r_word "HAVING"; r_word "GROUP"; r_word "ORDER"; REnd])))))).
(** (?: *AND *([^ ].+?(?= *(?:HAVING| GROUP| ORDER|$))))? *)
Definition r_right : re :=
  ROpt (RSeq r_and
       (RGrp 3 (RSeq r_nonsp (RSeq (RPlus false RDot)
          (RLook (RSeq r_sp (RAlts [r_word "HAVING"; r_word " GROUP"; r_word " ORDER"; REnd]))))))).
(** (.* )$ *)
Definition r_tail : re := RSeq (RGrp 4 (RStar true RDot)) REnd.
Definition the_regex : re := RSeq r_left (RSeq r_and (RSeq r_geom (RSeq r_right r_tail))).
Definition the_ngroups : nat := 4.

(** The four ways in which check_and_adjust_parens throws. *)
Inductive paren_error : Set := Premature_I | Inappropriate_I | Premature_II | Inappropriate_II.

(** ++depth for an unsigned short. *)
Definition ushort_mod : N := 65536.
Definition ushort_inc (d : N) : N := ((d + 1) mod ushort_mod)%N.

(** Query.cxx:44-58.  State: depth and within_outermost. *)
Fixpoint left_loop (s : text) (depth : N) (within : bool) : paren_error + (N * bool) :=
  match s with
  | [] => inr (depth, within)
  | c :: s' =>
      if Ascii.eqb c "(" then left_loop s' (ushort_inc depth) within
      else if Ascii.eqb c ")" then
        if (depth =? 0)%N then inl Premature_I
        else let depth := (depth - 1)%N in
             left_loop s' depth (if (depth =? 0)%N then false else within)
      else left_loop s' depth within
  end.

(** Query.cxx:66-87.  State: depth and outermost_is_closed_at_end_of_geom. *)
Fixpoint geom_loop (within : bool) (s : text) (depth : N) (closed : bool) : paren_error + bool :=
  match s with
  | [] => inr closed
  | c :: s' =>
      if closed then inl Inappropriate_II
      else if Ascii.eqb c "(" then geom_loop within s' (ushort_inc depth) closed
      else if Ascii.eqb c ")" then
        if (depth =? 0)%N then inl Premature_II
        else let depth := (depth - 1)%N in
             geom_loop within s' depth (if (depth =? 0)%N && within then true else closed)
      else geom_loop within s' depth closed
  end.

(** Query.cxx:36-95.  The asserts (41-42 of the C++ function, disabled by NDEBUG or not) hold because
    groups 1 and 2 of the regex are never empty (RegexProps).  substr(1) is [tl], dropping
    the last character is [removelast]. *)
Definition check_and_adjust_parens (left geom : text) : paren_error + (text * text) :=
  let within := match left with c :: _ => Ascii.eqb c "(" | [] => false end in
  match left_loop left 0 within with
  | inl e => inl e
  | inr (depth, within) =>
      if (1 <? depth)%N || ((depth =? 1)%N && negb within) then inl Inappropriate_I
      else match geom_loop within geom depth false with
           | inl e => inl e
           | inr true => inr (tl left, removelast geom)
           | inr false => inr (left, geom)
           end
  end.

(** Query.cxx:113-134: the replacement format built from the three groups ... *)
Definition replacement (left geom right : text) : text :=
  L "WHERE " ++ geom ++ L " AND " ++ left ++
  (if is_nil right then [] else L " AND " ++ right).

(** ... and its use. *)
Definition tweak_input_string (input : text) (mm : rmatch) : paren_error + text :=
  let g k := cap_str k (m_caps mm) in
  match check_and_adjust_parens (g 1) (g 2) with
  | inl e => inl e
  | inr (lft, geom) =>
      inr (replace the_regex the_ngroups input (replacement lft geom (g 3)))
  end.

(** Query.cxx:166-174: the text that is handed to the parser. *)
Definition preprocess (input : text) : paren_error + text :=
  match search the_regex input with
  | Some mm => tweak_input_string input mm
  | None => inr input
  end.
