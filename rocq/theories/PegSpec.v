(** A fuel-free, relational description of how Spirit evaluates an expression of Peg.v.
    [ev e i o] holds when there is a finite evaluation of [e] on [i] with outcome [o]; an
    evaluation that recurses or iterates forever has no outcome. *)
From Verif Require Import Peg.

(** Character level: like [srun] the primitive steps are those of Peg.v, but iteration is a
    relation. *)
Inductive sev : se -> text -> text -> sout -> Prop :=
| sev_chr_ok f acc c i : f c = true -> sev (SChr f) acc (c :: i) (SOk (acc ++ [c]) i)
| sev_chr_no f acc c i : f c = false -> sev (SChr f) acc (c :: i) (SFail acc)
| sev_chr_end f acc : sev (SChr f) acc [] (SFail acc)
| sev_lit_ok nc s acc i m r : strip nc s i = Some (m, r) -> sev (SLit nc s) acc i (SOk acc r)
| sev_lit_no nc s acc i : strip nc s i = None -> sev (SLit nc s) acc i (SFail acc)
| sev_str_ok nc s acc i m r : strip nc s i = Some (m, r) -> sev (SStr nc s) acc i (SOk (acc ++ m) r)
| sev_str_no nc s acc i : strip nc s i = None -> sev (SStr nc s) acc i (SFail acc)
| sev_seq_ok a b acc i acc' i' o :
    sev a acc i (SOk acc' i') -> sev b acc' i' o -> sev (SSeq a b) acc i o
| sev_seq_no a b acc i acc' : sev a acc i (SFail acc') -> sev (SSeq a b) acc i (SFail acc')
| sev_seq_th a b acc i x : sev a acc i (SThrow x) -> sev (SSeq a b) acc i (SThrow x)
| sev_alt_1 a b acc i acc' i' : sev a acc i (SOk acc' i') -> sev (SAlt a b) acc i (SOk acc' i')
| sev_alt_2 a b acc i acc' o :
    sev a acc i (SFail acc') -> sev b acc' i o -> sev (SAlt a b) acc i o
| sev_alt_th a b acc i x : sev a acc i (SThrow x) -> sev (SAlt a b) acc i (SThrow x)
| sev_star_stop a acc i acc' : sev a acc i (SFail acc') -> sev (SStar a) acc i (SOk acc' i)
| sev_star_more a acc i acc' i' o :
    sev a acc i (SOk acc' i') -> sev (SStar a) acc' i' o -> sev (SStar a) acc i o
| sev_star_th a acc i x : sev a acc i (SThrow x) -> sev (SStar a) acc i (SThrow x)
| sev_plus_ok a acc i acc' i' o :
    sev a acc i (SOk acc' i') -> sev (SStar a) acc' i' o -> sev (SPlus a) acc i o
| sev_plus_no a acc i acc' : sev a acc i (SFail acc') -> sev (SPlus a) acc i (SFail acc')
| sev_plus_th a acc i x : sev a acc i (SThrow x) -> sev (SPlus a) acc i (SThrow x)
| sev_opt_ok a acc i acc' i' : sev a acc i (SOk acc' i') -> sev (SOpt a) acc i (SOk acc' i')
| sev_opt_no a acc i acc' : sev a acc i (SFail acc') -> sev (SOpt a) acc i (SOk acc' i)
| sev_opt_th a acc i x : sev a acc i (SThrow x) -> sev (SOpt a) acc i (SThrow x)
| sev_hold_ok a acc i acc' i' : sev a acc i (SOk acc' i') -> sev (SHold a) acc i (SOk acc' i')
| sev_hold_no a acc i acc' : sev a acc i (SFail acc') -> sev (SHold a) acc i (SFail acc)
| sev_hold_th a acc i x : sev a acc i (SThrow x) -> sev (SHold a) acc i (SThrow x)
| sev_and_ok a acc i acc' i' : sev a [] i (SOk acc' i') -> sev (SAnd a) acc i (SOk acc i)
| sev_and_no a acc i acc' : sev a [] i (SFail acc') -> sev (SAnd a) acc i (SFail acc)
| sev_and_th a acc i x : sev a [] i (SThrow x) -> sev (SAnd a) acc i (SThrow x)
| sev_not_ok a acc i acc' : sev a [] i (SFail acc') -> sev (SNot a) acc i (SOk acc i)
| sev_not_no a acc i acc' i' : sev a [] i (SOk acc' i') -> sev (SNot a) acc i (SFail acc)
| sev_not_th a acc i x : sev a [] i (SThrow x) -> sev (SNot a) acc i (SThrow x)
| sev_diff_ok a b acc i acc' o : sev b [] i (SFail acc') -> sev a acc i o -> sev (SDiff a b) acc i o
| sev_diff_no a b acc i acc' i' : sev b [] i (SOk acc' i') -> sev (SDiff a b) acc i (SFail acc)
| sev_diff_th a b acc i x : sev b [] i (SThrow x) -> sev (SDiff a b) acc i (SThrow x)
| sev_exp_ok a b acc i acc' i' acc2 i2 :
    sev a acc i (SOk acc' i') -> sev b acc' i' (SOk acc2 i2) -> sev (SExp a b) acc i (SOk acc2 i2)
| sev_exp_unmet a b acc i acc' i' acc2 :
    sev a acc i (SOk acc' i') -> sev b acc' i' (SFail acc2) -> sev (SExp a b) acc i (SThrow (ExExpect i'))
| sev_exp_th2 a b acc i acc' i' x :
    sev a acc i (SOk acc' i') -> sev b acc' i' (SThrow x) -> sev (SExp a b) acc i (SThrow x)
| sev_exp_no a b acc i acc' : sev a acc i (SFail acc') -> sev (SExp a b) acc i (SFail acc')
| sev_exp_th a b acc i x : sev a acc i (SThrow x) -> sev (SExp a b) acc i (SThrow x)
| sev_map_ok m a acc i s t i' :
    sev a [] i (SOk s i') -> m s = Some t -> sev (SMap m a) acc i (SOk (acc ++ t) i')
| sev_map_none m a acc i s i' :
    sev a [] i (SOk s i') -> m s = None -> sev (SMap m a) acc i (SThrow (ExTable s))
| sev_map_no m a acc i s : sev a [] i (SFail s) -> sev (SMap m a) acc i (SFail acc)
| sev_map_th m a acc i x : sev a [] i (SThrow x) -> sev (SMap m a) acc i (SThrow x).

Section Ev.
Context {rule : Set} {attr : rule -> Set} (body : forall r, pe rule attr (attr r)).
Notation PE := (pe rule attr).

Inductive ev : forall A : Set, PE A -> text -> out A -> Prop :=
| ev_lit_ok nc s i m r : strip nc s (skip i) = Some (m, r) -> ev _ (PLit nc s) i (Ok tt r)
| ev_lit_no nc s i : strip nc s (skip i) = None -> ev _ (PLit nc s) i (Fail (skip i))
| ev_lex_ok e i v r : sev e [] (skip i) (SOk v r) -> ev _ (PLex e) i (Ok v r)
| ev_lex_no e i v : sev e [] (skip i) (SFail v) -> ev _ (PLex e) i (Fail (skip i))
| ev_lex_th e i x : sev e [] (skip i) (SThrow x) -> ev _ (PLex e) i (Throw x)
| ev_olex_ok e i v r : sev e [] (skip i) (SOk v r) -> ev _ (POptLex e) i (Ok v r)
| ev_olex_no e i v : sev e [] (skip i) (SFail v) -> ev _ (POptLex e) i (Ok v (skip i))
| ev_olex_th e i x : sev e [] (skip i) (SThrow x) -> ev _ (POptLex e) i (Throw x)
| ev_space_ok c i : is_space c = true -> ev _ PSpace (c :: i) (Ok tt (c :: i))
| ev_space_no c i : is_space c = false -> ev _ PSpace (c :: i) (Fail (c :: i))
| ev_space_end : ev _ PSpace [] (Fail [])
| ev_dbl_ok i m r : dbl (skip i) = Some (m, r) -> ev _ PDbl i (Ok m r)
| ev_dbl_no i : dbl (skip i) = None -> ev _ PDbl i (Fail (skip i))
| ev_top_ok i v c r : ulong (skip i) = Some (v, c :: r) -> is_space c = true ->
    ev _ PTop i (Ok v (c :: r))
| ev_top_unmet i v c r : ulong (skip i) = Some (v, c :: r) -> is_space c = false ->
    ev _ PTop i (Throw (ExExpect (c :: r)))
| ev_top_end i v : ulong (skip i) = Some (v, []) -> ev _ PTop i (Throw (ExExpect []))
| ev_top_no i : ulong (skip i) = None -> ev _ PTop i (Fail (skip i))
| ev_ret (A : Set) (v : A) i : ev _ (PRet v) i (Ok v i)
| ev_seq_ok (A B : Set) (a : PE A) (b : PE B) i va i1 vb i2 :
    ev _ a i (Ok va i1) -> ev _ b i1 (Ok vb i2) -> ev _ (PSeq a b) i (Ok (va, vb) i2)
| ev_seq_no2 (A B : Set) (a : PE A) (b : PE B) i va i1 r :
    ev _ a i (Ok va i1) -> ev _ b i1 (Fail r) -> ev _ (PSeq a b) i (Fail i)
| ev_seq_th2 (A B : Set) (a : PE A) (b : PE B) i va i1 x :
    ev _ a i (Ok va i1) -> ev _ b i1 (Throw x) -> ev _ (PSeq a b) i (Throw x)
| ev_seq_no (A B : Set) (a : PE A) (b : PE B) i r : ev _ a i (Fail r) -> ev _ (PSeq a b) i (Fail i)
| ev_seq_th (A B : Set) (a : PE A) (b : PE B) i x : ev _ a i (Throw x) -> ev _ (PSeq a b) i (Throw x)
| ev_exp_ok (A B : Set) (a : PE A) (b : PE B) i va i1 vb i2 :
    ev _ a i (Ok va i1) -> ev _ b i1 (Ok vb i2) -> ev _ (PExp a b) i (Ok (va, vb) i2)
| ev_exp_unmet (A B : Set) (a : PE A) (b : PE B) i va i1 r :
    ev _ a i (Ok va i1) -> ev _ b i1 (Fail r) -> ev _ (PExp a b) i (Throw (ExExpect r))
| ev_exp_th2 (A B : Set) (a : PE A) (b : PE B) i va i1 x :
    ev _ a i (Ok va i1) -> ev _ b i1 (Throw x) -> ev _ (PExp a b) i (Throw x)
| ev_exp_no (A B : Set) (a : PE A) (b : PE B) i r : ev _ a i (Fail r) -> ev _ (PExp a b) i (Fail i)
| ev_exp_th (A B : Set) (a : PE A) (b : PE B) i x : ev _ a i (Throw x) -> ev _ (PExp a b) i (Throw x)
| ev_alt_1 (A : Set) (a b : PE A) i v r : ev _ a i (Ok v r) -> ev _ (PAlt a b) i (Ok v r)
| ev_alt_2 (A : Set) (a b : PE A) i r o : ev _ a i (Fail r) -> ev _ b r o -> ev _ (PAlt a b) i o
| ev_alt_th (A : Set) (a b : PE A) i x : ev _ a i (Throw x) -> ev _ (PAlt a b) i (Throw x)
| ev_opt_ok (A : Set) (a : PE A) i v r : ev _ a i (Ok v r) -> ev _ (POpt a) i (Ok (Some v) r)
| ev_opt_no (A : Set) (a : PE A) i r : ev _ a i (Fail r) -> ev _ (POpt a) i (Ok None r)
| ev_opt_th (A : Set) (a : PE A) i x : ev _ a i (Throw x) -> ev _ (POpt a) i (Throw x)
| ev_star_stop (A : Set) (a : PE A) i r : ev _ a i (Fail r) -> ev _ (PStar a) i (Ok [] r)
| ev_star_th (A : Set) (a : PE A) i x : ev _ a i (Throw x) -> ev _ (PStar a) i (Throw x)
| ev_star_more (A : Set) (a : PE A) i v i1 vs r :
    ev _ a i (Ok v i1) -> ev _ (PStar a) i1 (Ok vs r) -> ev _ (PStar a) i (Ok (v :: vs) r)
| ev_star_th2 (A : Set) (a : PE A) i v i1 x :
    ev _ a i (Ok v i1) -> ev _ (PStar a) i1 (Throw x) -> ev _ (PStar a) i (Throw x)
| ev_plus_ok (A : Set) (a : PE A) i v i1 vs r :
    ev _ a i (Ok v i1) -> ev _ (PStar a) i1 (Ok vs r) -> ev _ (PPlus a) i (Ok (v :: vs) r)
| ev_plus_th2 (A : Set) (a : PE A) i v i1 x :
    ev _ a i (Ok v i1) -> ev _ (PStar a) i1 (Throw x) -> ev _ (PPlus a) i (Throw x)
| ev_plus_no (A : Set) (a : PE A) i r : ev _ a i (Fail r) -> ev _ (PPlus a) i (Fail i)
| ev_plus_th (A : Set) (a : PE A) i x : ev _ a i (Throw x) -> ev _ (PPlus a) i (Throw x)
| ev_list_no (A : Set) (a : PE A) s i r : ev _ a i (Fail r) -> ev _ (PList a s) i (Fail i)
| ev_list_th (A : Set) (a : PE A) s i x : ev _ a i (Throw x) -> ev _ (PList a s) i (Throw x)
| ev_list_ok (A : Set) (a : PE A) s i v i1 vs r :
    ev _ a i (Ok v i1) -> evl A a s i1 (Ok vs r) -> ev _ (PList a s) i (Ok (v :: vs) r)
| ev_list_th2 (A : Set) (a : PE A) s i v i1 x :
    ev _ a i (Ok v i1) -> evl A a s i1 (Throw x) -> ev _ (PList a s) i (Throw x)
| ev_map_ok (A B : Set) (f : A -> B) a i v r : ev _ a i (Ok v r) -> ev _ (PMap f a) i (Ok (f v) r)
| ev_map_no (A B : Set) (f : A -> B) a i r : ev _ a i (Fail r) -> ev _ (PMap f a) i (Fail r)
| ev_map_th (A B : Set) (f : A -> B) a i x : ev _ a i (Throw x) -> ev _ (PMap f a) i (Throw x)
| ev_rule r i o : ev _ (body r) i o -> ev _ (PRule r) i o
(** the tail (separator element)* of a list *)
with evl : forall A : Set, PE A -> PE unit -> text -> out (list A) -> Prop :=
| evl_stop (A : Set) (a : PE A) s i r : ev _ s i (Fail r) -> evl A a s i (Ok [] i)
| evl_stop2 (A : Set) (a : PE A) s i u i1 r :
    ev _ s i (Ok u i1) -> ev _ a i1 (Fail r) -> evl A a s i (Ok [] i)
| evl_th (A : Set) (a : PE A) s i x : ev _ s i (Throw x) -> evl A a s i (Throw x)
| evl_th2 (A : Set) (a : PE A) s i u i1 x :
    ev _ s i (Ok u i1) -> ev _ a i1 (Throw x) -> evl A a s i (Throw x)
| evl_more (A : Set) (a : PE A) s i u i1 v i2 vs r :
    ev _ s i (Ok u i1) -> ev _ a i1 (Ok v i2) -> evl A a s i2 (Ok vs r) ->
    evl A a s i (Ok (v :: vs) r)
| evl_more_th (A : Set) (a : PE A) s i u i1 v i2 x :
    ev _ s i (Ok u i1) -> ev _ a i1 (Ok v i2) -> evl A a s i2 (Throw x) -> evl A a s i (Throw x).
End Ev.
Arguments ev {rule attr} body A.
Arguments evl {rule attr} body A.
