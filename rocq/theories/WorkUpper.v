(** An upper bound for the number of rules entered. *)
From Verif Require Import Query Grammar PegProps Totality Work.

Section Upper.
Variable tm : mapping.
Notation m := (lookup tm).
Notation R n := (run (g_body m) n _).
Notation C n := (calls (g_body m) n _).

(** how many rules an expression may enter at its own level, repetitions counted twice *)
Fixpoint weight {A : Set} (e : PE A) : N :=
  (match e with
   | PLit _ _ | PLex _ | POptLex _ | PSpace | PDbl | PTop | PRet _ => 0
   | PSeq a b | PExp a b | PAlt a b => weight a + weight b
   | POpt a | PMap _ a => weight a
   | PStar a => 2 * weight a
   | PPlus a => weight a + 2 * weight a
   | PList a s => weight a + 2 * (weight a + weight s)
   | PRule _ => 1
   end)%N.
Definition factor (k : nat) : N := match k with O => 114 | S O => 33 | _ => 2 end.
Lemma weight_body r : (weight (g_body m r) <= factor (rank r))%N.
Proof. destruct r; vm_compute; discriminate. Qed.
Lemma weight_query : weight (g_query m) = 50%N.
Proof. vm_compute. reflexivity. Qed.

(** what a rule of rank below k may cost on a text of length l *)
Fixpoint bound (l k : nat) {struct l} : N :=
  (fix go (k : nat) : N := match k with
    | O => match l with O => 0%N | S l' => bound l' 3 end
    | S k' => (1 + factor k' * go k')%N
    end) k.
Lemma bound_0 : bound 0 0 = 0%N. Proof. reflexivity. Qed.
Lemma bound_up l : bound (S l) 0 = bound l 3. Proof. reflexivity. Qed.
Lemma bound_S l k : bound l (S k) = (1 + factor k * bound l k)%N. Proof. now destruct l. Qed.
Global Opaque bound.
Lemma factor_2 k : (2 <= factor k)%N. Proof. destruct k as [|[|k]]; cbn; lia. Qed.
Lemma bound_k1 l k : (2 * bound l k <= bound l (S k))%N.
Proof. rewrite bound_S. pose proof (factor_2 k). nia. Qed.
Lemma bound_k l k k' : k <= k' -> (bound l k <= bound l k')%N.
Proof. induction 1 as [|j H IH]; [lia|]. pose proof (bound_k1 l j). lia. Qed.
Lemma bound_l1 l k : k <= 3 -> (2 * bound l k <= bound (S l) k)%N.
Proof.
  intros H. destruct k as [|k].
  - rewrite bound_up. pose proof (bound_k1 l 0). pose proof (bound_k l 1 3 ltac:(lia)). lia.
  - pose proof (bound_k l (S k) 3 H). pose proof (bound_k1 (S l) 0). rewrite bound_up in *. pose proof (bound_k (S l) 1 (S k) ltac:(lia)). lia.
Qed.
Lemma bound_l l l' k : k <= 3 -> l <= l' -> (bound l k <= bound l' k)%N.
Proof. intros K. induction 1 as [|l' H IH]; [lia|]. pose proof (bound_l1 l' k K). lia. Qed.
Lemma bound_lt l l' k : k <= 3 -> l < l' -> (2 * bound l k <= bound l' k)%N.
Proof. intros K H. pose proof (bound_l1 l k K). pose proof (bound_l (S l) l' k K H). lia. Qed.
Lemma bound_next l l' k : l < l' -> (bound l 3 <= bound l' k)%N.
Proof. intros H. rewrite <- bound_up. pose proof (bound_l (S l) l' 0 ltac:(lia) H). pose proof (bound_k l' 0 k ltac:(lia)). lia. Qed.
Lemma bound_closed l : (bound l 3 + 1 <= 70 * 7524 ^ N.of_nat l)%N.
Proof.
  induction l as [|l IH].
  - rewrite !bound_S, bound_0. cbn. lia.
  - rewrite Nat2N.inj_succ, N.pow_succ_r', !bound_S, bound_up. cbn [factor]. lia.
Qed.

Lemma star_upper {A : Set} (b : text -> out A) c w k : k <= 3 ->
  (forall i v r, b i = Ok v r -> length r < length i) -> (forall i, c i <= w * bound (length i) k)%N ->
  forall n i, (calls_star b c n i <= 2 * w * bound (length i) k)%N.
Proof.
  intros K Hb Hc n. induction n as [|n IH]; intros i; cbn [calls_star]; pose proof (Hc i); destruct (b i) as [v r|r|e|] eqn:E; try nia.
  specialize (IH r). apply Hb in E. pose proof (bound_lt _ _ k K E). nia.
Qed.
Lemma list_upper {A : Set} (b : text -> out A) c s cs w ws :
  (forall i v r, b i = Ok v r -> length r < length i) -> (forall i v r, s i = Ok v r -> length r <= length i) ->
  (forall i, c i <= w * bound (length i) 3)%N -> (forall i, cs i <= ws * bound (length i) 3)%N ->
  forall n i, (calls_list b c s cs n i <= 2 * (w + ws) * bound (length i) 3)%N.
Proof.
  intros Hb Hs Hc Hcs n. induction n as [|n IH]; intros i; cbn [calls_list]; pose proof (Hcs i); destruct (s i) as [v r|r|e|] eqn:E; try nia;
    apply Hs in E; pose proof (Hc r); pose proof (bound_l _ _ 3 (le_n 3) E); destruct (b r) as [v' r'|r'|e|] eqn:E'; try nia.
  specialize (IH r'). apply Hb in E'. pose proof (bound_lt _ _ 3 (le_n 3) E'). nia.
Qed.

Notation Hn := (g_body_nonnull m).
Lemma calls_upper n : forall (A : Set) (e : PE A) k i, k <= 3 -> pchk rank 3 k e = true ->
  (C n e i <= weight e * bound (length i) k)%N.
Proof.
  induction n as [n IHn] using lt_wf_ind.
  intros A e; induction e as [nc s|e|e| | | |A w|A B a IHa b IHb|A B a IHa b IHb|A a IHa b IHb|A a IHa|A a IHa|A a IHa|A a IHa s IHs|A B f a IHa|q];
    intros k i Hk; cbn [pchk]; intros Hc.
  1-7: destruct n; cbn; lia.
  all: try (apply andb_prop in Hc as [H1 H2]).
  - assert (E : C n (PSeq a b) i = (C n a i + match R n a i with Ok _ i1 => C n b i1 | _ => 0 end)%N) by now destruct n.
    rewrite E. cbn [weight]. pose proof (IHa k i Hk H1). destruct (R n a i) as [v r|r|x|] eqn:Ea; try nia.
    destruct (pnull a) eqn:Na.
    + pose proof (IHb k r Hk H2). apply run_len in Ea. pose proof (bound_l _ _ k Hk Ea). nia.
    + pose proof (IHb 3 r (le_n 3) H2). apply (run_consumes _ Hn) in Ea; [|exact Na]. pose proof (bound_next _ _ k Ea). nia.
  - assert (E : C n (PExp a b) i = (C n a i + match R n a i with Ok _ i1 => C n b i1 | _ => 0 end)%N) by now destruct n.
    rewrite E. cbn [weight]. pose proof (IHa k i Hk H1). destruct (R n a i) as [v r|r|x|] eqn:Ea; try nia.
    destruct (pnull a) eqn:Na.
    + pose proof (IHb k r Hk H2). apply run_len in Ea. pose proof (bound_l _ _ k Hk Ea). nia.
    + pose proof (IHb 3 r (le_n 3) H2). apply (run_consumes _ Hn) in Ea; [|exact Na]. pose proof (bound_next _ _ k Ea). nia.
  - assert (E : C n (PAlt a b) i = (C n a i + match R n a i with Fail r => C n b r | _ => 0 end)%N) by now destruct n.
    rewrite E. cbn [weight]. pose proof (IHa k i Hk H1). destruct (R n a i) as [v r|r|x|] eqn:Ea; try nia.
    pose proof (IHb k r Hk H2). pose proof (run_ok (g_body m) n _ a i) as Q. rewrite Ea in Q. apply suffix_len in Q. pose proof (bound_l _ _ k Hk Q). nia.
  - assert (E : C n (POpt a) i = C n a i) by now destruct n. rewrite E. now apply IHa.
  - assert (E : C n (PStar a) i = calls_star (R n a) (C n a) (length i) i) by now destruct n. rewrite E. cbn [weight].
    apply star_upper; [exact Hk| |intros j; now apply IHa]. intros j v r. apply (run_consumes _ Hn). now apply negb_true_iff.
  - assert (E : C n (PPlus a) i = (C n a i + match R n a i with Ok _ i1 => calls_star (R n a) (C n a) (length i1) i1 | _ => 0 end)%N) by now destruct n.
    rewrite E. cbn [weight]. pose proof (IHa k i Hk H2). destruct (R n a i) as [v r|r|x|] eqn:Ea; try nia.
    pose proof (star_upper (R n a) (C n a) (weight a) k Hk) as S. specialize (fun H => S H (fun j => IHa k j Hk H2)).
    specialize (S ltac:(intros j v' r'; apply (run_consumes _ Hn); now apply negb_true_iff) (length r) r).
    apply run_len in Ea. pose proof (bound_l _ _ k Hk Ea). nia.
  - apply andb_prop in H2 as [H2 H3]. apply negb_true_iff in H1.
    assert (E : C n (PList a s) i = (C n a i + match R n a i with Ok _ i1 => calls_list (R n a) (C n a) (R n s) (C n s) (length i1) i1 | _ => 0 end)%N) by now destruct n.
    rewrite E. cbn [weight]. pose proof (IHa k i Hk H2). destruct (R n a i) as [v r|r|x|] eqn:Ea; try nia.
    assert (Ca : forall j, (C n a j <= weight a * bound (length j) 3)%N) by (intros j; pose proof (IHa k j Hk H2); pose proof (bound_k (length j) k 3 Hk); nia).
    pose proof (list_upper (R n a) (C n a) (R n s) (C n s) (weight a) (weight s)
      (fun j v' r' => run_consumes _ Hn n _ a j v' r' H1) (fun j v' r' => run_len _ n _ s j v' r') Ca (fun j => IHs 3 j (le_n 3) H3) (length r) r) as S.
    apply (run_consumes _ Hn) in Ea; [|exact H1]. pose proof (bound_next _ _ k Ea). nia.
  - assert (E : C n (PMap f a) i = C n a i) by now destruct n. rewrite E. now apply IHa.
  - destruct n as [|n]; [cbn; lia|]. apply Nat.ltb_lt in Hc. cbn [weight calls].
    pose proof (IHn n (le_n _) _ (g_body m q) (rank q) i ltac:(lia) (g_body_chk m q)).
    pose proof (weight_body q). pose proof (bound_k (length i) (S (rank q)) k Hc) as B. rewrite bound_S in B. nia.
Qed.
Lemma parse_work_upper t : (parse_work tm t <= 3500 * 7524 ^ N.of_nat (length t))%N.
Proof.
  pose proof (calls_upper (fuel_for t) _ (g_query m) 3 t (le_n 3) (g_query_chk m)) as H. rewrite weight_query in H.
  pose proof (bound_closed (length t)). unfold parse_work. lia.
Qed.
End Upper.
