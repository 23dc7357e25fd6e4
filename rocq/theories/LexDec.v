(** Deciding the lexical notions, for the examples beside the theorems. *)
From Verif Require Import Query Spec SpecLexical LexProofs LexProofs2 TextLemmas.

Definition word_b (w : text) : bool := match w with c :: w' => is_letter c && all_id w' | [] => false end.
Lemma word_dec w : word_b w = true -> word w.
Proof.
  destruct w as [|c w]; [discriminate|]. cbn. intros H. apply andb_true_iff in H as [A B].
  exists c, w. split; [reflexivity|]. split; [now apply is_letter_iff|now apply all_id_iff].
Qed.
Lemma reserved_yes w : mem (upper w) (sql_words ++ adql_words) = true -> reserved w.
Proof. intros H. now apply mem_iff. Qed.
Lemma reserved_no w : mem (upper w) (sql_words ++ adql_words) = false -> ~ reserved w.
Proof. intros H R. apply (proj2 (mem_iff _ _)) in R. rewrite R in H. discriminate. Qed.
Lemma shadowed_no w : mem (upper w) shadowed_words = false -> ~ shadowed w.
Proof. intros H R. apply (proj2 (mem_iff _ _)) in R. unfold shadowed_words in H; rewrite R in H. discriminate. Qed.
Definition digits_b (t : text) : bool := negb (is_nil t) && forallb is_digit t.
Lemma digits_dec t : digits_b t = true -> digits t.
Proof.
  intros H. apply andb_true_iff in H as [A B]. split; [now destruct t|].
  rewrite forallb_forall in B. apply Forall_forall. intros c Hc. now apply is_digit_iff, B.
Qed.
Lemma stops_dec k : match k with [] => true | c :: _ => negb (is_idchar c) end = true -> stops word_char k.
Proof. destruct k as [|c k]; cbn; [auto|]. intros H W. apply is_idchar_iff in W. rewrite W in H. discriminate. Qed.
Fixpoint doubled_b (fuel : nat) (q : ascii) (t : text) : bool :=
  match fuel, t with
  | _, [] => true
  | S f, c :: t' => if Ascii.eqb c q then match t' with d :: t'' => Ascii.eqb d q && doubled_b f q t'' | [] => false end else doubled_b f q t'
  | O, _ => false
  end.
Lemma doubled_dec f q : forall t, doubled_b f q t = true -> doubled q t.
Proof.
  induction f as [|f IH]; intros [|c t] H; [constructor|discriminate|constructor|]. cbn in H.
  destruct (Ascii.eqb_spec c q) as [->|N]; [|apply doubled_byte; auto].
  destruct t as [|d t]; [discriminate|]. apply andb_true_iff in H as [A B]. apply Ascii.eqb_eq in A as ->. apply doubled_quote. auto.
Qed.
