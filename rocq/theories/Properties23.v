(** C42 continued: the work is at most exponential, and texts that are refused can cost more than those that are accepted. *)
From Verif Require Import Query Spec SpecRewrite SpecBrackets Work WorkUpper WorkOpen Properties20 Properties21.

(** However the text looks, a number of rules that is at most exponential in its length is entered. *)
Theorem C42_exponential :
  forall tm input t, preprocess input = inr t -> (work tm input <= 3500 * 7524 ^ N.of_nat (length t))%N.
Proof. intros tm input t H. unfold work. rewrite H. apply parse_work_upper. Qed.
Print Assumptions C42_exponential.
Example C42_exponential_case :
  preprocess (L "SELECT * FROM t WHERE (a = 1)") = inr (L "SELECT * FROM t WHERE (a = 1)") /\
  work default_mapping (L "SELECT * FROM t WHERE (a = 1)") = 47%N.
Proof. split; vm_compute; reflexivity. Qed.

(** n parentheses that are never closed: a text of 22 + n characters, refused with every mapping, for which
    the rules are entered at least 14^n times before the exception is thrown. *)
Theorem C42_unclosed :
  forall tm n, exists input, input = L "SELECT * FROM t WHERE " ++ repeat "("%char n /\ length input = 22 + n /\
    (n > 0 -> exists e, query tm input = Q_err e) /\ (14 ^ N.of_nat n <= work tm input)%N.
Proof.
  intros tm n. eexists. split; [reflexivity|]. split; [now rewrite app_length, repeat_length|]. split; [|apply open_work].
  intros Hn. apply C41_refused_partial; [apply open_plain| | |].
  - intros (a & b & E). assert (I : In "-"%char (L "SELECT * FROM t WHERE " ++ repeat "("%char n)) by (rewrite E, !in_app_iff; right; left; now left).
    apply in_app_or in I as [I|I]; [vm_compute in I; intuition discriminate|]. apply repeat_spec in I. discriminate.
  - intros O. apply (WorkProofs.occurs_char _ "N"%char) in O; [|vm_compute; tauto]. rewrite map_app, in_app_iff in O. destruct O as [O|O].
    + vm_compute in O. intuition discriminate.
    + apply in_map_iff in O as (c & E & I). apply repeat_spec in I. subst c. discriminate E.
  - unfold bracketed. assert (S : forall k st, scan (None, st) (repeat "("%char k) = Some (None, repeat "("%char k ++ st)).
    { intros k. induction k as [|k IH]; intros st; [reflexivity|]. cbn [repeat app scan read1 Ascii.eqb Bool.eqb orb]. rewrite IH.
      change ("("%char :: st) with ([ "("%char ] ++ st). now rewrite app_assoc, <- repeat_cons. }
    change (scan (None, []) (repeat "("%char n) <> Some (None, [])). rewrite S, app_nil_r. destruct n; [lia|discriminate].
Qed.
Print Assumptions C42_unclosed.
(** The count itself, without a parenthesis and with one. *)
Example C42_unclosed_count : map (fun n => work default_mapping (L "SELECT * FROM t WHERE " ++ repeat "("%char n)) [0; 1] = [15%N; 221%N].
Proof. vm_compute. reflexivity. Qed.
