(** C48: how much longer than the text of the caller the text is that is handed to the parser. *)
From Verif Require Import Query Print Spec SpecCanon SpecRewrite RewriteSize Properties10.
From Coq Require Import Lia.
Local Open Scope nat_scope.

(** Without a '$': at most four characters longer, whatever the text is. *)
Theorem C48_no_dollar_partial :
  forall input t, ~ In "$"%char input -> preprocess input = inr t -> length t <= length input + 4.
Proof. exact size_plain. Qed.
Print Assumptions C48_no_dollar_partial.

(** The four characters: both words AND stand without blanks. *)
Local Definition tight : text := L "SELECT * FROM t WHERE a=1ANDCONTAINS(p,q)AND'x'=b".
Example C48_no_dollar_case :
  forallb (fun c => negb (Ascii.eqb c "$")) tight = true /\
  exists t, preprocess tight = inr t /\ length t = length tight + 4.
Proof. split; [reflexivity|]. eexists. split; vm_compute; reflexivity. Qed.

(** In every case: at most the square. *)
Theorem C48_square_partial :
  forall input t, preprocess input = inr t -> length t <= length input * (length input + 4).
Proof. exact size_bound. Qed.
Print Assumptions C48_square_partial.
Local Definition dollar : text := L "SELECT a FROM t WHERE b='$`$`' AND CONTAINS(p,q)".
Example C48_square_case :
  preprocess dollar = inr (L "SELECT a FROM t WHERE CONTAINS(p,q) AND b='SELECT a FROM t SELECT a FROM t '").
Proof. vm_compute. reflexivity. Qed.

(** No linear bound holds, for accepted texts either, and the text of the resulting query is as long as the one handed to the parser. *)
Theorem C48_linear_refuted :
  forall tm fmt c, exists input t q, preprocess input = inr t /\ query tm input = Q_ok q /\ to_string fmt q = t /\
    c * (length input + 1) < length t.
Proof.
  intros tm fmt c. set (n := 52 * c + 1). exists (dollar_text n n), (copied_text n n), (copied_query n n).
  split; [apply dollar_rewritten|]. split; [|split; [apply copied_printed|]].
  - unfold query. rewrite dollar_rewritten, <- (copied_printed fmt). apply C13_read_back, copied_canonical.
  - rewrite dollar_length, copied_length. subst n. nia.
Qed.
Print Assumptions C48_linear_refuted.
Example C48_linear_case : dollar_text 1 2 = L "SELECT 10 FROM t WHERE b = '$`$`' AND CONTAINS(p,q)=1" /\
  copied_text 1 2 = L "SELECT 10 FROM t WHERE CONTAINS(p,q)=1 AND b = 'SELECT 10 FROM t SELECT 10 FROM t '".
Proof. split; reflexivity. Qed.
