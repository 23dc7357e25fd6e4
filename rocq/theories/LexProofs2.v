(** Identifiers, string literals and numbers: what the lexical rules read (C05, C07, C08, C09). *)
From Verif Require Import Lexical PegProps Gen TextLemmas Throws SpecLexical LexProofs.

(** ** Doubled quotes *)
Definition part (q : ascii) : se := SAlt (SChr (fun c => negb (Ascii.eqb c q))) (SStr false [q; q]).
Lemma part_byte q c i acc : c <> q -> srun (part q) acc (c :: i) = SOk (acc ++ [c]) i.
Proof. intros H. apply Ascii.eqb_neq in H. cbn. now rewrite H. Qed.
Lemma part_quote q i acc : srun (part q) acc (q :: q :: i) = SOk (acc ++ [q; q]) i.
Proof. cbn. rewrite !Ascii.eqb_refl. reflexivity. Qed.
Lemma part_end q k acc : stops (fun c => c = q) k -> srun (part q) acc (q :: k) = SFail acc.
Proof.
  intros K. cbn. rewrite !Ascii.eqb_refl. cbn. destruct k as [|c k]; [reflexivity|]. cbn in K.
  destruct (Ascii.eqb q c) eqn:E; [|reflexivity]. apply Ascii.eqb_eq in E. congruence.
Qed.
Lemma part_none q acc : srun (part q) acc [] = SFail acc. Proof. reflexivity. Qed.

Lemma star_part q b k : doubled q b -> stops (fun c => c = q) k -> forall n acc, length b <= n ->
  sstar (srun (part q)) n acc (b ++ q :: k) = SOk (acc ++ b) (q :: k).
Proof.
  intros D K. induction D as [|c t Hc D IH|t D IH]; intros n acc Hn; cbn [app].
  - rewrite app_nil_r. destruct n; cbn [sstar]; rewrite part_end by exact K; reflexivity.
  - destruct n as [|n]; [cbn in Hn; lia|]. cbn [sstar]. rewrite part_byte by exact Hc.
    replace (_ <? _) with true by (symmetry; apply Nat.ltb_lt; cbn; lia). rewrite IH by (cbn in Hn; lia). now rewrite <- app_assoc.
  - destruct n as [|n]; [cbn in Hn; lia|]. cbn [sstar]. rewrite part_quote.
    replace (_ <? _) with true by (symmetry; apply Nat.ltb_lt; cbn; lia). rewrite IH by (cbn in Hn; lia). now rewrite <- app_assoc.
Qed.
(** Conversely. *)
Lemma star_part_inv q : forall n acc i a r, sstar (srun (part q)) n acc i = SOk a r ->
  exists b, a = acc ++ b /\ i = b ++ r /\ doubled q b /\ (r = [] \/ exists k, r = q :: k /\ stops (fun c => c = q) k).
Proof.
  induction n as [|n IH]; intros acc i a r; cbn [sstar].
  - destruct i as [|c i]; [rewrite part_none; intros H; injection H as <- <-; exists []; rewrite app_nil_r; repeat split; auto; constructor|].
    destruct (ascii_dec c q) as [->|N].
    + destruct i as [|d i]; [|destruct (ascii_dec d q) as [->|N]].
      * rewrite part_end by exact I. intros H; injection H as <- <-. exists []; rewrite app_nil_r; repeat split; auto; [constructor|].
        right. exists []. split; [reflexivity|exact I].
      * rewrite part_quote. discriminate.
      * rewrite part_end by exact N. intros H; injection H as <- <-. exists []; rewrite app_nil_r; repeat split; auto; [constructor|].
        right. exists (d :: i). split; [reflexivity|exact N].
    + rewrite part_byte by exact N. discriminate.
  - destruct i as [|c i]; [rewrite part_none; intros H; injection H as <- <-; exists []; rewrite app_nil_r; repeat split; auto; constructor|].
    destruct (ascii_dec c q) as [->|N].
    + destruct i as [|d i]; [|destruct (ascii_dec d q) as [->|N]].
      * rewrite part_end by exact I. intros H; injection H as <- <-. exists []; rewrite app_nil_r; repeat split; auto; [constructor|].
        right. exists []. split; [reflexivity|exact I].
      * rewrite part_quote. destruct (_ <? _); [|discriminate]. intros H. apply IH in H as (b & -> & -> & D & R).
        exists (q :: q :: b). rewrite <- app_assoc. repeat split; auto. now constructor.
      * rewrite part_end by exact N. intros H; injection H as <- <-. exists []; rewrite app_nil_r; repeat split; auto; [constructor|].
        right. exists (d :: i). split; [reflexivity|exact N].
    + rewrite part_byte by exact N. destruct (_ <? _); [|discriminate]. intros H. apply IH in H as (b & -> & -> & D & R).
      exists (c :: b). rewrite <- app_assoc. repeat split; auto. now constructor.
Qed.
Lemma plus_part q b k acc : doubled q b -> b <> [] -> stops (fun c => c = q) k ->
  srun (SPlus (part q)) acc (b ++ q :: k) = SOk (acc ++ b) (q :: k).
Proof.
  intros D N K. cbn [srun]. destruct D as [|c t Hc D|t D]; [congruence| |]; cbn [app].
  - change (srun (SAlt _ _)) with (srun (part q)). rewrite part_byte by exact Hc. rewrite star_part; auto; [now rewrite <- app_assoc|].
    rewrite app_length. lia.
  - change (srun (SAlt _ _)) with (srun (part q)). rewrite part_quote. rewrite star_part; auto; [now rewrite <- app_assoc|].
    rewrite app_length. lia.
Qed.

(** ** Delimited identifiers *)
Lemma delimited_run d k : delimited d -> stops (fun c => c = dq) k -> srun s_delimited_identifier [] (d ++ k) = SOk d k.
Proof.
  intros (b & -> & D & N) K. unfold s_delimited_identifier. cbn [srun app chr]. change dquote with dq.
  rewrite Ascii.eqb_refl. rewrite <- app_assoc. cbn [app].
  pose proof (plus_part dq b k [dq] D N K) as H. unfold part in H. cbn [srun] in H.
  unfold s_delimited_identifier_part. cbn [srun]. change dquote with dq. rewrite H. now rewrite Ascii.eqb_refl.
Qed.
Lemma delimited_inv i v r : srun s_delimited_identifier [] i = SOk v r -> i = v ++ r /\ delimited v /\ stops (fun c => c = dq) r.
Proof.
  unfold s_delimited_identifier. cbn [srun chr]. change dquote with dq. destruct i as [|c i]; [discriminate|].
  destruct (Ascii.eqb c dq) eqn:E; [|discriminate]. apply Ascii.eqb_eq in E as ->. cbn [app].
  change s_delimited_identifier_part with (part dq). intros H.
  assert (exists a r', srun (SPlus (part dq)) [dq] i = SOk a r' /\ a <> [dq] /\ srun (chr dq) a r' = SOk v r) as (a & r' & P & Na & Q).
  { cbn [srun]. destruct (srun (part dq) [dq] i) as [a1 i1| | |] eqn:P1; try discriminate.
    destruct (sstar (srun (part dq)) (length i1) a1 i1) as [a r'| | |] eqn:P2; try discriminate.
    exists a, r'. repeat split; auto. apply star_part_inv in P2 as (b & -> & _).
    destruct i as [|c i]; [discriminate P1|]. destruct (ascii_dec c dq) as [->|N].
    - destruct i as [|d i]; [discriminate P1|]. destruct (ascii_dec d dq) as [->|N].
      + rewrite part_quote in P1. injection P1 as <- <-. discriminate.
      + rewrite part_end in P1 by exact N. discriminate.
    - rewrite part_byte in P1 by exact N. injection P1 as <- <-. discriminate. }
  assert (exists b, a = dq :: b /\ i = b ++ r' /\ doubled dq b /\ (r' = [] \/ exists k, r' = dq :: k /\ stops (fun c => c = dq) k)) as (b & -> & -> & D & R).
  { cbn [srun] in P. destruct (srun (part dq) [dq] i) as [a1 i1| | |] eqn:P1; try discriminate.
    apply star_part_inv in P as (b & -> & -> & D & R).
    destruct i as [|c i]; [discriminate P1|]. destruct (ascii_dec c dq) as [->|N].
    - destruct i as [|d i]; [discriminate P1|]. destruct (ascii_dec d dq) as [->|N].
      + rewrite part_quote in P1. injection P1 as <- ->. exists (dq :: dq :: b). repeat split; auto. now constructor.
      + rewrite part_end in P1 by exact N. discriminate.
    - rewrite part_byte in P1 by exact N. injection P1 as <- ->. exists (c :: b). repeat split; auto. now constructor. }
  destruct R as [->|(k & -> & K)]; [discriminate Q|]. cbn in Q. rewrite ?Ascii.eqb_refl in Q. cbn in Q.
  injection Q as <- <-. split; [|split; auto].
  - cbn. now rewrite <- app_assoc.
  - exists b. repeat split; auto. intros ->. now apply Na.
Qed.
Lemma delimited_starts d : delimited d -> exists b, d = dq :: b.
Proof. intros (b & -> & _). eauto. Qed.

(** ** Identifiers *)
Lemma word_starts w : word w -> exists c w', w = c :: w' /\ is_letter c = true.
Proof. intros (c & w' & -> & H & _). exists c, w'. split; auto. now apply is_letter_iff. Qed.
Lemma letter_not_quote c : is_letter c = true -> Ascii.eqb c dq = false.
Proof. intros H. destruct (Ascii.eqb c dq) eqn:E; auto. apply Ascii.eqb_eq in E as ->. discriminate. Qed.
Lemma end_execx_iff w k : upper w = L "END" -> (end_execx k = true <-> end_exec_more w k).
Proof.
  intros U. unfold end_execx, end_exec_more. split.
  - intros H. split; auto. destruct (strip true (L "-EXEC") k) as [[m r]|] eqn:E; [|discriminate]. destruct r as [|c r]; [discriminate|].
    apply strip_nc_iff in E as [-> Um]. exists m, c, r. repeat split; auto. now apply is_idchar_iff.
  - intros (_ & m & c & r & -> & Um & Wc). assert (strip true (L "-EXEC") (m ++ c :: r) = Some (m, c :: r)) as -> by (apply strip_nc_iff; auto).
    now apply is_idchar_iff.
Qed.
Lemma END_word w : upper w = L "END" -> word w.
Proof.
  intros U. destruct w as [|a [|b [|c [|d w]]]]; try discriminate. cbn in U. injection U as U1 U2 U3.
  assert (forall x y, upc x = y -> is_letter y = true -> letter x) as H.
  { intros x y <- Hy. apply is_letter_iff. revert Hy. destruct x as [[] [] [] [] [] [] [] []]; cbn; congruence. }
  exists a, [b; c]. repeat split; [eapply H; [exact U1|reflexivity]|]. constructor; [left; eapply H; [exact U2|reflexivity]|]. constructor; [left; eapply H; [exact U3|reflexivity]|]. constructor.
Qed.
Lemma reserved_END w : upper w = L "END" -> reserved w.
Proof. intros U. unfold reserved. rewrite U. apply words_agree, mem_iff. vm_compute. reflexivity. Qed.
Lemma shadowed_reserved w : shadowed w -> reserved w.
Proof.
  intros H. unfold shadowed in H. unfold reserved. revert H. generalize (upper w). intros u H. apply words_agree.
  cbn [map In] in H. repeat destruct H as [<-|H]; try contradiction; apply mem_iff; vm_compute; reflexivity.
Qed.
(** Is the word [w] in front of [k] an identifier? *)
Lemma reserved_dec w : {reserved w} + {~ reserved w}.
Proof.
  destruct (mem (upper w) (sql_words ++ adql_words)) eqn:E; [left|right; intros H]; [now apply mem_iff|].
  unfold reserved in H. apply mem_iff in H. congruence.
Qed.
Lemma shadowed_dec w : {shadowed w} + {~ shadowed w}.
Proof.
  destruct (mem (upper w) shadowed_words) eqn:E; [left|right; intros H]; [now apply mem_iff|].
  unfold shadowed in H. apply (proj2 (mem_iff _ shadowed_words)) in H. congruence.
Qed.
Lemma text_dec (a b : text) : {a = b} + {a <> b}.
Proof. apply list_eq_dec, ascii_dec. Qed.
Lemma word_cases w k : word w -> stops word_char k ->
  ((~ reserved w \/ shadowed w \/ end_exec_more w k) /\ srun s_keyword [] (w ++ k) = SFail []) \/
  (~ (~ reserved w \/ shadowed w \/ end_exec_more w k) /\ exists r, srun s_keyword [] (w ++ k) = SOk [] r).
Proof.
  intros W K. destruct (reserved_dec w) as [R|R]; [|left; split; [auto|now apply free_word_not_keyword]].
  destruct (shadowed_dec w) as [S|S]; [left; split; [auto|now apply shadowed_word_not_keyword]|].
  destruct (text_dec (upper w) (L "END")) as [U|U].
  - rewrite (end_keyword w k U K). destruct (end_execx k) eqn:E.
    + left. split; auto. right; right. now apply end_execx_iff.
    + right. split; [|eauto]. intros [H|[H|H]]; auto. apply end_execx_iff in H; auto. congruence.
  - right. split; [|now apply reserved_word_keyword]. intros [H|[H|[H _]]]; auto.
Qed.
Lemma identifier_run v k : identifier_before k v -> srun s_identifier [] (v ++ k) = SOk v k.
Proof.
  intros [(W & K & F)|(D & K)]; unfold s_identifier, s_regular_identifier; cbn [srun].
  - destruct (word_cases v k W K) as [[_ ->]|[N _]]; [|contradiction]. rewrite all_identifiers_run; auto.
  - pose proof (delimited_run v k D K) as H. destruct (delimited_starts v D) as (b & ->). cbn [app] in *.
    rewrite keyword_run.
    assert (first_kw source_words (dq :: b ++ k) = None) as ->.
    { apply first_kw_none. intros u Hu. destruct (source_shape u Hu) as [->|(A & _ & N)]; [reflexivity|].
      destruct (L u) as [|c l]; [congruence|]. cbn in A. apply andb_true_iff in A as [A _]. cbn.
      unfold eq_nc. destruct (Ascii.eqb (upc c) (upc dq)) eqn:E; [|reflexivity]. apply Ascii.eqb_eq in E.
      rewrite <- upc_idchar, E in A. discriminate. }
    unfold s_all_identifiers. cbn [srun]. change (is_letter dq) with false. cbn iota. exact H.
Qed.
Lemma span_id i : exists w k, i = w ++ k /\ Forall word_char w /\ stops word_char k.
Proof.
  induction i as [|c i (w & k & -> & F & K)]; [exists [], []; repeat split; constructor|].
  destruct (is_idchar c) eqn:E.
  - exists (c :: w), k. repeat split; auto. constructor; auto. now apply is_idchar_iff.
  - exists [], (c :: w ++ k). repeat split; auto. cbn. intros H. apply is_idchar_iff in H. congruence.
Qed.
Lemma word_span c i : is_letter c = true -> exists w k, c :: i = w ++ k /\ word w /\ stops word_char k.
Proof.
  intros H. destruct (span_id i) as (w & k & -> & F & K). exists (c :: w), k. repeat split; auto.
  exists c, w. repeat split; auto. now apply is_letter_iff.
Qed.
Lemma identifier_inv i v r : srun s_identifier [] i = SOk v r -> i = v ++ r /\ identifier_before r v.
Proof.
  intros H. unfold s_identifier in H. cbn [srun] in H.
  destruct (srun s_regular_identifier [] i) as [v' r'|a| |] eqn:E; try discriminate.
  - injection H as -> ->. unfold s_regular_identifier in E. cbn [srun] in E.
    destruct (srun s_keyword [] i) as [? ?|?|?|] eqn:Ek; try discriminate.
    destruct i as [|c i]; [discriminate|]. destruct (is_letter c) eqn:Hl; [|unfold s_all_identifiers in E; cbn [srun] in E; rewrite Hl in E; discriminate].
    destruct (word_span c i Hl) as (w & k & Ei & W & K). rewrite Ei in *. rewrite all_identifiers_run in E by assumption.
    injection E as <- <-. split; auto. left. repeat split; auto.
    destruct (word_cases w k W K) as [[F _]|[_ (r & Er)]]; [exact F|]. rewrite Er in Ek. discriminate.
  - assert (a = []) as -> by (apply (proj2 verb_regular [] i); exact E).
    apply delimited_inv in H as (-> & D & K). split; auto. right. auto.
Qed.
Lemma identifier_iff i v r : srun s_identifier [] i = SOk v r <-> i = v ++ r /\ identifier_before r v.
Proof. split; [apply identifier_inv|intros [-> H]; now apply identifier_run]. Qed.
Lemma reserved_rejected w k : word w -> stops word_char k -> reserved w -> ~ shadowed w -> ~ end_exec_more w k ->
  srun s_identifier [] (w ++ k) = SFail [].
Proof.
  intros W K R S N. unfold s_identifier, s_regular_identifier. cbn [srun].
  destruct (word_cases w k W K) as [[[H|[H|H]] _]|[_ (r & ->)]]; try contradiction.
  destruct (word_starts w W) as (c & w' & -> & Hl). cbn [app]. unfold s_delimited_identifier. cbn [srun chr].
  change dquote with dq. now rewrite letter_not_quote.
Qed.

(** ** Numbers *)
Lemma digits_run d k acc : digits d -> stops digit k -> srun s_unsigned_integer acc (d ++ k) = SOk (acc ++ d) k.
Proof.
  intros [N F] K. unfold s_unsigned_integer. destruct d as [|c d]; [congruence|]. inversion F as [|? ? Fc Fd]; subst.
  cbn [srun app]. rewrite (proj2 (is_digit_iff c) Fc).
  pose proof (star_chr is_digit d k (acc ++ [c]) (Forall_class _ _ _ is_digit_iff Fd) (stops_class _ _ _ is_digit_iff K)) as H.
  cbn [srun] in H. etransitivity; [exact H|]. now rewrite <- app_assoc.
Qed.
Lemma digits_starts d : digits d -> exists c d', d = c :: d' /\ is_digit c = true.
Proof. intros [N F]. destruct d as [|c d]; [congruence|]. inversion F; subst. exists c, d. split; auto. now apply is_digit_iff. Qed.
Lemma no_digits c i acc : is_digit c = false -> srun s_unsigned_integer acc (c :: i) = SFail acc.
Proof. intros H. unfold s_unsigned_integer. cbn [srun]. now rewrite H. Qed.
Definition after_mantissa (k : text) : Prop := stops (fun c => digit c \/ c = "."%char) k.
Lemma exact_run t k acc : mantissa t -> after_mantissa k -> srun s_exact_numeric acc (t ++ k) = SOk (acc ++ t) k.
Proof.
  intros M K. assert (Kd : stops digit k) by (destruct k; cbn in *; auto).
  assert (Kp : stops (fun c => c = "."%char) k) by (destruct k; cbn in *; auto).
  unfold s_exact_numeric. destruct M as [D|[(a & b & -> & Da & Db)|(b & -> & Db)]]; cbn [srun].
  - rewrite digits_run by auto. cbn [chr srun]. destruct k as [|c k]; [reflexivity|]. cbn in Kp.
    destruct (Ascii.eqb c ".") eqn:E; [apply Ascii.eqb_eq in E; contradiction|reflexivity].
  - rewrite <- app_assoc. rewrite digits_run; [|auto|cbn; unfold digit; cbn; lia].
    cbn [chr srun app]. rewrite Ascii.eqb_refl. rewrite digits_run by auto. rewrite <- !app_assoc. reflexivity.
  - cbn [app]. rewrite no_digits by reflexivity. cbn [chr srun]. rewrite Ascii.eqb_refl. rewrite digits_run by auto. now rewrite <- app_assoc.
Qed.
Lemma number_run t k acc : number t -> after_number k -> srun s_unsigned_numeric acc (t ++ k) = SOk (acc ++ t) k.
Proof.
  intros Nt K.
  assert (Km : after_mantissa k) by (destruct k; cbn in *; [auto|intros [H|H]; apply K; auto; left; right; left; exact H]).
  assert (Kd : stops digit k) by (destruct k; cbn in *; auto).
  assert (Ke : match k with [] => True | c :: _ => (Ascii.eqb c "E" || Ascii.eqb c "e") = false end).
  { destruct k as [|c k]; [exact I|]. cbn in K. destruct (Ascii.eqb c "E" || Ascii.eqb c "e") eqn:E; [|reflexivity].
    exfalso. apply K. left. left. apply is_letter_iff. apply orb_true_iff in E as [E|E]; apply Ascii.eqb_eq in E as ->; reflexivity. }
  unfold s_unsigned_numeric. cbn [srun s_approximate_numeric]. unfold s_approximate_numeric. cbn [srun].
  destruct Nt as [M|(a & b & -> & M & (e & s & d & -> & He & Hs & Hd))].
  - rewrite exact_run by auto. destruct k as [|c k]; [|rewrite Ke]; cbn [srun];
      (etransitivity; [apply exact_run; auto|reflexivity]).
  - rewrite <- app_assoc. cbn [app]. rewrite exact_run; [|exact M|]. 2:{ cbn. unfold digit. destruct He as [-> | ->]; cbn; intros [H|H]; [lia|discriminate|lia|discriminate]. }
    replace (Ascii.eqb e "E" || Ascii.eqb e "e") with true by (destruct He as [-> | ->]; reflexivity).
    unfold s_signed_integer. cbn [srun s_sign]. unfold s_sign. cbn [srun chr].
    destruct Hs as [->|[->| ->]]; cbn [app].
    + destruct (digits_starts d Hd) as (c & d' & -> & Hc). cbn [app].
      assert (Ascii.eqb c "+" = false) as -> by (apply Ascii.eqb_neq; intros ->; discriminate).
      assert (Ascii.eqb c "-" = false) as -> by (apply Ascii.eqb_neq; intros ->; discriminate).
      change (c :: d' ++ k) with ((c :: d') ++ k). rewrite digits_run by auto. rewrite <- !app_assoc. reflexivity.
    + cbn [srun]. change (Ascii.eqb "+" "+") with true. cbn iota. rewrite digits_run by auto. rewrite <- !app_assoc. reflexivity.
    + change (Ascii.eqb "-" "+") with false. change (Ascii.eqb "-" "-") with true. cbn iota. rewrite digits_run by auto. rewrite <- !app_assoc. reflexivity.
Qed.
Lemma number_literal_run t k : number t -> after_number k -> srun s_unsigned_literal [] (t ++ k) = SOk t k.
Proof. intros N K. unfold s_unsigned_literal. cbn [srun]. rewrite number_run by auto. reflexivity. Qed.

(** ** String literals *)
Lemma blank_class c : (c = " "%char \/ N_of_ascii c = 10%N) -> c = " "%char \/ c = newline.
Proof. intros [H|H]; auto. right. unfold newline. now rewrite <- H, ascii_N_embedding. Qed.
Lemma comment_blank c i acc : c = " "%char \/ c = newline -> srun s_separator acc (c :: i) = SOk (acc ++ [c]) i.
Proof. intros [->| ->]; reflexivity. Qed.
Lemma separator_none r acc : stops (fun c => c = " "%char \/ N_of_ascii c = 10%N \/ c = sq) r -> ~ begins (L "--") r ->
  exists a, srun s_separator acc r = SFail a.
Proof.
  intros S C. unfold s_separator, s_comment. cbn [srun chr]. destruct r as [|c r]; [eauto|]. cbn in S.
  assert (Ascii.eqb c " " = false) as E1 by (apply Ascii.eqb_neq; tauto).
  assert (Ascii.eqb c newline = false) as E2 by (apply Ascii.eqb_neq; intros ->; apply S; right; left; reflexivity).
  rewrite E1, E2. destruct (Ascii.eqb c "-") eqn:E; [|eauto]. apply Ascii.eqb_eq in E as ->.
  destruct r as [|d r]; [eauto|]. destruct (Ascii.eqb d "-") eqn:E; [|eauto]. apply Ascii.eqb_eq in E as ->.
  exfalso. apply C. exists r. reflexivity.
Qed.
Lemma separators_star b r : Forall (fun c => c = " "%char \/ c = newline) b ->
  stops (fun c => c = " "%char \/ N_of_ascii c = 10%N \/ c = sq) r -> ~ begins (L "--") r ->
  forall n acc, length b <= n -> exists a, sstar (srun s_separator) n acc (b ++ r) = SOk a r.
Proof.
  intros F S C. induction b as [|c b IH]; intros n acc Hn; cbn [app].
  - destruct (separator_none r acc S C) as (a & E). destruct n; cbn [sstar]; rewrite E; eauto.
  - inversion F as [|? ? Fc Fb]; subst. destruct n as [|n]; [cbn in Hn; lia|]. cbn [sstar]. rewrite comment_blank by exact Fc.
    replace (_ <? _) with true by (symmetry; apply Nat.ltb_lt; cbn; lia). apply IH; auto. cbn in Hn; lia.
Qed.
Lemma string_run s k : string_literal s -> no_more_literal k -> srun s_character_string [] (s ++ k) = SOk s k.
Proof.
  intros (b & -> & D) (bl & r & -> & F & S & C).
  assert (Hq : stops (fun c => c = sq) (bl ++ r)).
  { destruct bl as [|c bl]; cbn; [destruct r; cbn in *; auto|]. inversion F as [|? ? [Fc|Fc] _]; subst; [discriminate|]. intros ->. discriminate. }
  assert (F' : Forall (fun c => c = " "%char \/ c = newline) bl) by (revert F; apply Forall_impl, blank_class).
  unfold s_character_string. cbn [srun]. unfold chr at 1. cbn [srun app]. change quote with sq. rewrite Ascii.eqb_refl. rewrite <- app_assoc.
  cbn [app]. change s_character_representation with (part sq).
  rewrite (star_part sq b (bl ++ r) D Hq) by (rewrite app_length; lia).
  unfold chr at 1. cbn [srun]. rewrite Ascii.eqb_refl. cbn [app].
  match goal with |- match ?x with _ => _ end = _ => idtac | |- ?x = _ => idtac end.
  assert (forall acc, exists a, srun (SSeq (SPlus s_separator) (SSeq (chr sq) (SSeq (SStar (part sq)) (chr sq)))) acc (bl ++ r) = SFail a) as H.
  { intros acc. cbn [srun]. destruct bl as [|c bl]; cbn [app].
    - destruct (separator_none r acc S C) as (a & ->). eauto.
    - inversion F' as [|? ? Fc Fb]; subst. rewrite comment_blank by exact Fc.
      destruct (separators_star bl r Fb S C (length (bl ++ r)) (acc ++ [c])) as (a & ->); [rewrite app_length; lia|].
      unfold chr at 1. cbn [srun]. destruct r as [|d r]; [eauto|]. cbn in S.
      assert (Ascii.eqb d sq = false) as -> by (apply Ascii.eqb_neq; tauto). eauto. }
  destruct (H (sq :: b ++ [sq])) as (a & Ha). cbn [srun] in Ha.
  generalize (length (bl ++ r)). intros n. destruct n; cbn [sstar srun]; rewrite Ha; reflexivity.
Qed.
Lemma number_starts t : number t -> exists c t', t = c :: t' /\ (is_digit c = true \/ c = "."%char).
Proof.
  assert (forall t, mantissa t -> exists c t', t = c :: t' /\ (is_digit c = true \/ c = "."%char)) as H.
  { intros x [D|[(a & b & -> & D & _)|(b & -> & _)]].
    - destruct (digits_starts x D) as (c & d & -> & Hc). eauto.
    - destruct (digits_starts a D) as (c & d & -> & Hc). cbn. eauto.
    - eauto. }
  intros [M|(a & b & -> & M & _)]; auto. destruct (H a M) as (c & t' & -> & Hc). cbn. eauto.
Qed.
Lemma string_literal_run s k : string_literal s -> no_more_literal k -> srun s_unsigned_literal [] (s ++ k) = SOk s k.
Proof.
  intros Sl K. pose proof (string_run s k Sl K) as H. destruct Sl as (b & -> & D). cbn [app] in *.
  unfold s_unsigned_literal. cbn [srun]. change (srun s_unsigned_numeric [] (sq :: (b ++ [sq]) ++ k)) with (SFail []). cbn iota. now rewrite H.
Qed.
