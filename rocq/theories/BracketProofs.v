(** The texts of the declarative grammar have matching brackets and closed quotes (C41). *)
From Verif Require Import Query Spec SpecNodes SpecLexical SpecContent SpecSpelling SpecBrackets.

Scheme spells_w := Minimality for spells Sort Prop with writes_w := Minimality for writes Sort Prop.
Combined Scheme spells_writes from spells_w, writes_w.

Definition clean (t : text) : Prop := ~ occurs (L "--") t /\ ~ occurs_nc (L "NAN(") t.
Lemma clean_mid a b c : clean (a ++ b ++ c) -> clean b.
Proof.
  intros [H1 H2]. split.
  - intros (x & y & ->). apply H1. exists (a ++ x), (y ++ c). now rewrite <- !app_assoc.
  - intros (x & m & y & -> & E). apply H2. exists (a ++ x), m, (y ++ c). now rewrite <- !app_assoc.
Qed.
Lemma clean_l a b : clean (a ++ b) -> clean a. Proof. intros H. now apply (clean_mid [] a b). Qed.
Lemma clean_r a b : clean (a ++ b) -> clean b. Proof. intros H. apply (clean_mid a b []). now rewrite app_nil_r. Qed.

Definition plainc (c : ascii) : bool := negb (existsb (Ascii.eqb c) (L "'()[]" ++ [""""%char])).
Definition plain (t : text) : Prop := forallb plainc t = true.
Lemma plain_app a b : plain a -> plain b -> plain (a ++ b).
Proof. unfold plain. rewrite forallb_app. now intros -> ->. Qed.
Lemma plain_up c : plainc (upc c) = plainc c.
Proof. destruct c as [[] [] [] [] [] [] [] []]; reflexivity. Qed.
Lemma plain_upper t : plain (upper t) -> plain t.
Proof. unfold plain. induction t as [|c t IH]; [easy|]. cbn [upper map forallb]. rewrite plain_up, !andb_true_iff. intros [-> H]. split; [reflexivity|now apply IH]. Qed.
Lemma plain_space c : is_space c = true -> plainc c = true.
Proof. destruct c as [[] [] [] [] [] [] [] []]; vm_compute; congruence. Qed.
Lemma plain_white w : white w -> plain w.
Proof. induction 1 as [|c w H _ IH]; [reflexivity|]. unfold plain in *. cbn [forallb]. now rewrite plain_space, IH. Qed.
Lemma scan_app a : forall s b, scan s (a ++ b) = match scan s a with Some s' => scan s' b | None => None end.
Proof. induction a as [|c a IH]; intros s b; [reflexivity|]. cbn [app scan]. destruct (read1 s c); [apply IH|reflexivity]. Qed.
Definition quiet (s : state) : Prop := fst s = None \/ fst s = Some "'"%char.
Lemma plain_not c d : plainc c = true -> plainc d = false -> Ascii.eqb c d = false.
Proof. intros H K. apply Ascii.eqb_neq. intros ->. congruence. Qed.
Lemma scan_plain s t : quiet s -> plain t -> scan s t = Some s.
Proof.
  intros Q. induction t as [|c t IH]; [reflexivity|]. unfold plain. cbn [forallb]. rewrite andb_true_iff. intros [H K]. cbn [scan].
  assert (read1 s c = Some s) as ->; [|now apply IH].
  destruct s as [m st]. unfold read1. destruct Q as [Q|Q]; cbn [fst] in Q; subst m; rewrite !(plain_not c) by (exact H || reflexivity); reflexivity.
Qed.

(** ** Terminals *)
Lemma letter_plain c : word_char c -> plainc c = true.
Proof.
  assert (G : forall c, plainc c = false -> In c (L "'()[]" ++ [""""%char])).
  { intros d H. unfold plainc in H. apply negb_false_iff, existsb_exists in H as (x & I & E). apply Ascii.eqb_eq in E as ->. exact I. }
  intros W. destruct (plainc c) eqn:E; [reflexivity|]. apply G in E. cbn in E.
  repeat (destruct E as [<-|E]; [exfalso; destruct W as [[W|W]|[W|W]]; [vm_compute in W; destruct W as [W1 W2]; (now apply W1) || (now apply W2) ..|discriminate W]|]).
  destruct E.
Qed.
Lemma plain_Forall t : Forall (fun c => plainc c = true) t -> plain t.
Proof. intros H. apply forallb_forall. now apply Forall_forall. Qed.
Lemma word_plain w : word w -> plain w.
Proof.
  intros (c & r & -> & H & K). apply plain_Forall. constructor; [apply letter_plain; now left|].
  apply (Forall_impl _ letter_plain K).
Qed.
Lemma digits_plain w : Forall digit w -> plain w.
Proof. intros H. apply plain_Forall. refine (Forall_impl _ _ H). intros c D. apply letter_plain. right. now left. Qed.
Lemma dotted_plain w : dotted_name w -> plain w.
Proof.
  intros (c & r & -> & H & K). apply plain_Forall. constructor; [apply letter_plain; now left|].
  refine (Forall_impl _ _ K). intros d [D| ->]; [now apply letter_plain|reflexivity].
Qed.
Lemma scan_doubled q b st : q = "'"%char \/ q = """"%char -> doubled q b -> scan (Some q, st) b = Some (Some q, st).
Proof.
  intros Q. induction 1 as [|c t N _ IH|t _ IH]; [reflexivity| |].
  - cbn [scan read1]. apply Ascii.eqb_neq in N. rewrite N. exact IH.
  - cbn [scan read1]. rewrite Ascii.eqb_refl. destruct Q as [-> | ->]; exact IH.
Qed.
Lemma scan_quoted q b st : q = "'"%char \/ q = """"%char -> doubled q b -> scan (None, st) (q :: b ++ [q]) = Some (None, st).
Proof.
  intros Q D. change (q :: b ++ [q]) with ([q] ++ b ++ [q]). rewrite scan_app.
  assert (scan (None, st) [q] = Some (Some q, st)) as -> by (destruct Q as [-> | ->]; reflexivity).
  rewrite scan_app, scan_doubled by assumption. cbn [scan read1]. now rewrite Ascii.eqb_refl.
Qed.
Lemma scan_identifier k v st : identifier_before k v -> scan (None, st) v = Some (None, st).
Proof.
  intros [[W _]|[(b & -> & D & _) _]]; [apply scan_plain; [now left|now apply word_plain]|]. apply scan_quoted; [now right|exact D].
Qed.
Lemma scan_string s st : string_literal s -> scan (None, st) s = Some (None, st).
Proof. intros (b & -> & D). apply scan_quoted; [now left|exact D]. Qed.
Lemma separation_plain p : separation p -> clean p -> plain p.
Proof.
  induction 1 as [c H|c [d t nl H N _ _]|a b _ IHa _ IHb]; intros C.
  - unfold plain. cbn [forallb]. rewrite plain_space; [reflexivity|]. destruct H as [-> |H]; [reflexivity|].
    assert (c = ascii_of_N 10) as -> by (rewrite <- H; symmetry; apply ascii_N_embedding). reflexivity.
  - exfalso. destruct C as [C _]. apply C. destruct d as [|e d]; [easy|]. inversion H; subst. exists [], (d ++ t ++ [nl]). reflexivity.
  - apply plain_app; [apply IHa; now apply clean_l in C|apply IHb; now apply clean_r in C].
Qed.
Lemma scan_literal s st : literal_parts s -> clean s -> scan (None, st) s = Some (None, st).
Proof.
  induction 1 as [s H|t p s _ IH P H]; intros C; [now apply scan_string|].
  rewrite scan_app, IH by now apply clean_l in C. rewrite scan_app, scan_plain; [now apply scan_string|now left|]. apply separation_plain; [exact P|]. now apply clean_mid in C.
Qed.
Lemma mantissa_plain t : mantissa t -> plain t.
Proof.
  intros [[_ D]|[(a & b & -> & [_ A] & [_ B])|(b & -> & [_ B])]].
  - now apply digits_plain.
  - apply plain_app; [now apply digits_plain|]. change ("."%char :: b) with (L "." ++ b). apply plain_app; [reflexivity|now apply digits_plain].
  - change ("."%char :: b) with (L "." ++ b). apply plain_app; [reflexivity|now apply digits_plain].
Qed.
Lemma exponent_plain t : exponent t -> plain t.
Proof.
  intros (e & s & d & -> & E & S & [_ D]). change (e :: s ++ d) with ([e] ++ s ++ d).
  apply plain_app; [destruct E as [-> | ->]; reflexivity|]. apply plain_app; [destruct S as [-> |[-> | ->]]; reflexivity|now apply digits_plain].
Qed.
Lemma number_plain t : number t -> plain t.
Proof. intros [M|(a & b & -> & A & B)]; [now apply mantissa_plain|]. apply plain_app; [now apply mantissa_plain|now apply exponent_plain]. Qed.
Lemma listed ws v : In (upper v) (map L ws) -> forallb (fun w => forallb plainc (L w)) ws = true -> plain v.
Proof.
  intros I F. apply plain_upper. apply in_map_iff in I as (w & <- & I). rewrite forallb_forall in F. exact (F w I).
Qed.
Lemma real_plain t : real_number t -> clean t -> plain t.
Proof.
  intros (s & u & -> & S & R) C. apply plain_app; [destruct S as [-> |[-> | ->]]; reflexivity|]. apply clean_r in C.
  destruct R as [(a & x & -> & A & X)|[R|(n & b & -> & N & _)]].
  - apply plain_app; [|destruct X as [-> |X]; [reflexivity|now apply exponent_plain]].
    destruct A as [[_ A]|(b & c & -> & B & D & _)]; [now apply digits_plain|]. apply plain_app; [now apply digits_plain|].
    change ("."%char :: c) with (L "." ++ c). apply plain_app; [reflexivity|now apply digits_plain].
  - apply (listed _ _ R). reflexivity.
  - exfalso. destruct C as [_ C]. apply C. exists [], (n ++ L "("), (b ++ L ")"). split; [now rewrite <- !app_assoc|].
    unfold upper in *. rewrite map_app, N. reflexivity.
Qed.

(** ** Sequences *)
Inductive trans : list item -> state -> state -> Prop :=
| tr_nil s : quiet s -> trans [] s s
| tr_T (P : terminal) its s s1 s2 : quiet s -> (forall k x, P k x -> clean x -> scan s x = Some s1) -> trans its s1 s2 -> trans (T P :: its) s s2
| tr_P p its st s2 : trans its (None, st) s2 -> trans (Pt p :: its) (None, st) s2.
Lemma trans_app a s s1 : trans a s s1 -> forall b s2, trans b s1 s2 -> trans (a ++ b) s s2.
Proof. induction 1; intros b s3 B; cbn [app]; [exact B|eapply tr_T; eauto|apply tr_P; eauto]. Qed.
Lemma calm_T (P : terminal) its s s2 : quiet s -> (forall k x, P k x -> clean x -> plain x) -> trans its s s2 -> trans (T P :: its) s s2.
Proof. intros Q C H. apply (tr_T P its s s s2 Q); [|exact H]. intros k x X K. apply scan_plain; [exact Q|now apply (C k)]. Qed.
Lemma tr_key w its s s2 : plain (L w) -> quiet s -> trans its s s2 -> trans (key w :: its) s s2.
Proof. intros W Q. apply (calm_T _ _ _ _ Q). intros k x X _. apply plain_upper. now rewrite X. Qed.
Lemma tr_keyb w its s s2 : plain (L w) -> quiet s -> trans its s s2 -> trans (keyb w :: its) s s2.
Proof. intros W Q. apply (calm_T _ _ _ _ Q). intros k x [X _] _. apply plain_upper. now rewrite X. Qed.
Lemma tr_one ws v its s s2 : forallb (fun w => forallb plainc (L w)) ws = true -> quiet s -> trans its s s2 -> trans (one_of ws v :: its) s s2.
Proof. intros W Q. apply (calm_T _ _ _ _ Q). intros k x [-> X] _. now apply (listed ws). Qed.
Lemma tr_oneb ws v its s s2 : forallb (fun w => forallb plainc (L w)) ws = true -> quiet s -> trans its s s2 -> trans (one_ofb ws v :: its) s s2.
Proof. intros W Q. apply (calm_T _ _ _ _ Q). intros k x (-> & X & _) _. now apply (listed ws). Qed.
Lemma tr_mark m its s s2 : plain (L m) -> quiet s -> trans its s s2 -> trans (mark m :: its) s s2.
Proof. intros W Q. apply (calm_T _ _ _ _ Q). now intros k x -> _. Qed.
Lemma tr_step m its s s1 s2 : scan s (L m) = Some s1 -> quiet s -> trans its s1 s2 -> trans (mark m :: its) s s2.
Proof. intros W Q. apply (tr_T _ _ _ _ _ Q). now intros k x -> _. Qed.
Lemma tr_onemark ms v its s s2 : forallb (fun w => forallb plainc (L w)) ms = true -> quiet s -> trans its s s2 -> trans (one_mark ms v :: its) s s2.
Proof.
  intros W Q. apply (calm_T _ _ _ _ Q). intros k x [-> X] _. apply in_map_iff in X as (w & <- & I). rewrite forallb_forall in W. exact (W w I).
Qed.
Lemma tr_gap its s s2 : quiet s -> trans its s s2 -> trans (gap :: its) s s2.
Proof. intros Q. apply (calm_T _ _ _ _ Q). now intros k x [-> _] _. Qed.
Lemma tr_name v its st s2 : trans its (None, st) s2 -> trans (name v :: its) (None, st) s2.
Proof. apply tr_T; [now left|]. intros k x [-> X] _. now apply (scan_identifier k). Qed.
Lemma scan_upload mp v k x st : upload mp v k x -> scan (None, st) x = Some (None, st).
Proof. intros (n & -> & I & _). rewrite scan_app, scan_plain; [now apply (scan_identifier k)|now left|reflexivity]. Qed.
Lemma scan_dotted n k v st : dotted n k v -> scan (None, st) v = Some (None, st).
Proof.
  induction 1 as [k v I|n k v w I _ IH]; [now apply (scan_identifier k)|]. rewrite scan_app, (scan_identifier _ _ _ I).
  change ("."%char :: w) with (L "." ++ w). rewrite scan_app, scan_plain; [exact IH|now left|reflexivity].
Qed.
Lemma scan_table mp v k x st : table_name mp v k x -> scan (None, st) x = Some (None, st).
Proof. intros [U|(-> & n & _ & D)]; [now apply (scan_upload mp v k)|now apply (scan_dotted n k)]. Qed.
Lemma tr_upload mp v its st s2 : trans its (None, st) s2 -> trans (T (upload mp v) :: its) (None, st) s2.
Proof. apply tr_T; [now left|]. intros k x X _. now apply (scan_upload mp v k). Qed.
Lemma tr_table mp v its st s2 : trans its (None, st) s2 -> trans (T (table_name mp v) :: its) (None, st) s2.
Proof. apply tr_T; [now left|]. intros k x X _. now apply (scan_table mp v k). Qed.
Lemma tr_value v its st s2 : trans its (None, st) s2 -> trans (value v :: its) (None, st) s2.
Proof.
  apply tr_T; [now left|]. intros k x [(_ & [_ D] & _)|[-> [N|[K|I]]]] C.
  - apply scan_plain; [now left|now apply digits_plain].
  - apply scan_plain; [now left|now apply number_plain].
  - now apply scan_literal.
  - apply scan_plain; [now left|now apply (listed _ _ I)].
Qed.
Lemma tr_real v its s s2 : quiet s -> trans its s s2 -> trans (real v :: its) s s2.
Proof. intros Q. apply (calm_T _ _ _ _ Q). intros k x [-> R] C. now apply real_plain. Qed.
Lemma tr_whole v its s s2 : quiet s -> trans its s s2 -> trans (whole v :: its) s s2.
Proof. intros Q. apply (calm_T _ _ _ _ Q). intros k x [-> [_ D]] _. now apply digits_plain. Qed.
Lemma tr_count v its s s2 : quiet s -> trans its s s2 -> trans (count v :: its) s s2.
Proof. intros Q. apply (calm_T _ _ _ _ Q). intros k x [[_ D] _] _. now apply digits_plain. Qed.
Lemma not_plain n : is_not n -> plain n. Proof. intros N. apply plain_upper. now rewrite N. Qed.
Lemma tr_onot v its s s2 : quiet s -> trans its s s2 -> trans (optional_not v :: its) s s2.
Proof. intros Q. apply (calm_T _ _ _ _ Q). intros k x [[_ ->]|[(N & -> & _)|(_ & -> & _)]] _; [reflexivity|now apply not_plain|reflexivity]. Qed.
Lemma tr_snot v its s s2 : quiet s -> trans its s s2 -> trans (spaced_not v :: its) s s2.
Proof. intros Q. apply (calm_T _ _ _ _ Q). intros k x [[_ ->]|(-> & N & _)] _; [reflexivity|now apply not_plain]. Qed.
Lemma tr_inot v its s s2 : quiet s -> trans its s s2 -> trans (in_not v :: its) s s2.
Proof.
  intros Q. apply (calm_T _ _ _ _ Q). intros k x [[_ ->]|(-> & w & c & -> & N & S)] _; [reflexivity|]. apply plain_app; [now apply not_plain|].
  unfold plain. cbn [forallb]. now rewrite plain_space.
Qed.
Lemma tr_function v its s s2 : quiet s -> trans its s s2 -> trans (function_name v :: its) s s2.
Proof. intros Q. apply (calm_T _ _ _ _ Q). intros k x (-> & W & _) _. now apply word_plain. Qed.

Lemma tr_flat {A} (f : A -> list item) st l : (forall a, trans (f a) (None, st) (None, st)) -> trans (flat_map f l) (None, st) (None, st).
Proof. intros H. induction l as [|a l IH]; [apply tr_nil; now left|]. cbn [flat_map]. exact (trans_app _ _ _ (H a) _ _ IH). Qed.
Lemma tr_commas l st : trans (commas l) (None, st) (None, st).
Proof.
  destruct l as [|a l]; [apply tr_nil; now left|]. cbn [commas]. apply tr_P. apply tr_flat. intros b.
  apply tr_mark; [reflexivity|now left|]. apply tr_P, tr_nil. now left.
Qed.
Lemma tr_names l st : trans (names l) (None, st) (None, st).
Proof.
  destruct l as [|a l]; [apply tr_nil; now left|]. cbn [names]. apply tr_name. apply tr_flat. intros b.
  apply tr_mark; [reflexivity|now left|]. apply tr_name, tr_nil. now left.
Qed.
Lemma tr_each {A} (f : A -> node) l st : trans (each f l) (None, st) (None, st).
Proof. unfold each. induction l as [|a l IH]; cbn [map]; [apply tr_nil; now left|apply tr_P, IH]. Qed.
Lemma tr_optional {A} (f : A -> list item) o st : (forall a, trans (f a) (None, st) (None, st)) -> trans (optional f o) (None, st) (None, st).
Proof. intros H. destruct o; [apply H|apply tr_nil; now left]. Qed.

Ltac q := (now left) || (now right).
Ltac tr1 := lazymatch goal with
  | |- trans [] _ _ => apply tr_nil; q
  | |- trans (Pt _ :: _) _ _ => apply tr_P
  | |- trans (key _ :: _) _ _ => apply tr_key; [reflexivity|q|]
  | |- trans (keyb _ :: _) _ _ => apply tr_keyb; [reflexivity|q|]
  | |- trans (one_of _ _ :: _) _ _ => apply tr_one; [reflexivity|q|]
  | |- trans (one_ofb _ _ :: _) _ _ => apply tr_oneb; [reflexivity|q|]
  | |- trans (mark _ :: _) _ _ => eapply tr_step; [reflexivity|q|]
  | |- trans (one_mark _ _ :: _) _ _ => apply tr_onemark; [reflexivity|q|]
  | |- trans (gap :: _) _ _ => apply tr_gap; [q|]
  | |- trans (name _ :: _) _ _ => apply tr_name
  | |- trans (T (upload _ _) :: _) _ _ => apply tr_upload
  | |- trans (T (table_name _ _) :: _) _ _ => apply tr_table
  | |- trans (value _ :: _) _ _ => apply tr_value
  | |- trans (real _ :: _) _ _ => apply tr_real; [q|]
  | |- trans (whole _ :: _) _ _ => apply tr_whole; [q|]
  | |- trans (count _ :: _) _ _ => apply tr_count; [q|]
  | |- trans (optional_not _ :: _) _ _ => apply tr_onot; [q|]
  | |- trans (spaced_not _ :: _) _ _ => apply tr_snot; [q|]
  | |- trans (in_not _ :: _) _ _ => apply tr_inot; [q|]
  | |- trans (function_name _ :: _) _ _ => apply tr_function; [q|]
  | |- trans (commas _) _ _ => apply tr_commas
  | |- trans (names _) _ _ => apply tr_names
  | |- trans (each _ _) _ _ => apply tr_each
  | |- trans (flat_map _ _) _ _ => apply tr_flat; intros ?
  | |- trans (optional _ _) _ _ => apply tr_optional; intros ?
  | |- trans (if ?b then _ else _) _ _ => destruct b
  | |- trans ((_ :: _) ++ _) _ _ => cbn [app]
  | |- trans ([] ++ _) _ _ => cbn [app]
  | |- trans (_ ++ _) _ _ => eapply trans_app
  end.
Lemma tr_dotted a its s s2 : quiet s -> trans its s s2 -> trans (T (fun _ x => x = a /\ dotted_name a) :: its) s s2.
Proof. intros Q. apply (calm_T _ _ _ _ Q). intros k x [-> D] _. now apply dotted_plain. Qed.
Lemma production_trans mp p its : production mp p its -> forall st, trans its (None, st) (None, st).
Proof.
  intros H st. destruct H; try (repeat tr1; fail).
  - eapply tr_step; [reflexivity|q|].
    assert (Fr : trans fr (Some "'"%char, st) (Some "'"%char, st)) by (destruct H as [->|[-> _]]; [destruct f|]; repeat tr1).
    apply (trans_app _ _ _ Fr).
    assert (Ps : trans ps (Some "'"%char, st) (Some "'"%char, st)) by (destruct H0 as [->| ->]; repeat tr1).
    apply (trans_app _ _ _ Ps). repeat tr1.
  - apply (tr_T _ _ _ (Some "'"%char, "("%char :: "("%char :: st)); [q| |].
    + intros k x (tb & -> & T & D) _. rewrite scan_app, scan_plain; [|q|apply plain_upper; now rewrite T].
      rewrite scan_app. cbn [scan L list_ascii_of_string read1 Ascii.eqb Bool.eqb orb]. rewrite scan_app, scan_plain; [reflexivity|q|now apply dotted_plain].
    + assert (E : trans [mark "')"; mark ")"] (Some "'"%char, "("%char :: "("%char :: st) (None, st)) by repeat tr1.
      destruct l as [|a l]; [exact E|]. cbn [app]. apply tr_dotted; [q|]. induction l as [|b l IH]; [exact E|]. cbn [flat_map app].
      eapply tr_step; [reflexivity|q|]. cbn [scan L list_ascii_of_string read1 Ascii.eqb Bool.eqb orb]. apply tr_dotted; [q|]. exact IH.
  - apply (tr_T _ _ _ (None, st)); [q| |repeat tr1]. intros k x (y & -> & Tn) _. rewrite scan_app, (scan_table _ _ _ _ _ Tn). reflexivity.
  - cbn [app]. apply tr_keyb; [reflexivity|q|].
    assert (Q : trans qi (None, st) (None, st)) by (destruct H as [->|[-> _]]; repeat tr1). apply (trans_app _ _ _ Q).
    assert (Ti : trans ti (None, st) (None, st)) by (destruct H0 as [->|[-> _]]; repeat tr1). apply (trans_app _ _ _ Ti). repeat tr1.
  - assert (K : trans ki (None, st) (None, st)) by (destruct H as [(c & _ & ->)|(n & _ & ->)]; repeat tr1). apply (trans_app _ _ _ K).
    destruct H0 as [->|[-> _]]; repeat tr1.
Qed.

Lemma trans_quiet its s s' : trans its s s' -> quiet s.
Proof. intros []; [assumption|assumption|now left]. Qed.
Lemma white_scan s w : quiet s -> white w -> scan s w = Some s.
Proof. intros Q W. apply scan_plain; [exact Q|now apply plain_white]. Qed.
Theorem spelt_scan mp :
  (forall k t p, spells mp k t p -> clean t -> forall st, scan (None, st) t = Some (None, st)) /\
  (forall k t its, writes mp k t its -> clean t -> forall s s', trans its s s' -> scan s t = Some s').
Proof.
  apply (spells_writes mp (fun k t p => clean t -> forall st, scan (None, st) t = Some (None, st))
    (fun k t its => clean t -> forall s s', trans its s s' -> scan s t = Some s')).
  - intros k t p its Pr W IH C st. apply (IH C). now apply (production_trans mp p its).
  - intros k w W C s s' Tr. inversion Tr; subst. now apply white_scan.
  - intros k w x t P its W X _ IH C s s' Tr. inversion Tr; subst. rewrite scan_app, white_scan; [|assumption|exact W].
    rewrite scan_app. match goal with H : forall k x, P k x -> _ |- _ => rewrite (H _ _ X) end; [|now apply clean_mid in C].
    apply IH; [|assumption]. apply clean_r in C. now apply clean_r in C.
  - intros k w x t p its W _ IHx _ IH C s s' Tr. inversion Tr; subst. rewrite scan_app, white_scan; [|now left|exact W].
    rewrite scan_app, IHx; [|now apply clean_mid in C]. apply IH; [|assumption]. apply clean_r in C. now apply clean_r in C.
Qed.
Theorem written_bracketed mp t q : written mp t q -> clean t -> bracketed t.
Proof.
  intros (u & w & -> & W & S) C. unfold bracketed. rewrite scan_app, (proj1 (spelt_scan mp) _ _ _ S); [|now apply clean_l in C].
  apply white_scan; [now left|exact W].
Qed.
