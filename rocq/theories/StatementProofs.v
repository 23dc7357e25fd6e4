(** The text of an accepted query is one statement (C49). *)
From Verif Require Import Query Print Spec SpecNodes SpecLexical SpecContent SpecSpelling SpecStatement PrintEq SpellMain SubNodes BracketProofs TextLemmas.

Lemma read_app a : forall m b, sql_read m (a ++ b) = match sql_read m a with Some m' => sql_read m' b | None => None end.
Proof. induction a as [|c a IH]; intros m b; [reflexivity|]. cbn [app sql_read]. destruct (sql_char m c); [apply IH|reflexivity]. Qed.

Definition good (t : text) : Prop := sql_read Code t = Some Code.
Definition tame (t : text) : Prop := harmless_name t.
Lemma good_app a b : good a -> good b -> good (a ++ b).
Proof. unfold good. intros A B. now rewrite read_app, A. Qed.
Lemma good_nil : good []. Proof. reflexivity. Qed.
Lemma tame_good t : tame t -> good t. Proof. intros H. apply H. now left. Qed.
Lemma tame_app a b : tame a -> good b -> tame (a ++ b).
Proof. intros A B m O. rewrite read_app, (A m O). exact B. Qed.
Lemma good_tame_app a b : tame a -> tame b -> tame (a ++ b).
Proof. intros A B. apply tame_app; [exact A|now apply tame_good]. Qed.

(** ** Terminals *)
Lemma tame_harmless t : t <> [] -> forallb harmless t = true -> tame t.
Proof.
  assert (S : forall m c, outside m -> harmless c = true -> sql_char m c = Some Code).
  { intros m c O H. assert (E : forall d, harmless d = false -> Ascii.eqb c d = false) by (intros d D; apply Ascii.eqb_neq; intros ->; congruence).
    destruct O as [-> |[-> | ->]]; cbn [sql_char]; now rewrite (E sq), (E dq), (E "-"%char), (E "/"%char), (E "*"%char), H by reflexivity. }
  assert (G : forall t, forallb harmless t = true -> good t).
  { clear t. induction t as [|c t IH]; [reflexivity|]. cbn [forallb]. intros H. apply andb_true_iff in H as [H K]. unfold good. cbn [sql_read].
    rewrite S; [now apply IH|now left|exact H]. }
  intros N H m O. destruct t as [|c t]; [congruence|]. cbn [forallb] in H. apply andb_true_iff in H as [H K]. cbn [sql_read]. rewrite S by assumption. now apply G.
Qed.
Lemma word_harmless c : word_char c -> harmless c = true.
Proof.
  intros W. assert (X : harmless c = false -> False); [|destruct (harmless c); tauto]. intros H.
  destruct W as [[[A B]|[A B]]|[[A B]|E]]; [| | |subst c; discriminate H].
  all: revert A B H; destruct c as [[] [] [] [] [] [] [] []]; vm_compute; intros A B H; try discriminate; try (now apply A); try (now apply B).
Qed.
Lemma harmless_all t : Forall word_char t -> forallb harmless t = true.
Proof. intros H. apply forallb_forall. intros c I. apply word_harmless. rewrite Forall_forall in H. auto. Qed.
Lemma word_tame w : word w -> tame w.
Proof. intros (c & r & -> & H & K). apply tame_harmless; [discriminate|]. apply harmless_all. constructor; [now left|exact K]. Qed.
Lemma digits_tame w : digits w -> tame w.
Proof. intros [N D]. apply tame_harmless; [exact N|]. apply harmless_all. refine (Forall_impl _ _ D). intros c H. right. now left. Qed.
Lemma quoted_tame q b : q = sq \/ q = dq -> doubled q b -> tame (q :: b ++ [q]).
Proof.
  intros Q D m O. assert (I : sql_read (Quoted q) b = Some (Quoted q)).
  { induction D as [|c t N _ IH|t _ IH]; [reflexivity| |].
    - cbn [sql_read sql_char]. apply Ascii.eqb_neq in N. now rewrite N.
    - cbn [sql_read sql_char]. rewrite Ascii.eqb_refl. destruct Q as [-> | ->]; exact IH. }
  cbn [sql_read]. assert (sql_char m q = Some (Quoted q)) as -> by (destruct O as [-> |[-> | ->]]; destruct Q as [-> | ->]; reflexivity).
  rewrite read_app, I. cbn [sql_read sql_char]. now rewrite Ascii.eqb_refl.
Qed.
Lemma name_tame k v : identifier_before k v -> tame v.
Proof. intros [[W _]|[(b & -> & D & _) _]]; [now apply word_tame|]. apply quoted_tame; [now right|exact D]. Qed.
Lemma string_tame s : string_literal s -> tame s.
Proof. intros (b & -> & D). apply quoted_tame; [now left|exact D]. Qed.
Lemma separation_good p : separation p -> good p.
Proof.
  induction 1 as [c H|c [d t nl H N T E]|a b _ IHa _ IHb].
  - destruct H as [-> |H]; [reflexivity|]. assert (c = ascii_of_N 10) as -> by (rewrite <- H; symmetry; apply ascii_N_embedding). reflexivity.
  - destruct d as [|e d]; [easy|]. inversion H as [|e' d' He Hd]; subst. 
    assert (Dd : sql_read Comment d = Some Comment).
    { clear H N. induction Hd as [|x d -> Hd IH]; [reflexivity|]. exact IH. }
    assert (Tt : sql_read Comment t = Some Comment).
    { clear -T. induction T as [|x t Hx T IH]; [reflexivity|]. cbn [sql_read sql_char]. apply N.eqb_neq in Hx. now rewrite Hx. }
    change (sql_read Comment (d ++ t ++ [nl]) = Some Code). rewrite read_app, Dd, read_app, Tt. cbn [sql_read sql_char]. rewrite E. reflexivity.
  - now apply good_app.
Qed.
Lemma literal_tame s : literal_parts s -> tame s.
Proof.
  induction 1 as [s H|t p s _ IH P H]; [now apply string_tame|]. apply tame_app; [exact IH|]. apply good_app; [now apply separation_good|]. now apply tame_good, string_tame.
Qed.
Lemma dotted_tame w : dotted_name w -> tame w.
Proof.
  intros (c & r & -> & H & K). apply tame_harmless; [discriminate|]. cbn [forallb]. apply andb_true_iff. split; [apply word_harmless; now left|].
  apply forallb_forall. intros d I. rewrite Forall_forall in K. destruct (K d I) as [W| ->]; [now apply word_harmless|reflexivity].
Qed.
Lemma mantissa_tame t : mantissa t -> tame t.
Proof.
  intros [D|[(a & b & -> & A & B)|(b & -> & B)]]; [now apply digits_tame| |].
  - apply tame_app; [now apply digits_tame|]. change ("."%char :: b) with (L "." ++ b). apply good_app; [reflexivity|]. now apply tame_good, digits_tame.
  - change ("."%char :: b) with (L "." ++ b). apply tame_app; [now apply tame_harmless|]. now apply tame_good, digits_tame.
Qed.
Lemma exponent_good t : exponent t -> good t.
Proof.
  intros (e & s & d & -> & E & S & D). apply digits_tame in D. change (e :: s ++ d) with ([e] ++ s ++ d). apply good_app; [destruct E as [-> | ->]; reflexivity|].
  destruct S as [-> |[-> | ->]]; [now apply tame_good| |]; unfold good; rewrite read_app; apply D; [now left|now (right; left)].
Qed.
Lemma number_tame t : number t -> tame t.
Proof. intros [M|(a & b & -> & A & B)]; [now apply mantissa_tame|]. apply tame_app; [now apply mantissa_tame|now apply exponent_good]. Qed.
Lemma harmless_up c : harmless (upc c) = harmless c.
Proof. destruct c as [[] [] [] [] [] [] [] []]; reflexivity. Qed.
Lemma upper_harmless t : forallb harmless (upper t) = forallb harmless t.
Proof. induction t as [|c t IH]; [reflexivity|]. cbn [upper map forallb]. rewrite harmless_up. now f_equal. Qed.
Lemma listed_tame ws v : In (upper v) (map L ws) -> forallb (fun w => negb (is_nil (L w)) && forallb harmless (L w)) ws = true -> tame v.
Proof.
  intros I F. apply in_map_iff in I as (w & E & I). rewrite forallb_forall in F. specialize (F w I). apply andb_true_iff in F as [F1 F2]. apply tame_harmless.
  - intros ->. cbn in E. rewrite E in F1. discriminate.
  - rewrite <- upper_harmless, <- E. exact F2.
Qed.
Lemma upper_listed_good ws v : In (upper v) (map L ws) -> forallb (fun w => forallb harmless (L w)) ws = true -> good (upper v).
Proof.
  intros I F. apply in_map_iff in I as (w & E & I). rewrite forallb_forall in F. specialize (F w I). rewrite <- E. destruct (L w) as [|c r] eqn:El; [reflexivity|].
  apply tame_good, tame_harmless; [discriminate|exact F].
Qed.
Lemma not_tame n : is_not n -> tame n.
Proof. intros E. apply (listed_tame ["NOT"%string]); [left; now rewrite E|reflexivity]. Qed.
Lemma pr_N_good n : good (pr_N n).
Proof.
  unfold pr_N. assert (G : forall f n acc, good acc -> good (pr_N_aux f n acc)); [|now apply G].
  induction f as [|f IH]; intros k acc A; [exact A|]. cbn [pr_N_aux].
  assert (B : good (ascii_of_N (48 + k mod 10) :: acc)).
  { change (ascii_of_N (48 + k mod 10) :: acc) with ([ascii_of_N (48 + k mod 10)] ++ acc). apply good_app; [|exact A].
    assert (k mod 10 < 10)%N as H by now apply N.mod_lt. revert H. generalize (k mod 10)%N. intros r H.
    assert (In r [0;1;2;3;4;5;6;7;8;9]%N) as J by (cbn; lia). cbn in J. repeat (destruct J as [<-|J]; [reflexivity|]). destruct J. }
  destruct (k / 10 =? 0)%N; auto.
Qed.
Lemma join_good sep l : good sep -> Forall good l -> good (join sep l).
Proof.
  intros S. induction 1 as [|a l A F IH]; [reflexivity|]. destruct l as [|b l]; [exact A|]. cbn [join]. now repeat apply good_app.
Qed.
Lemma concat_good l : Forall good l -> good (concat l).
Proof. induction 1; [reflexivity|]. cbn [concat]. now apply good_app. Qed.
Lemma nl_good q : good q -> good (nl_sp q).
Proof. intros G. unfold nl_sp. destruct (is_nil q); [reflexivity|]. now apply good_app. Qed.

Section Productions.
Variable mp : text -> option text.
Variable fmt : text -> text.
Hypothesis mp_ok : forall n v, n <> [] -> mp n = Some v -> harmless_name v.
Hypothesis fmt_ok : plain_numbers fmt.

Lemma identifier_nonempty k n : identifier_before k n -> n <> [].
Proof. intros [[(c & r & -> & _) _]|[(b & -> & _) _]]; discriminate. Qed.
Lemma upload_tame v k x : upload mp v k x -> tame v.
Proof. intros (n & _ & I & E). apply (mp_ok n); [now apply identifier_nonempty in I|exact E]. Qed.
Lemma dotted_tame' n k v : dotted n k v -> tame v.
Proof.
  induction 1 as [k v I|n k v w I _ IH]; [now apply name_tame in I|]. apply tame_app; [now apply name_tame in I|].
  change ("."%char :: w) with (L "." ++ w). apply good_app; [reflexivity|now apply tame_good].
Qed.
Lemma table_tame v k x : table_name mp v k x -> tame v.
Proof. intros [U|(-> & n & _ & D)]; [now apply upload_tame in U|now apply dotted_tame' in D]. Qed.

(** The text of a part. *)
Definition pr_part (p : part) : text :=
  match p with
  | X n =>
    match n with
    | N_ve v => pr_ve fmt v | N_venb v => pr_venb fmt v | N_vterm v => pr_vterm fmt v | N_factor v => pr_factor fmt v
    | N_nprim v => pr_nprim fmt v | N_nvf v => pr_nvf fmt v | N_vep v => pr_vep fmt v | N_vepv v => pr_vepv fmt v
    | N_swhen v => pr_swhen fmt v | N_qwhen v => pr_qwhen fmt v | N_result v => pr_result fmt v | N_sc v => pr_sc fmt v
    | N_bfac v => pr_bfac fmt v | N_bprim v => pr_bprim fmt v | N_pred v => pr_pred fmt v | N_intarget v => pr_intarget fmt v
    | N_subq v => pr_subq fmt v | N_jt v => pr_jt fmt v | N_qjhead v => pr_qjhead fmt v | N_jsuf v => pr_jsuf fmt v
    | N_jspec v => pr_jspec fmt v | N_tref v => pr_tref fmt v | N_qspec v => pr_qspec fmt v | N_with v => pr_with fmt v
    | N_addon v => pr_addon fmt v | N_sfw v => pr_sfw fmt v | N_where v => pr_where fmt v | N_geom v => pr_geom fmt v
    | N_gpred v => pr_gpred fmt v | N_select v => pr_select fmt v | N_columns v => pr_columns fmt v | N_colv v => pr_colv fmt v
    | N_gterm v => pr_gterm fmt v | N_sort v => pr_sort v | N_soc v => pr_soc fmt v | N_poc v => pr_poc fmt v
    end
  | X_qjoin q => pr_qjoin fmt q
  | X_colref c => pr_colref c
  | X_csae c => pr_csae fmt c
  | X_coord c => pr_coord fmt c
  | X_system f => pr_coordsys f
  | X_shape s => pr_shape fmt s
  | X_jtype j => pr_jtype j
  | X_alias a => a
  end.
Definition Good (p : part) : Prop :=
  match p with
  | X (N_factor (Factor s p)) => forall m, outside m -> (m = Dash -> ~ minus_first s) -> sql_read m (pr_factor fmt (Factor s p)) = Some Code
  | X (N_nprim _) | X (N_nvf _) | X (N_vep _) | X (N_vepv _) | X_colref _ => tame (pr_part p)
  | _ => good (pr_part p)
  end.
Lemma Good_good p : Good p -> good (pr_part p).
Proof.
  destruct p as [[]| | | | | | | |]; try (intros H; exact H); try (now apply tame_good).
  destruct v as [s p]. intros H. apply H; [now left|discriminate].
Qed.

(** The operators of a part. *)
Definition ops (p : part) : list (text * text) :=
  match p with
  | X_csae c => csae_ops c
  | X_coord c => coord_ops c
  | X_shape s => shape_ops s
  | _ => flat_map node_ops (nodes_part p)
  end.
Lemma ops_node n : ops (X n) = flat_map node_ops (nodes_part (X n)). Proof. reflexivity. Qed.
Lemma flat_incl (a b : list node) : incl a b -> incl (flat_map node_ops a) (flat_map node_ops b).
Proof. intros H x I. apply in_flat_map in I as (n & I & J). apply in_flat_map. exists n. split; [now apply H|exact J]. Qed.
Lemma in_commas {A} (f : A -> part) l p : In (Pt p) (commas (map f l)) -> exists a, In a l /\ p = f a.
Proof.
  destruct l as [|a l]; [intros []|]. cbn [map commas]. intros [E|I]; [injection E as <-; exists a; split; [now left|reflexivity]|].
  apply in_flat_map in I as (b & I & J). apply in_map_iff in I as (c & <- & I). destruct J as [J|[J|[]]]; [discriminate|]. injection J as <-. exists c. split; [now right|reflexivity].
Qed.
Lemma in_each {A} (f : A -> node) l p : In (Pt p) (each f l) -> exists a, In a l /\ p = X (f a).
Proof. unfold each. intros I. apply in_map_iff in I as (a & E & I). injection E as <-. eauto. Qed.
Lemma in_index (l : list ve) p : In (Pt p) (flat_map (fun a => [mark "["; Pt (X (N_ve a)); mark "]"]) l) -> exists a, In a l /\ p = X (N_ve a).
Proof. intros I. apply in_flat_map in I as (a & I & J). destruct J as [J|[J|[J|[]]]]; try discriminate. injection J as <-. eauto. Qed.
Lemma in_names l p : In (Pt p) (names l) -> False.
Proof.
  destruct l as [|a l]; [intros []|]. cbn [names]. intros [E|I]; [discriminate|].
  apply in_flat_map in I as (b & I & J). destruct J as [J|[J|[]]]; discriminate.
Qed.
Ltac split_in :=
  repeat match goal with
  | H : In _ (_ ++ _) |- _ => apply in_app_iff in H as [H|H]
  | H : In _ (_ :: _) |- _ => destruct H as [H|H]
  | H : In _ [] |- _ => destruct H
  | H : T _ = Pt _ |- _ => discriminate H
  | H : key _ = Pt _ |- _ => discriminate H
  | H : keyb _ = Pt _ |- _ => discriminate H
  | H : mark _ = Pt _ |- _ => discriminate H
  | H : Pt _ = Pt _ |- _ => injection H as <-
  | H : In _ (names _) |- _ => destruct (in_names _ _ H)
  | H : In _ (commas _) |- _ => apply in_commas in H as (? & ? & ->)
  | H : In _ (each _ _) |- _ => apply in_each in H as (? & ? & ->)
  | H : In _ (optional _ ?o) |- _ => destruct o; cbn [optional] in H
  | H : In _ (flat_map (fun a => [mark "["; _; _]) _) |- _ => apply in_index in H as (? & ? & ->)
  | H : In _ (if ?b then _ else _) |- _ => destruct b
  end.
Lemma in_flat {A B} (f : A -> list B) a l x : In a l -> In x (f a) -> In x (flat_map f l).
Proof. intros I J. apply in_flat_map. eauto. Qed.
Lemma kids p its q : production mp p its -> In (Pt q) its -> incl (ops q) (ops p).
Proof.
  intros P I. destruct P; split_in; try discriminate.
  all: try (now intros ? []).
  all: try (intros ? J; exact J).
  all: try (apply flat_incl; cbn [nodes_part]; autorewrite with nd_eq; intros ? J; right; cbn [onodes]; rewrite ?in_app_iff; cbn [In]; eauto 9 using in_flat; fail).
  all: try (intros ? J; cbn [ops coord_ops shape_ops]; rewrite ?in_app_iff; cbn [In]; eauto 9 using in_flat; fail).
  - destruct H as [->|[-> _]]; split_in.
  - destruct H0 as [->| ->]; split_in.
  - intros ? J. cbn. now rewrite app_nil_r.
  - intros ? J. cbn. now rewrite app_nil_r.
  - apply flat_incl. cbn [nodes_part]. autorewrite with nd_eq. intros ? [<-|[]]. right. now left.
  - apply flat_incl. cbn [nodes_part]. autorewrite with nd_eq. intros ? [<-|[]]. right. now left.
  - destruct l as [|a l]; split_in. apply in_flat_map in I as (b & _ & J). destruct J as [J|[J|[]]]; discriminate.
  - apply flat_incl. cbn [nodes_part]. autorewrite with nd_eq. intros ? J. apply in_app_iff. now left.
  - apply flat_incl. cbn [nodes_part]. autorewrite with nd_eq. intros ? J. apply in_app_iff. right. eapply in_flat; eauto.
  - destruct H as [->|[-> _]]; split_in; discriminate.
  - destruct H0 as [->|[-> _]]; split_in; discriminate.
  - destruct H as [(c & -> & ->)|(n & -> & ->)]; split_in; try discriminate. now intros ? [].
  - destruct H0 as [->|[-> _]]; split_in; discriminate.
Qed.

(** ** What is known about the items of a production *)
Definition okitem (i : item) : Prop := match i with T P => exists k x, P k x | Pt p => Good p end.
Lemma ok_name v : okitem (name v) -> tame v. Proof. intros (k & x & _ & I). now apply name_tame in I. Qed.
Lemma ok_one ws v : okitem (one_of ws v) -> In (upper v) (map L ws). Proof. now intros (k & x & _ & I). Qed.
Lemma ok_oneb ws v : okitem (one_ofb ws v) -> In (upper v) (map L ws). Proof. now intros (k & x & _ & I & _). Qed.
Lemma ok_mark ms v : okitem (one_mark ms v) -> In v (map L ms). Proof. now intros (k & x & _ & I). Qed.
Lemma ok_upload v : okitem (T (upload mp v)) -> tame v. Proof. intros (k & x & U). now apply upload_tame in U. Qed.
Lemma ok_table v : okitem (T (table_name mp v)) -> tame v. Proof. intros (k & x & U). now apply table_tame in U. Qed.
Lemma ok_value v : okitem (value v) -> tame v.
Proof.
  intros (k & x & [(_ & D & ->)|[_ [N|[K|I]]]]).
  - apply tame_app; [now apply digits_tame|reflexivity].
  - now apply number_tame.
  - now apply literal_tame.
  - now apply (listed_tame _ _ I).
Qed.
Lemma ok_real v : okitem (real v) -> real_number v. Proof. now intros (k & x & _ & R). Qed.
Lemma ok_whole v : okitem (whole v) -> tame v. Proof. intros (k & x & _ & D). now apply digits_tame. Qed.
Lemma ok_onot v : okitem (optional_not v) -> good v.
Proof. intros (k & x & [[-> _]|[(N & _)|(N & _)]]); [reflexivity|now apply tame_good, not_tame ..]. Qed.
Lemma ok_snot v : okitem (spaced_not v) -> good v.
Proof. intros (k & x & [[-> _]|(_ & N & _)]); [reflexivity|now apply tame_good, not_tame]. Qed.
Lemma ok_function v : okitem (function_name v) -> tame v. Proof. intros (k & x & _ & W & _). now apply word_tame. Qed.
Lemma ok_commas {A} (f : A -> part) l : Forall okitem (commas (map f l)) -> Forall (fun a => Good (f a)) l.
Proof.
  destruct l as [|a l]; [constructor|]. cbn [map commas]. intros H. apply Forall_cons_iff in H as [H K]. constructor; [exact H|].
  induction l as [|b l IH]; [constructor|]. cbn [map flat_map app] in K. apply Forall_cons_iff in K as [_ K]. apply Forall_cons_iff in K as [K1 K]. constructor; auto.
Qed.
Lemma ok_each {A} (f : A -> node) l : Forall okitem (each f l) -> Forall (fun a => Good (X (f a))) l.
Proof. unfold each. now rewrite Forall_map. Qed.
Lemma ok_index l : Forall okitem (flat_map (fun a => [mark "["; Pt (X (N_ve a)); mark "]"]) l) -> Forall (fun a => Good (X (N_ve a))) l.
Proof.
  induction l as [|a l IH]; [constructor|]. cbn [flat_map app]. intros K. apply Forall_cons_iff in K as [_ K]. apply Forall_cons_iff in K as [H K].
  apply Forall_cons_iff in K as [_ K]. constructor; auto.
Qed.
Lemma ok_names l : Forall okitem (names l) -> Forall good l.
Proof.
  destruct l as [|a l]; [constructor|]. cbn [names]. intros H. apply Forall_cons_iff in H as [H K]. constructor; [now apply tame_good, ok_name|].
  induction l as [|b l IH]; [constructor|]. cbn [flat_map app] in K. apply Forall_cons_iff in K as [_ K]. apply Forall_cons_iff in K as [K1 K].
  constructor; [now apply tame_good, ok_name|auto].
Qed.
Ltac facts := repeat match goal with
  | F : Forall okitem [] |- _ => clear F
  | F : Forall okitem (optional _ ?o) |- _ => destruct o; cbn [optional] in F
  | F : Forall okitem (if ?b then _ else _) |- _ => destruct b eqn:?
  | F : Forall okitem (commas (map _ _)) |- _ => apply ok_commas in F
  | F : Forall okitem (each _ _) |- _ => apply ok_each in F
  | F : Forall okitem (names _) |- _ => apply ok_names in F
  | F : Forall okitem (flat_map (fun a => [mark "["; _; _]) _) |- _ => apply ok_index in F
  | F : Forall okitem (_ ++ _) |- _ => apply Forall_app in F as [? ?]
  | F : Forall okitem (_ :: _) |- _ => apply Forall_cons_iff in F as [? F]
  | F : okitem (key _) |- _ => clear F
  | F : okitem (keyb _) |- _ => clear F
  | F : okitem (mark _) |- _ => clear F
  | F : okitem gap |- _ => clear F
  | F : okitem (in_not _) |- _ => clear F
  | F : okitem (count _) |- _ => clear F
  | F : okitem (name _) |- _ => apply ok_name in F
  | F : okitem (one_of _ _) |- _ => apply ok_one in F
  | F : okitem (one_ofb _ _) |- _ => apply ok_oneb in F
  | F : okitem (one_mark _ _) |- _ => apply ok_mark in F
  | F : okitem (T (upload _ _)) |- _ => apply ok_upload in F
  | F : okitem (T (table_name _ _)) |- _ => apply ok_table in F
  | F : okitem (value _) |- _ => apply ok_value in F
  | F : okitem (real _) |- _ => apply ok_real in F
  | F : okitem (whole _) |- _ => apply ok_whole in F
  | F : okitem (optional_not _) |- _ => apply ok_onot in F
  | F : okitem (spaced_not _) |- _ => apply ok_snot in F
  | F : okitem (function_name _) |- _ => apply ok_function in F
  | F : okitem (Pt ?p) |- _ => change (Good p) in F
  end.
Lemma L_tame s : negb (is_nil (L s)) = true -> forallb harmless (L s) = true -> tame (L s).
Proof. intros N H. apply tame_harmless; [|exact H]. intros E. rewrite E in N. discriminate. Qed.
Ltac leaf := first
  [ assumption
  | match goal with H : Good ?p |- good _ => exact (Good_good p H) end
  | match goal with H : Good ?p |- tame _ => exact H end
  | apply tame_good; assumption
  | eapply listed_tame; [eassumption|reflexivity]
  | apply tame_good; eapply listed_tame; [eassumption|reflexivity]
  | match goal with H : In ?v (map L _) |- good ?v => cbn in H; intuition (subst; reflexivity) end ].
Ltac gd := lazymatch goal with
  | |- good (_ ++ _) => apply good_app; gd
  | |- good (L _) => reflexivity
  | |- good [] => reflexivity
  | |- good (if ?b then _ else _) => first [match goal with E : b = _ |- _ => rewrite E end | destruct b eqn:?]; gd
  | |- good (match ?o with Some _ => _ | None => _ end) => destruct o; gd
  | |- good (nl_sp _) => apply nl_good; gd
  | |- good (upper _) => eapply upper_listed_good; [eassumption|reflexivity]
  | |- good (pr_N _) => apply pr_N_good
  | |- good (pr_frame ?f) => destruct f; reflexivity
  | |- good (pr_coordsys ?f) => destruct f; reflexivity
  | |- good (pr_tc _ _) => unfold pr_tc; gd
  | |- good (pr_vector _) => unfold pr_vector; gd
  | |- good (join _ _) => apply join_good; [reflexivity|first [assumption|apply Forall_map; eapply Forall_impl; [|eassumption]; intros ? ?; cbn beta in *; gd]]
  | |- good (concat (map _ _)) => apply concat_good, Forall_map; eapply Forall_impl; [|eassumption]; intros ? ?; cbn beta in *; gd
  | |- _ => leaf
  end.
Ltac tm := lazymatch goal with
  | |- tame (_ ++ _) => apply tame_app; [tm|gd]
  | |- tame (L _) => apply L_tame; reflexivity
  | |- _ => leaf
  end.
Lemma nil_tame : ~ tame []. Proof. intros H. specialize (H Dash (or_intror (or_introl eq_refl))). discriminate. Qed.
Lemma open_good a b f t : (forall f, good (a ++ pr_coordsys f ++ b)) -> good t -> good (a ++ pr_coordsys f ++ b ++ t).
Proof. intros H G. replace (a ++ pr_coordsys f ++ b ++ t) with ((a ++ pr_coordsys f ++ b) ++ t) by (now rewrite <- !app_assoc). apply good_app; [apply H|exact G]. Qed.
(** An operator in front of something that may begin with a minus. *)
Lemma operator_good ws o s r : In o (map L ws) -> forallb (fun w => if sql_read Code (L w) then true else false) ws = true ->
  forallb (fun w => match sql_read Code (L w) with Some Code => true | Some Dash => String.eqb w "-" | Some Slash => true | _ => false end) ws = true ->
  apart (o, s) -> (forall m, outside m -> (m = Dash -> ~ minus_first s) -> sql_read m r = Some Code) -> good (o ++ r).
Proof.
  intros I _ F A R. apply in_map_iff in I as (w & <- & I). rewrite forallb_forall in F. specialize (F w I). unfold good. rewrite read_app.
  destruct (sql_read Code (L w)) as [[]|]; try discriminate; apply R; unfold outside; auto; try discriminate.
  intros _. apply String.eqb_eq in F. subst w. now apply A.
Qed.
Lemma argument_good a : dotted_name a -> good (L "'" ++ a ++ L "'").
Proof.
  intros (c & r & -> & H & K). apply tame_good. apply (quoted_tame sq); [now left|].
  assert (Q : forall c, word_char c \/ c = "."%char -> c <> sq) by (intros d [W| ->] E; [subst d; apply word_harmless in W|]; discriminate).
  constructor; [apply Q; left; now left|]. induction K; constructor; auto.
Qed.
Lemma production_good p its : production mp p its -> Forall apart (ops p) -> Forall okitem its -> Good p.
Proof.
  intros P A F. destruct P; facts; cbn [Good pr_part]; autorewrite with pr_eq; try (gd; fail); try (tm; fail).
  - cbn [pr_colref]. tm.
  - cbn [pr_colref]. tm.
  - cbn [pr_colref]. tm.
  - cbn [pr_colref]. tm.
  - cbn [pr_csae]. apply good_app; [apply fmt_ok; [assumption|now left|discriminate]|]. apply Forall_cons_iff in A as [A _].
    eapply operator_good; [eassumption|reflexivity|reflexivity|exact A|]. intros m O M. now apply fmt_ok.
  - cbn [pr_csae]. apply fmt_ok; [assumption|now left|discriminate].
  - cbn [pr_coord]. gd.
  - cbn [pr_shape]. unfold pr_point. apply open_good; [intros []; reflexivity|gd].
  - cbn [pr_shape]. apply open_good; [intros []; reflexivity|gd].
  - cbn [pr_shape]. apply open_good; [intros []; reflexivity|gd].
  - cbn [pr_shape]. apply open_good; [intros []; reflexivity|gd].
  - cbn [pr_shape]. apply open_good; [intros []; reflexivity|gd].
  - replace (is_nil f) with false by (destruct f; [exfalso; apply nil_tame; tm|reflexivity]). tm.
  - replace (is_nil f) with false by (destruct f; [exfalso; apply nil_tame; tm|reflexivity]). tm.
  - intros m O _. cbn [app]. match goal with H : Good _ |- _ => exact (H m O) end.
  - intros m O M. match goal with H : Good (X (N_nprim p)), J : In s _ |- _ => cbn [Good pr_part] in H;
      cbn [map In] in J; destruct J as [<-|[<-|[]]] end.
    + rewrite read_app. destruct O as [->|[->| ->]]; cbn; match goal with H : tame _ |- _ => apply H; now left end.
    + rewrite read_app. destruct O as [->|[->| ->]]; [|exfalso; apply M; [reflexivity|now eexists]|]; cbn; match goal with H : tame _ |- _ => apply H; right; now left end.
  - destruct f as [s p]. assert (B : apart (o, s)).
    { rewrite Forall_forall in A. apply A. unfold ops. apply in_flat_map. exists (N_vterm (VTerm o (Factor s p))). split; [now left|now left]. }
    eapply operator_good; [eassumption|reflexivity|reflexivity|exact B|]. match goal with H : Good _ |- _ => exact H end.
  - match goal with H : okitem _ |- _ => destruct H as (k & x & tb & _ & _ & D) end. apply dotted_tame in D. unfold pr_tvf.
    apply good_app; [reflexivity|]. apply good_app; [now apply tame_good|]. apply good_app; [reflexivity|]. apply good_app; [|reflexivity].
    apply join_good; [reflexivity|]. apply Forall_map. destruct l as [|a l]; [constructor|]. match goal with H : Forall okitem _ |- _ => rename H into K end.
    apply Forall_cons_iff in K as [(k1 & x1 & _ & D1) K]. constructor; [now apply argument_good|].
    induction l as [|b l IH]; [constructor|]. cbn [flat_map app] in K. apply Forall_cons_iff in K as [_ K]. apply Forall_cons_iff in K as [(k2 & x2 & _ & D2) K].
    constructor; [now apply argument_good|]. apply IH; [exact A|exact K].
  - reflexivity.
  - cbn [pr_jtype]. gd.
  - cbn [pr_jtype]. gd.
  - match goal with H : okitem _ |- _ => destruct H as (k & x & y & _ & U) end. apply table_tame in U. gd.
  - repeat match goal with H : _ \/ _ |- _ => destruct H end; repeat match goal with H : _ /\ _ |- _ => destruct H end; subst; facts; gd.
  - repeat match goal with H : _ \/ _ |- _ => destruct H end; repeat match goal with H : _ /\ _ |- _ => destruct H | H : exists _, _ |- _ => destruct H end; subst; facts; cbn [pr_sort]; gd.
Qed.
Definition Goods (its : list item) : Prop := (forall q, In (Pt q) its -> Forall apart (ops q)) -> Forall okitem its.
Lemma spells_good k t p : spells mp k t p -> Forall apart (ops p) -> Good p.
Proof.
  intros S. revert k t p S. apply (spells_w mp (fun _ _ p => Forall apart (ops p) -> Good p) (fun _ _ its => Goods its)).
  - intros k t p its P _ G A. apply (production_good p its P A). apply G. intros q I. pose proof (kids p its q P I) as J.
    rewrite Forall_forall in *. auto.
  - intros k w _ H. constructor.
  - intros k w x t P its _ T _ IH H. constructor; [now exists (t ++ k), x|]. apply IH. intros q I. apply H. now right.
  - intros k w x t p its _ _ IHp _ IH H. constructor; [apply IHp, H; now left|]. apply IH. intros q I. apply H. now right.
Qed.
Lemma written_one t q : written mp t q -> minuses_apart q -> one_statement (pr_qspec fmt q).
Proof.
  intros (u & w & _ & _ & S) M. apply (spells_good _ _ _ S). unfold ops. apply Forall_flat_map. exact M.
Qed.
End Productions.
