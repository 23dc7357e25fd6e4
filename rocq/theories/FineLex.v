(** The lexical conditions on the parts of accepted queries (for C13): they hold because of how the
    parts are written (SpecSpelling.v). *)
From Verif Require Import Query PegProps Gen Spec TextLemmas SpecLexical SpecContent SpecNodes Nodes NodeProps
  LexProofs LexProofs2 SpecSpelling SpellMain SpellUse TopProofs Calc Invert SpecCanon SpecNorm SpecFine SpecUsual FineRun Throws CanonBase CanonLex
  PegSpec PegEquiv FineProofs Look Greedy Lead SubNodes.
From Verif Require SpellProofs SelectProofs.

(** ** The decision procedures of SpecCanon.v accept what SpecLexical.v describes *)
Lemma word_is t : word t -> is_word t = true.
Proof.
  intros (c & w & -> & C & W). cbn. rewrite (proj2 (is_letter_iff c) C). apply forallb_forall. intros x I. apply is_idchar_iff. now apply (proj1 (Forall_forall _ _) W).
Qed.
Lemma doubled_is q t : doubled q t -> is_doubled q t = true.
Proof.
  induction 1; cbn [is_doubled]; auto.
  - destruct (Ascii.eqb_spec c q); [contradiction|auto].
  - now rewrite !Ascii.eqb_refl.
Qed.
Lemma between_is q b : between q (q :: b ++ [q]) = Some b.
Proof. unfold between. rewrite rev_app_distr. cbn. rewrite Ascii.eqb_refl. cbn. now rewrite rev_involutive. Qed.
Lemma delimited_is t : delimited t -> is_delimited t = true.
Proof. intros (b & -> & D & N). unfold is_delimited. rewrite between_is, (doubled_is _ _ D). now destruct b. Qed.
Lemma digits_is t : digits t -> is_digits t = true.
Proof.
  intros [N D]. unfold is_digits. destruct t; [contradiction|]. cbn [is_nil negb andb]. apply forallb_forall. intros x I. apply is_digit_iff. now apply (proj1 (Forall_forall _ _) D).
Qed.
Lemma dotted_is t : dotted_name t -> is_dotted t = true.
Proof.
  intros (c & r & -> & C & F). cbn. rewrite (proj2 (is_letter_iff c) C). apply forallb_forall. intros x I.
  destruct (proj1 (Forall_forall _ _) F x I) as [W| ->]; [now rewrite (proj2 (is_idchar_iff x) W)|apply orb_true_r].
Qed.
Lemma shy_iff t : shy t = true -> ~ shadowed t /\ upper t <> L "END".
Proof.
  unfold shy. intros H. apply negb_true_iff, Bool.not_true_iff_false in H. split; intro X; apply H, one_of_nc_iff.
  - unfold shadowed in X. apply in_map_iff in X as (w & E & X). apply in_map_iff. exists w. split; [exact E|]. cbn in *. tauto.
  - rewrite X. cbn. tauto.
Qed.
Lemma ident_name k t : identifier_before k t -> shy t = true -> is_name t = true.
Proof.
  unfold is_name. intros [(W & K & R)|(D & K)] S; apply orb_true_iff; [left|right; now apply delimited_is].
  apply shy_iff in S as [S1 S2]. destruct R as [R|[R|(R & _)]]; [|contradiction|contradiction].
  unfold free_word. rewrite (word_is _ W). cbn [andb]. apply negb_true_iff, Bool.not_true_iff_false. intro X. apply R. unfold reserved. now apply one_of_nc_iff.
Qed.
Lemma listed ws ws' v : In (upper v) (map L ws) -> forallb (fun w => existsb (String.eqb w) ws') ws = true -> one_of_nc v ws' = true.
Proof.
  intros H A. apply in_map_iff in H as (w & E & I). apply (proj1 (forallb_forall _ _) A) in I. apply existsb_exists in I as (w' & I & Q). apply String.eqb_eq in Q as <-.
  apply one_of_nc_iff. apply in_map_iff. eauto.
Qed.
Lemma listed_cs ws ws' v : In v (map L ws) -> forallb (fun w => existsb (String.eqb w) ws') ws = true -> one_of v ws' = true.
Proof.
  intros H A. apply in_map_iff in H as (w & E & I). apply (proj1 (forallb_forall _ _) A) in I. apply existsb_exists in I as (w' & I & Q). apply String.eqb_eq in Q as <-.
  apply one_of_iff. apply in_map_iff. eauto.
Qed.
Lemma cuts_in c a b : In (a, b) (cuts c (a ++ c :: b)).
Proof.
  induction a as [|x a IH]; cbn [app cuts].
  - rewrite Ascii.eqb_refl. now left.
  - apply in_app_iff. right. apply in_map_iff. exists (a, b). auto.
Qed.
Lemma pieces_nil t : pieces t <> [].
Proof. destruct t as [|c t]; cbn; [discriminate|]. destruct (Ascii.eqb c "."); [discriminate|]. now destruct (pieces t). Qed.
Lemma pieces_app a b : pieces (a ++ "."%char :: b) = pieces a ++ pieces b.
Proof.
  induction a as [|c a IH]; [reflexivity|]. cbn [app pieces]. destruct (Ascii.eqb c "."); rewrite IH; [reflexivity|].
  destruct (pieces a) eqn:E; [now apply pieces_nil in E|reflexivity].
Qed.
Lemma pieces_word t : Forall word_char t -> pieces t = [t].
Proof.
  induction 1 as [|c t C _ IH]; [reflexivity|]. cbn [pieces]. rewrite IH. destruct (Ascii.eqb_spec c ".") as [->|]; [|reflexivity].
  apply is_idchar_iff in C. discriminate.
Qed.
Lemma shy_piece k t : identifier_before k t -> forallb shy (pieces t) = true -> shy t = true.
Proof.
  intros [((c & w & -> & C & W) & _)|((b & -> & _) & _)] H; [|reflexivity]. rewrite pieces_word in H.
  - cbn in H. now apply andb_true_iff in H as [H _].
  - constructor; [now left|exact W].
Qed.
Lemma dotted_table (f : text -> bool) n k t : dotted n k t -> n <= 3 -> shy_table t = true ->
  (forall k' v r, identifier_before k' v -> shy v = true -> t = v \/ t = v ++ "."%char :: r -> f v = true) -> table_name_from f t = true.
Proof.
  unfold shy_table, table_name_from. intros D N S Fst. inversion D as [k1 v I|n1 k1 v w I D1]; subst.
  - now rewrite (Fst _ _ [] I (shy_piece _ _ I S) (or_introl eq_refl)).
  - rewrite pieces_app, forallb_app in S. apply andb_true_iff in S as [S1 S2]. pose proof (Fst _ _ w I (shy_piece _ _ I S1) (or_intror eq_refl)) as V.
    apply orb_true_iff. right. apply existsb_exists. exists (v, w). split; [apply cuts_in|]. rewrite V. cbn [andb].
    inversion D1 as [k2 w0 I1|n2 k2 w1 w2 I1 D2]; subst; [now rewrite (ident_name _ _ I1 (shy_piece _ _ I1 S2))|].
    rewrite pieces_app, forallb_app in S2. apply andb_true_iff in S2 as [S2 S3]. apply orb_true_iff. right. apply existsb_exists. exists (w1, w2). split; [apply cuts_in|].
    rewrite (ident_name _ _ I1 (shy_piece _ _ I1 S2)). inversion D2 as [k3 w3 I2|n3 k3 w3 w4 I2 D3]; subst; [now rewrite (ident_name _ _ I2 (shy_piece _ _ I2 S3))|].
    exfalso. inversion D3; subst; lia.
Qed.
Lemma begins_app w a b : begins_with_nc w a = true -> begins_with_nc w (a ++ b) = true.
Proof.
  unfold begins_with_nc. intros H. destruct (strip true (L w) a) as [[u r]|] eqn:E; [|discriminate]. apply strip_nc_iff in E as [-> E].
  rewrite (proj2 (strip_nc_iff (L w) ((u ++ r) ++ b) u (r ++ b))); [reflexivity|]. now rewrite app_assoc.
Qed.
Lemma begins_cut w a b : begins_with_nc w (a ++ b) = false -> begins_with_nc w a = false.
Proof. intros H. destruct (begins_with_nc w a) eqn:E; [|reflexivity]. now rewrite (begins_app _ _ b E) in H. Qed.

Section Lex.
Variable m : text -> option text.
(** the names of uploaded tables are replaced by ordinary names *)
Hypothesis mapped : forall n v, n <> [] -> m n = Some v -> upload_name v = true.
Variable fmt : text -> text.

Lemma ident_nonempty k v : identifier_before k v -> v <> [].
Proof. intros [((c & w & -> & _) & _)|((b & -> & _) & _)]; discriminate. Qed.
Lemma value_name_is v : is_value_name v = true -> is_name v = true.
Proof. unfold is_value_name. now intros [H _]%andb_true_iff. Qed.
Lemma upload_is v k x : upload m v k x -> is_value_name v = true.
Proof. intros (n & -> & I & M). eapply mapped in M; [|eapply ident_nonempty; eauto]. now apply andb_true_iff in M as [M _]. Qed.
Lemma mapped_lead n v : n <> [] -> m n = Some v -> v <> [] /\ starts_clear v = true.
Proof. intros N M. apply mapped in M; [|exact N]. apply andb_true_iff in M as [M1 M2]. split; [|exact M2]. intros ->. discriminate M1. Qed.
Lemma table_is n k x : table_name m n k x -> shy_table n = true -> is_table_name n = true.
Proof.
  intros [U|(-> & d & D & I)] S; [|eapply dotted_table; eauto; [lia|intros; eapply ident_name; eauto]]. apply upload_is in U. unfold is_table_name, table_name_from. now rewrite (value_name_is _ U).
Qed.
Ltac wstep :=
  match goal with
  | W : writes m _ ?u (_ :: _) |- _ =>
      first [apply writes_t_inv in W as (?w & ?x & ?t & -> & ? & ? & W) | apply writes_p_inv in W as (?w & ?x & ?t & -> & ? & ? & W)]
  end.
Ltac spelt S := let P := fresh "P" in let W := fresh "W" in inversion S as [? ? ? ? P W]; subst; inversion P; subst; clear P S; cbn [app] in W; repeat wstep; cbn beta in *;
  repeat match goal with H : _ /\ _ |- _ => destruct H end; subst.
Lemma colref_is k u c : spells m k u (X_colref c) -> shy_col c = true -> c_colref is_name c = true.
Proof.
  intros S H. spelt S; cbn [shy_col c_colref] in *; rewrite ?andb_true_iff in *; repeat match goal with H : _ /\ _ |- _ => destruct H end; repeat split; eauto using ident_name, value_name_is, upload_is.
Qed.
Lemma alias_is k u a : spells m k u (X_alias a) -> shy a = true -> is_nil a || is_name a = true.
Proof. intros S H. spelt S; [reflexivity| |]; apply orb_true_iff; right; eauto using ident_name. Qed.
Lemma names_all l : forall k u its, writes m k u its -> (forall n, In n l -> In (SpecSpelling.name n) its) -> forallb shy l = true -> forallb is_name l = true.
Proof.
  intros k u its W I S. apply forallb_forall. intros n J. pose proof (proj1 (forallb_forall _ _) S n J) as Sn.
  destruct (terminal_in m _ _ _ _ W (I n J)) as (a & x & b & _ & -> & K). eapply ident_name; eauto.
Qed.
Lemma c_double_u d : u_double fmt d = true -> c_double fmt (fmt d) = true. Proof. auto. Qed.
Lemma csae_is k u c : spells m k u (X_csae c) -> u_csae fmt c = true -> c_csae fmt (n_csae fmt c) = true.
Proof.
  intros S H. inversion S as [? ? ? ? P W]; subst. inversion P; subst; clear P S; cbn [u_csae n_csae c_csae] in *.
  - repeat wstep. cbn beta in *. apply andb_true_iff in H as [U1 U2]. unfold u_double in *. rewrite U1, U2, andb_true_r. cbn [andb].
    match goal with H : _ /\ In _ (map L _) |- _ => destruct H as [_ H]; now apply (listed_cs _ _ _ H) end.
  - repeat wstep. eapply colref_is; eauto.
  - exact H.
Qed.
Lemma coord_is k u c : spells m k u (X_coord c) -> u_coord fmt c = true -> c_coord fmt (n_coord fmt c) = true.
Proof.
  intros S H. inversion S as [? ? ? ? P W]; subst. inversion P; subst; clear P S; cbn [u_coord n_coord c_coord] in *. repeat wstep.
  apply andb_true_iff in H as [U1 U2]. apply andb_true_iff. split; eapply csae_is; eauto.
Qed.
Lemma loc_spells k u p (Q : Prop) : loc m k u p -> (forall k u, spells m k u p -> Q) -> Q.
Proof. intros (a & x & b & _ & S) H. eauto. Qed.
Lemma shape_is k u s : spells m k u (X_shape s) -> u_shape fmt s = true -> c_shape fmt (n_shape fmt s) = true.
Proof.
  intros S H. inversion S as [? ? ? ? P W]; subst. inversion P; subst; clear P S; cbn [u_shape n_shape c_shape] in *;
    rewrite ?andb_true_iff in *; repeat match goal with H : _ /\ _ |- _ => destruct H end; repeat split;
    try match goal with
        | |- c_coord _ (n_coord _ ?c) = true => eapply (loc_spells _ _ (X_coord c)); [eapply loc_in; [exact W|cbn; tauto]|]; intros; eapply coord_is; eassumption
        | |- c_csae _ (n_csae _ ?c) = true => eapply (loc_spells _ _ (X_csae c)); [eapply loc_in; [exact W|cbn; tauto]|]; intros; eapply csae_is; eassumption
        end.
  - now destruct cs.
  - apply forallb_forall. intros c I. apply in_map_iff in I as (c0 & <- & I). pose proof (proj1 (forallb_forall _ _) H c0 I) as Hc.
    eapply loc_spells; [eapply loc_in; [exact W|]|intros; eapply coord_is; eauto].
    apply in_app_iff. right. apply in_app_iff. left. apply in_commas, in_map, I.
Qed.
Lemma udf_fine f a i j : reads m (g_numeric_value_function m) i (NV_udf f a) j -> shy f = true ->
  free_word f && negb (one_of_nc f ["COT"%string]) || one_of_nc f ["DISTINCT"; "LEFT"; "LOWER"; "RIGHT"; "TRIM"; "UPPER"]%string = true.
Proof.
  intros H S. unfold g_numeric_value_function in H. apply i_alt in H as [H|[F H]]; [| |reflexivity].
  { unfold g_trig_function in H. apply i_alt in H as [H|[_ H]]; [| |reflexivity]; (apply i_map in H as (x & E & _); repeat match goal with p : prod _ _ |- _ => destruct p end; discriminate E). }
  apply i_alt in H as [H|[_ H]]; [| |reflexivity].
  { unfold g_math_function in H. apply i_alt in H as [H|[_ H]]; [|apply i_alt in H as [H|[_ H]]|reflexivity]; try reflexivity; (apply i_map in H as (x & E & _); repeat match goal with p : prod _ _ |- _ => destruct p end; discriminate E). }
  apply i_alt in H as [H|[_ H]]; [| |reflexivity].
  { apply i_map in H as (x & E & _); repeat match goal with p : prod _ _ |- _ => destruct p end; discriminate E. }
  apply i_alt in H as [H|[_ H]]; [| |reflexivity].
  { unfold g_geo_function in H. apply i_alt in H as [H|[_ H]]; [| |reflexivity]; (apply i_map in H as (x & E & _); repeat match goal with p : prod _ _ |- _ => destruct p end; discriminate E). }
  apply i_alt in H as [H|[_ H]]; [| |reflexivity].
  2:{ apply i_map in H as (x & E & _). discriminate E. }
  apply i_map in H as (x & E & H). apply i_seq in H as (y & [] & k & -> & H & _); [|reflexivity]. apply i_seq in H as (y' & b & k' & -> & H & _); [|reflexivity].
  apply i_seq in H as (f' & [] & k2 & -> & H & HL); [|reflexivity]. injection E as <- _.
  apply i_lex in H as (r & H & <-); [|reflexivity]. unfold s_udf_name in H. change (srun (SAlt s_regular_identifier (strs_nc ["RIGHT"; "LEFT"; "UPPER"; "LOWER"; "DISTINCT"; "TRIM"]%string)) [] (skip i) = SOk f r) in H.
  cbn [srun] in H. destruct (srun s_regular_identifier [] (skip i)) as [v' r'|acc| |] eqn:R; try discriminate.
  - injection H as -> ->. apply orb_true_iff. left.
    assert (N : srun s_identifier [] (skip i) = SOk f r) by (unfold s_identifier; cbn [srun]; now rewrite R).
    apply identifier_inv in N as [E N]. pose proof (ident_name _ _ N S) as N1. unfold is_name in N1.
    destruct N as [(W & K & _)|((d & -> & _) & _)].
    2:{ exfalso. unfold s_regular_identifier in R. cbn [srun] in R. destruct (srun s_keyword [] (skip i)); try discriminate. rewrite E in R. discriminate R. }
    apply andb_true_iff. split.
    + apply orb_true_iff in N1 as [N1|N1]; [exact N1|]. apply is_delimited_ok in N1 as (d & -> & _). destruct W as (c & w & [= <- _] & Lc & _). apply is_letter_iff in Lc. discriminate.
    + apply negb_true_iff, Bool.not_true_iff_false. intro C. unfold one_of_nc, SpecCanon.one_of in C. cbn [existsb] in C. rewrite orb_false_r in C. apply text_eqb_iff in C.
      unfold g_trig_function in F. apply f_alt in F as [F _]; [|reflexivity]. apply f_map, f_exp, f_exp, f_exp, f_lex in F as (acc & F); [|reflexivity].
      unfold s_trig1 in F. cbn [srun] in F. rewrite E in F. rewrite strs_pick in F.
      * destruct r as [|c r]; [apply i_lit in HL as (? & ? & HL & _); discriminate HL|]. cbn in K. unfold ahead_nonid in F. cbn [srun] in F. destruct (is_idchar c) eqn:Ic; [now apply is_idchar_iff in Ic|]. discriminate F.
      * rewrite C. reflexivity.
      * destruct r as [|c r]; [left; exact I|right]. exists c, r. repeat split. cbn in K. destruct (is_idchar c) eqn:Ic; [|reflexivity]. now apply is_idchar_iff in Ic.
      * reflexivity.
  - apply orb_true_iff. right. assert (acc = []) as -> by (apply (proj2 verb_regular [] (skip i)); exact R).
    apply strs_nc_ok in H as (w & s & J & -> & _ & U). cbn [app]. rewrite (listed ["RIGHT"; "LEFT"; "UPPER"; "LOWER"; "DISTINCT"; "TRIM"]%string); [reflexivity| |reflexivity].
    rewrite U. cbn [In] in J. repeat (destruct J as [<-|J]; [cbn; tauto|]). destruct J.
Qed.
Lemma skip_name k v : identifier_before k v -> skip (v ++ k) = v ++ k.
Proof. intros [((c & w & -> & C & _) & _)|((b & -> & _) & _)]; [cbn [app]; apply SelectProofs.skip_dark; now apply letter_dark|reflexivity]. Qed.
(** *** The first name of a column is not taken for a literal or a function *)
Lemma lex_begins e w i r : swf e = true -> upper (L w) = L w -> slook false e (L w) = LOk r -> fails m (PLex e) i -> begins_with_nc w (skip i) = false.
Proof.
  intros W U Lk F. apply f_lex in F as (a & F); [|exact W]. unfold begins_with_nc. destruct (strip true (L w) (skip i)) as [[x k]|] eqn:E; [|reflexivity]. exfalso.
  apply strip_nc_iff in E as [E Ux]. rewrite U in Ux. pose proof (slook_ok false e (L w) x k Ux ltac:(discriminate) []) as G. rewrite Lk in G. destruct G as (a' & r' & G & _).
  apply (sev_iff _ _ _ _ W) in G. rewrite <- E, F in G. discriminate.
Qed.
Lemma first_value i a k : fails m (g_numeric_value_function m) i -> fails m (PLex s_unsigned_literal) i -> skip i = a ++ k -> identifier_before k a -> shy a = true -> k <> [] \/ one_of_nc a ["COT"%string] = false -> is_value_name a = true.
Proof.
  intros F1 F2 E I S Q. unfold is_value_name. rewrite (ident_name _ _ I S). cbn [andb]. apply negb_true_iff. rewrite !orb_false_iff.
  assert (B : forall w, begins_with_nc w (skip i) = false -> begins_with_nc w a = false) by (intros w B; rewrite E in B; now apply begins_cut in B).
  unfold g_numeric_value_function in F1. apply f_alt in F1 as [FT F1]; [|reflexivity]. repeat (apply f_alt in F1 as [_ F1]; [|reflexivity]). apply f_map in F1.
  repeat split; try apply B.
  - apply (lex_begins s_unsigned_literal _ i []); [reflexivity|reflexivity|vm_compute; reflexivity|exact F2].
  - apply (lex_begins s_unsigned_literal _ i []); [reflexivity|reflexivity|vm_compute; reflexivity|exact F2].
  - apply (lex_begins s_no_arg_function _ i []); [reflexivity|reflexivity|vm_compute; reflexivity|exact F1].
  - destruct Q as [Q|Q]; [|exact Q]. apply Bool.not_true_iff_false. intro C. unfold one_of_nc, SpecCanon.one_of in C. cbn [existsb] in C. rewrite orb_false_r in C. apply text_eqb_iff in C.
    unfold g_trig_function in FT. apply f_alt in FT as [F _]; [|reflexivity]. apply f_map, f_exp, f_exp, f_exp, f_lex in F as (acc & F); [|reflexivity].
    destruct I as [(W & K & _)|((d & -> & _) & _)]; [|discriminate C].
    unfold s_trig1 in F. cbn [srun] in F. rewrite E in F. rewrite strs_pick in F.
    + destruct k as [|c r]; [contradiction|]. cbn in K. unfold ahead_nonid in F. cbn [srun] in F. destruct (is_idchar c) eqn:Ic; [now apply is_idchar_iff in Ic|]. discriminate F.
    + rewrite C. reflexivity.
    + destruct k as [|c r]; [left; exact Logic.I|right]. exists c, r. repeat split. cbn in K. destruct (is_idchar c) eqn:Ic; [|reflexivity]. now apply is_idchar_iff in Ic.
    + reflexivity.
Qed.
Lemma col_value c idx i j : reads m (g_numeric_primary m) i (NP_vep (VEP (VP_col c) idx)) j -> shy_col c && not_cot c = true -> c_colref is_value_name c = true.
Proof.
  intros H Sh. apply andb_true_iff in Sh as [Sh Ct]. apply i_alt in H as [H|[F H]]; [| |reflexivity]; [apply i_map in H as (x & E & _); discriminate E|]. apply f_map in F.
  apply i_map in H as (x & E & H). injection E as <-.
  apply i_map in H as ([v' idx'] & E1 & H). injection E1 as <- <-. apply i_seq in H as (v1 & idx1 & k & E1 & H & HI); [|reflexivity]. injection E1 as <- <-.
  apply vepv_col in H as (_ & F2 & H). destruct (reads_spells m _ _ _ _ _ (SpellProofs.n_colref m) eq_refl H) as (u & r & -> & S).
  spelt S; cbn [shy_col c_colref not_cot] in *; rewrite ?andb_true_iff in *; repeat match goal with H : _ /\ _ |- _ => destruct H end; repeat split; eauto using ident_name, upload_is;
    (eapply first_value; [exact F|exact F2| |eassumption|assumption|first [right; now apply negb_true_iff|left; let Q := fresh in intro Q; apply (f_equal (@length ascii)) in Q; rewrite ?app_length in Q; cbn [length L list_ascii_of_string] in Q; lia]]; 
     match goal with |- skip ((?w ++ ?a ++ ?t) ++ ?r) = _ => rewrite <- (app_assoc w (a ++ t) r), <- (app_assoc a t r) end; rewrite skip_over by assumption; apply skip_name; eassumption).
Qed.
Lemma in_names n l : In n l -> In (SpecSpelling.name n) (names l).
Proof. destruct l as [|b l]; [contradiction|]. intros [->|I]; [now left|]. right. apply in_flat_map. exists n. split; auto. right; now left. Qed.
Lemma is_nil_eq {A} (l : list A) : is_nil l = true -> l = [].
Proof. now destruct l. Qed.
Lemma top_fine q n c i j : reads m (g_select m) i (Select q n c) j -> (n <=? top_none)%N = true.
Proof.
  intros H. apply i_map in H as (x & E & H). apply i_exp in H as (y & c' & k & -> & H & _); [|reflexivity]. apply i_seq in H as (y' & t & k' & -> & _ & H); [|reflexivity].
  destruct y' as [? q']. injection E as -> -> ->. apply N.leb_le. destruct t as [t|]; [|cbn; reflexivity]. cbn [odef].
  apply i_opt in H as [(t' & E & H)|(E & _)]; [|discriminate]. injection E as <-. apply i_map in H as (x & -> & H). apply i_exp in H as (z & t & k2 & -> & _ & H); [|reflexivity].
  cbn [snd]. destruct H as (r & H & _). apply ev_inv in H. cbn [inv_of] in H. unfold ulong in H. destruct (span is_digit (skip k2)) as [ds r']. destruct (is_nil ds); [discriminate|].
  destruct (dec_value ds <? ull_mod)%N eqn:B; [|discriminate]. injection H as <- _. apply N.ltb_lt in B. unfold top_none. change (2 ^ 64 - 1)%N with (N.pred ull_mod). lia.
Qed.

Ltac done_list := match goal with H : In (upper ?v) (map L _) |- context [one_of_nc ?v _] => rewrite (listed _ _ _ H) by reflexivity
  | H : In ?v (map L _) |- context [SpecCanon.one_of ?v _] => rewrite (listed_cs _ _ _ H) by reflexivity end.
Lemma not_is n : is_not n -> one_of_nc n ["NOT"%string] = true.
Proof. intros H. apply one_of_nc_iff. rewrite H. now left. Qed.
(** *** The conditions along the edges of conditions *)
Definition plain_not (f : bfac) : Prop := usual fmt (N_bfac f) = true.
Lemma real_not i n p j : plain_not (BF n p) -> n <> [] -> reads m g_boolean_factor i (BF n p) j -> exists r, srun (kws_soft ["NOT"%string]) [] (skip i) = SOk n r.
Proof.
  intros U N H. eapply (lead_not m fmt mapped_lead); eauto. unfold plain_not in U. cbn [usual] in U. destruct n; [contradiction|]. cbn [is_nil orb] in U. now apply negb_true_iff.
Qed.
Definition all_usual (l : list node) : Prop := forall x, In x l -> usual fmt x = true.
Lemma us_app l l' : all_usual (l ++ l') -> all_usual l /\ all_usual l'.
Proof. intros H. split; intros x I; apply H, in_app_iff; auto. Qed.
Lemma us_cons x l : all_usual (x :: l) -> usual fmt x = true /\ all_usual l.
Proof. intros H. split; [apply H; now left|]. intros y I. apply H. now right. Qed.
Lemma spine_usual s : all_usual (nodes_sc s) -> spine plain_not s.
Proof.
  revert s. fix IH 1. intros [[n p]|[n p] o s] H; autorewrite with nd_eq in H; apply us_cons in H as [_ H]; [|apply us_app in H as [H _]];
    apply us_cons in H as [H0 H]; (split; [exact H0|]); destruct p as [q|s'|v]; try exact I; apply IH; autorewrite with nd_eq in H; now apply us_cons in H as [_ H].
Qed.
Lemma ending_usual s : all_usual (nodes_sc s) -> ending plain_not s
with ending_ve_usual v : all_usual (nodes_ve v) -> ending_ve plain_not v.
Proof.
  - destruct s as [[n p]|f o s]; intros H; autorewrite with nd_eq in H; apply us_cons in H as [_ H].
    + apply us_cons in H as [_ H]. cbn [ending ending_f]. destruct p as [q|s'|v].
      * cbn [ending_p]. destruct q; cbn [ending_pred]; try exact I; apply ending_ve_usual; autorewrite with nd_eq in H; apply us_cons in H as [_ H]; apply us_cons in H as [_ H];
          repeat apply us_app in H as [_ H]; exact H.
      * apply spine_usual. autorewrite with nd_eq in H. now apply us_cons in H as [_ H].
      * exact I.
    + apply us_app in H as [_ H]. cbn [ending]. now apply ending_usual.
  - destruct v as [v|s]; intros H; cbn [ending_ve]; [exact I|]. apply ending_usual. autorewrite with nd_eq in H. now apply us_cons in H as [_ H].
Qed.
Lemma star_is s k x : (exists n y, s = n ++ L ".*" /\ x = y ++ L ".*" /\ table_name m n (L ".*" ++ k) y) -> shy_table s = true -> value_start s = true ->
  existsb (fun '(n, r) => text_eqb r (L "*") && table_name_from is_value_name n) (cuts "." s) = true.
Proof.
  intros (n & y & -> & _ & N) S V. apply existsb_exists. exists (n, L "*"). split; [apply (cuts_in "." n (L "*"))|]. cbn [text_eqb andb]. change (text_eqb (L "*") (L "*")) with true. cbn [andb].
  destruct N as [U|(-> & d & D & I)]; [unfold table_name_from; now rewrite (upload_is _ _ _ U)|].
  eapply dotted_table; [exact I|lia| |].
  - unfold shy_table in *. change (L ".*") with ("."%char :: L "*") in S. rewrite pieces_app, forallb_app in S. now apply andb_true_iff in S as [S _].
  - intros k' v r Iv Sv E. unfold is_value_name. rewrite (ident_name _ _ Iv Sv). cbn [andb]. unfold value_start in V. apply negb_true_iff in V. apply negb_true_iff. rewrite !orb_false_iff in *.
    assert (X : exists r', n ++ L ".*" = v ++ "."%char :: r') by (destruct E as [->| ->]; [now exists (L "*")|exists (r ++ L ".*"); now rewrite <- app_assoc]).
    destruct X as (r' & X). rewrite X in V. destruct V as [[[V1 V2] V3] V4]. repeat split; try (eapply begins_cut; eassumption).
    destruct Iv as [((c & w & -> & C & W) & _)|((b & -> & _) & _)]; [|reflexivity]. rewrite pieces_app, pieces_word in V4; [exact V4|]. constructor; [now left|exact W].
Qed.
Lemma node_fine T b u n : spells m b u (X n) -> from m T n -> all_usual (n :: nodes_part (X n)) -> fine fmt n = true.
Proof.
  intros S F UA. apply us_cons in UA as [U UA]. destruct n.
  - destruct v; [reflexivity|]. cbn [fine]. apply read_reads in F as (i & j & R). eapply (not_value m plain_not real_not); [apply Invert.r_ve; exact R|].
    apply spine_usual. cbn [nodes_part] in UA. autorewrite with nd_eq in UA. now apply us_cons in UA as [_ UA].
  - destruct v; exact U.
  - spelt S. cbn [fine]. now done_list.
  - spelt S; [reflexivity|]. cbn [fine]. now done_list.
  - reflexivity.
  - apply read_reads in F as (i & j & R). destruct v; try (spelt S; cbn [fine]; done_list; reflexivity).
    + spelt S; cbn [fine]; done_list; cbn [is_nil orb andb]; [reflexivity|]. rewrite digits_is by assumption. apply orb_true_r.
    + eapply udf_fine; eauto.
  - apply read_reads in F as (i & j & R). cbn [fine]. destruct v as [v idx]. destruct v; try apply orb_true_r. destruct c; try apply orb_true_r.
    match goal with |- context [one_of_nc ?w ?l] => destruct (one_of_nc w l) eqn:E end; [|apply orb_true_r]. now rewrite (array_fine _ _ _ _ _ R E).
  - destruct v; cbn [usual] in U; try exact U; try (spelt S; cbn [fine]; try done_list; first [reflexivity|destruct l; [contradiction|reflexivity]|destruct w; [contradiction|reflexivity]]).
    + cbn [fine]. destruct F as (idx & _ & F). apply read_reads in F as (i & j & R). eapply col_value; eauto.
    + inversion S as [? ? ? ? P W]; subst. inversion P; subst. repeat wstep. cbn beta in *. cbn [fine]. match goal with H : _ /\ In _ _ |- _ => destruct H as [_ [H|[]]] end.
      unfold one_of_nc. rewrite upper_app. match goal with H : L "COUNT" = _ |- _ => rewrite <- H end. reflexivity.
    + spelt S; cbn [fine].
      * done_list. reflexivity.
      * do 2 done_list. apply orb_true_r.
  - reflexivity.
  - reflexivity.
  - apply read_reads in F as (i & j & R). apply result_fine in R. now destruct v.
  - destruct v; [reflexivity|]. cbn [fine]. apply read_reads in F as (i & j & R). rewrite (closed_fac m _ _ _ _ _ R). spelt S. now done_list.
  - destruct v as [n p]. cbn [fine usual] in *. destruct n as [|c n]; cbn [is_nil].
    { apply read_reads in F as (i & j & R). now rewrite (lead_plain m fmt mapped_lead _ _ _ R). } inversion S as [? ? ? ? P W]; subst. inversion P; subst. wstep. cbn beta in *.
    destruct H0 as [[E _]|[(N & _)|(N & _)]]; [discriminate| |]; now apply not_is.
  - destruct v; try reflexivity. cbn [fine usual] in *. rewrite U. apply read_reads in F as (i & j & R). now rewrite (lead_val m fmt mapped_lead _ _ _ R).
  - destruct v; try reflexivity; cbn [fine usual] in *.
    + spelt S. now done_list.
    + apply read_reads in F as (i & j & R). rewrite (closed_low m _ _ _ _ _ _ R), andb_true_r. inversion S as [? ? ? ? P W]; subst. inversion P; subst. wstep. wstep. cbn beta in *.
      match goal with H : _ \/ _ |- _ => destruct H as [[-> _]|(_ & N & _)] end; [reflexivity|]. rewrite (not_is _ N). apply orb_true_r.
    + spelt S. reflexivity.
  - destruct v; [reflexivity|]. cbn [fine usual] in *. apply read_reads in F as (i & j & R). apply (lead_in m fmt mapped_lead) in R. destruct l; [contradiction|exact R].
  - destruct v; [cbn [fine]; apply read_reads in F as (i & k & R); now apply (lead_subq m fmt mapped_lead) in R|]. cbn [fine]. pose proof (subq_ng _ _ _ _ F eq_refl) as N. destruct q as [w i ad g h o]. cbn [components] in N. inversion N as [|? ? N1 N2]; subst.
    cbn [plain_query]. apply andb_true_iff. split; [destruct i; destruct N1 as (? & N1); cbn [where_of] in N1; subst; reflexivity|].
    apply forallb_forall. intros [op s] I. destruct (proj1 (Forall_forall _ _) N2 s) as (c & E); [apply in_map_iff; now exists (Addon op s)|].
    destruct s. cbn [where_of] in E. now subst.
  - destruct v as [[h ss]|]; [|reflexivity]. cbn [fine usual] in *.
    assert (R : exists i j, reads m (g_joined_table m) i (JT_q (QJ h ss)) j) by (destruct F as [F|(j & E & _)]; [now apply read_reads in F|discriminate E]). destruct R as (i & j & R).
    rewrite (jt_turn m plain_not real_not i h ss j), andb_true_r; [|now apply Invert.r_jt|].
    2:{ cbn [nodes_part] in UA. autorewrite with nd_eq in UA. apply us_cons in UA as [_ UA]. apply us_app in UA as [_ UA]. apply Forall_forall. intros s I.
      assert (Us : all_usual (nodes_jsuf s)) by (intros x J; apply UA, in_flat_map; eauto). destruct s as [nat ty t [[l|s]|]]; cbn [ending_suf]; try exact Logic.I.
      apply ending_usual. autorewrite with nd_eq in Us. cbn [onodes] in Us. autorewrite with nd_eq in Us. repeat first [apply us_cons in Us as [_ Us]|apply us_app in Us as [_ Us]]. exact Us. }
    spelt S. match goal with H : spells _ _ _ (X_qjoin _) |- _ => spelt H end. now destruct ss.
  - destruct v; cbn [fine usual] in *.
    + apply andb_true_iff in U as [U1 U2]. spelt S. apply andb_true_iff. split; [eapply table_is; eauto|eapply alias_is; eauto].
    + spelt S. reflexivity.
  - destruct v as [nat ty t sp]. cbn [fine usual] in *.
    assert (TS : match sp with None => true | Some _ => negb (takes_spec t) end = true).
    { destruct sp; [|reflexivity]. apply read_reads in F as (i & k & R). now rewrite (closed_suf m _ _ _ _ _ _ R). }
    rewrite TS, andb_true_r.
    assert (J : exists k x, spells m k x (X_jtype ty)).
    { eapply (loc_spells b u (X_jtype ty)); [|eauto]. inversion S as [? ? ? ? P W]; subst. inversion P; subst. eapply loc_in; [exact W|]. apply in_app_iff. right. now left. }
    destruct J as (k & x & J). spelt J; [reflexivity| |]; done_list; [apply orb_true_r|reflexivity].
  - destruct v; [|reflexivity]. cbn [fine usual] in *. inversion S as [? ? ? ? P W]; subst. inversion P; subst. apply andb_true_iff. split; [now destruct l|].
    eapply names_all; [exact W| |exact U]. intros n I. cbn [app]. do 2 right. apply in_app_iff. left. now apply in_names.
  - destruct v; cbn [fine usual] in *; try reflexivity.
    + apply andb_true_iff in U as [U1 U2]. spelt S. apply andb_true_iff. split; [eapply table_is; eauto|eapply alias_is; eauto].
    + apply read_reads in F as (i & j & R). apply dc_fine in R. destruct q; [contradiction|]. cbn [andb]. spelt S.
      match goal with H : spells _ _ _ (X_alias _) |- _ => pose proof (alias_is _ _ _ H U) as A end. apply orb_true_iff in A as [A|A]; [|exact A]. match goal with H : _ <> [] |- _ => now destruct (H (is_nil_eq _ A)) end.
    + rewrite U, andb_true_r. inversion S as [? ? ? ? P W]; subst. inversion P; subst. apply andb_true_iff. split.
      * wstep. cbn beta in *. match goal with H : exists _, _ |- _ => destruct H as (? & _ & _ & H) end. now apply dotted_is.
      * apply forallb_forall. intros a I. destruct args as [|a0 args]; [contradiction|]. cbn [app] in W. destruct I as [->|I].
        -- wstep. wstep. cbn beta in *. apply dotted_is. tauto.
        -- destruct (terminal_in m _ _ _ (fun _ x => x = a /\ dotted_name a) W) as (? & ? & ? & _ & _ & D); [|now apply dotted_is].
           cbn [app]. do 2 right. apply in_app_iff. left. apply in_flat_map. exists a. split; [exact I|]. right. now left.
  - reflexivity.
  - destruct v as [n cols q]. cbn [fine usual] in *. apply andb_true_iff in U as [U1 U2]. inversion S as [? ? ? ? P W]; subst. inversion P; subst. apply andb_true_iff. split.
    + cbn [app] in W. wstep. wstep. cbn beta in *. eapply ident_name; [|exact U1]. match goal with H : _ /\ identifier_before _ n |- _ => apply H end.
    + destruct cols as [|c0 cols]; [reflexivity|]. eapply names_all; [exact W| |exact U2]. intros c I. cbn [app]. do 2 right. cbn [is_nil]. apply in_app_iff. left. right. apply in_app_iff. left. now apply in_names.
  - destruct v. cbn [fine]. spelt S. now done_list.
  - destruct v as [s ts w]. cbn [fine]. inversion S as [? ? ? ? P W]; subst. inversion P; subst. now destruct ts.
  - reflexivity.
  - destruct v; cbn [fine]; spelt S; try done_list; reflexivity.
  - reflexivity.
  - destruct v as [q n c]. apply read_reads in F as (i & j & R). apply top_fine in R. cbn [fine]. rewrite R, andb_true_r. inversion S as [? ? ? ? P W]; subst. inversion P; subst.
    match goal with H : _ \/ qi = [] /\ _ |- _ => destruct H as [->|[-> ->]] end; [|reflexivity]. cbn [app] in W. wstep. wstep. cbn beta in *. match goal with H : _ /\ In _ _ /\ _ |- _ => destruct H as (_ & H & _) end. done_list. apply orb_true_r.
  - destruct v; cbn [fine]; spelt S; [reflexivity|]. now destruct l.
  - destruct v; cbn [fine usual] in *; try reflexivity.
    + spelt S. eapply ident_name; eauto.
    + apply andb_true_iff in U as [U1 U2]. inversion S as [? ? ? ? P W]; subst. inversion P; subst. wstep. cbn beta in *. match goal with H : exists _, _ |- _ => destruct H as (y & -> & N) end. eapply star_is; eauto 6.
  - apply read_reads in F as (i & j & R). apply gterm_fine in R. now destruct v.
  - destruct v as [k o]. cbn [fine usual] in *. inversion S as [? ? ? ? P W]; subst. inversion P; subst. apply andb_true_iff. split.
    + match goal with H : (exists _, _ /\ ki = _) \/ _ |- _ => destruct H as [(c & -> & ->)|(c & -> & ->)] end; cbn [app] in W; wstep; [eapply colref_is; eauto|]. cbn beta in *. apply digits_is. tauto.
    + match goal with H : _ \/ oi = [] /\ _ |- _ => destruct H as [->|[-> ->]] end; [|reflexivity].
      destruct (terminal_in m _ _ _ (fun _ x => x = o /\ In (upper o) (map L ["ASC"; "DESC"]%string)) W) as (? & ? & ? & _ & _ & D); [apply in_app_iff; right; now left|]. done_list. apply orb_true_r.
  - destruct v; cbn [fine usual n_soc c_soc] in *; spelt S; [eapply shape_is|eapply colref_is]; eauto.
  - destruct v; cbn [fine usual n_poc c_poc] in *; spelt S; [|eapply colref_is; eauto].
    match goal with H : spells _ _ _ (X_shape _) |- _ => apply shape_is in H; [exact H|exact U] end.
Qed.
End Lex.

Theorem part_fine tm fmt t q n : (forall n v, n <> [] -> lookup tm n = Some v -> upload_name v = true) ->
  parse_it tm t = Q_ok q -> In n (nodes_qspec q) -> Forall (fun n => usual fmt n = true) (nodes_part (X n)) -> Forall (fun n => fine fmt n = true) (nodes_part (X n)).
Proof.
  intros M H I0 U. apply Forall_forall. intros x J. assert (I : In x (nodes_qspec q)) by exact (nodes_closed q n I0 x J).
  destruct (accepted_part _ _ _ _ H I) as (a & u & b & _ & S).
  eapply node_fine; [exact M|exact S|exact (accepted_node _ _ _ _ H I)|]. intros y [<-|K]; apply (proj1 (Forall_forall _ _) U); [exact J|].
  exact (parts_closed n x J y K).
Qed.
Theorem accepted_fine tm fmt t q : (forall n v, n <> [] -> lookup tm n = Some v -> upload_name v = true) ->
  parse_it tm t = Q_ok q -> Forall (fun n => usual fmt n = true) (nodes_qspec q) -> Forall (fun n => fine fmt n = true) (nodes_qspec q).
Proof. intros M H U. destruct q as [w i ad g h o]. apply (part_fine tm fmt t (QS w i ad g h o) (N_qspec (QS w i ad g h o))); auto. now left. Qed.
