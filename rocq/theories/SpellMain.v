(** Accepted texts are written according to SpecSpelling.v, and so is each of their parts. *)
From Verif Require Import Query PegProps Gen Spec TextLemmas SpecLexical SpecContent SpecNodes
  ContentCalc SpecSpelling SpellCalc SpellLeaves SpellProofs.

Lemma spelled tm t q : parse_it tm t = Q_ok q ->
  exists u w, t = u ++ w /\ white w /\ spells (lookup tm) w u (X (N_qspec q)).
Proof.
  unfold parse_it, grun. destruct (run _ _ _ _ _) as [q' r|r|[p|t0]|] eqn:E; try discriminate.
  destruct (skip r) eqn:Sk; [|discriminate]. intros H; injection H as ->.
  eapply (gen_sound _ (SPr (lookup tm)) (spell_body (lookup tm))) in E as (u & -> & G). exists u, r. split; auto. split.
  - destruct (skip_spaces r) as (sp & S & Er). rewrite Sk, app_nil_r in Er. rewrite Er. now apply spaces_white.
  - revert G. apply n_query, n_where.
Qed.

Definition nodes_part (p : part) : list node :=
  match p with
  | X n =>
    match n with
    | N_ve v => nodes_ve v | N_venb v => nodes_venb v | N_vterm v => nodes_vterm v | N_factor v => nodes_factor v
    | N_nprim v => nodes_nprim v | N_nvf v => nodes_nvf v | N_vep v => nodes_vep v | N_vepv v => nodes_vepv v
    | N_swhen v => nodes_swhen v | N_qwhen v => nodes_qwhen v | N_result v => nodes_result v | N_sc v => nodes_sc v
    | N_bfac v => nodes_bfac v | N_bprim v => nodes_bprim v | N_pred v => nodes_pred v | N_intarget v => nodes_intarget v
    | N_subq v => nodes_subq v | N_jt v => nodes_jt v | N_qjhead v => nodes_qjhead v | N_jsuf v => nodes_jsuf v
    | N_jspec v => nodes_jspec v | N_tref v => nodes_tref v | N_qspec v => nodes_qspec v | N_with v => nodes_with v
    | N_addon v => nodes_addon v | N_sfw v => nodes_sfw v | N_where v => nodes_where v | N_geom v => nodes_geom v
    | N_gpred v => nodes_gpred v | N_select v => nodes_select v | N_columns v => nodes_columns v | N_colv v => nodes_colv v
    | N_gterm v => nodes_gterm v | N_sort v => [N_sort v] | N_soc v => [N_soc v] | N_poc v => [N_poc v]
    end
  | X_qjoin q => nodes_qjoin q
  | _ => []
  end.

Definition below (its : list item) (n : node) : Prop := exists q, In (Pt q) its /\ In n (nodes_part q).
Lemma below_cons_t P its n : below its n -> below (T P :: its) n.
Proof. intros (q & H & I). exists q. split; [now right|auto]. Qed.
Lemma below_here q its n : In n (nodes_part q) -> below (Pt q :: its) n.
Proof. exists q. split; [now left|auto]. Qed.
Lemma below_next i its n : below its n -> below (i :: its) n.
Proof. intros (q & H & I). exists q. split; [now right|auto]. Qed.
Lemma below_l a b n : below a n -> below (a ++ b) n.
Proof. intros (q & H & I). exists q. split; [apply in_app_iff; auto|auto]. Qed.
Lemma below_r a b n : below b n -> below (a ++ b) n.
Proof. intros (q & H & I). exists q. split; [apply in_app_iff; auto|auto]. Qed.
Lemma below_commas {A} (f : A -> part) (g : A -> list node) l n : (forall a, nodes_part (f a) = g a) -> In n (flat_map g l) -> below (commas (map f l)) n.
Proof.
  intros E I. apply in_flat_map in I as (a & Ia & I). rewrite <- E in I. exists (f a). split; auto.
  destruct l as [|b l]; [contradiction|]. cbn [map commas]. destruct Ia as [->|Ia]; [now left|right].
  induction l as [|c l IH]; [contradiction|]. cbn [map flat_map app]. destruct Ia as [->|Ia]; [right; now left|right; right; auto].
Qed.
Lemma below_each {A} (f : A -> node) (g : A -> list node) l n : (forall a, nodes_part (X (f a)) = g a) -> In n (flat_map g l) -> below (each f l) n.
Proof.
  intros E I. apply in_flat_map in I as (a & Ia & I). rewrite <- E in I. exists (X (f a)). split; auto.
  unfold each. apply in_map_iff. eauto.
Qed.
Lemma below_index l n : In n (flat_map nodes_ve l) -> below (flat_map (fun a => [mark "["; Pt (X (N_ve a)); mark "]"]) l) n.
Proof.
  intros I. apply in_flat_map in I as (a & Ia & I). exists (X (N_ve a)). split; auto. apply in_flat_map. exists a. split; auto. right; now left.
Qed.

Scheme spells_mut := Minimality for spells Sort Prop with writes_mut := Minimality for writes Sort Prop.

Section Located.
Variable m : text -> option text.

Ltac nsplit :=
  repeat match goal with
  | H : In _ (_ ++ _) |- _ => apply in_app_iff in H as [H|H]
  | H : In _ (_ :: _) |- _ => destruct H as [H|H]
  | H : In _ [] |- _ => contradiction
  | H : In _ (onodes _ ?o) |- _ => first [is_var o; destruct o; cbn [onodes] in H; [|contradiction] | progress cbn [onodes] in H]
  end.
Ltac find :=
  first
  [ apply below_here; assumption
  | apply below_here; left; first [reflexivity|assumption]
  | apply below_here; right; assumption
  | apply below_commas with (g := nodes_ve); [reflexivity|assumption]
  | apply below_commas with (g := nodes_tref); [reflexivity|assumption]
  | apply below_commas with (g := nodes_colv); [reflexivity|assumption]
  | apply below_commas with (g := nodes_gterm); [reflexivity|assumption]
  | eapply below_each; [reflexivity|assumption]
  | apply below_index; assumption
  | apply below_l; find
  | apply below_r; find
  | apply below_next; find ].

Lemma nodes_below p its n : production m p its -> In n (nodes_part p) -> p = X n \/ below its n.
Proof.
  intros P I.
  destruct P; cbn [nodes_part nodes_ve nodes_venb nodes_vterm nodes_factor nodes_nprim nodes_nvf nodes_vep nodes_vepv nodes_swhen nodes_qwhen
    nodes_result nodes_sc nodes_bfac nodes_bprim nodes_pred nodes_intarget nodes_subq nodes_jt nodes_qjoin nodes_qjhead nodes_jsuf nodes_jspec
    nodes_tref nodes_qspec nodes_with nodes_addon nodes_sfw nodes_where nodes_geom nodes_gpred nodes_select nodes_columns nodes_colv nodes_gterm] in I;
  nsplit; subst; try contradiction; try (left; reflexivity); right; try (find; fail);
  cbn [onodes] in *; nsplit; try (find; fail).
  - destruct (is_nil g) eqn:E; [destruct g; [contradiction|discriminate]|]. find.
  - match goal with H : In n (map _ _) |- _ => rename H into I end. apply in_map_iff in I as (x & <- & I).
    do 5 apply below_r. destruct o as [|y o]; [contradiction|]. cbn [is_nil]. apply below_r.
    apply (below_commas (fun x => X (N_sort x)) (fun x => [N_sort x])); [reflexivity|]. apply in_flat_map. exists x. split; auto. now left.
Qed.

(** Each part of an accepted query is written somewhere in the text. *)
Lemma located : forall k t p, spells m k t p -> forall n, In n (nodes_part p) -> exists a u b, t = a ++ u ++ b /\ spells m (b ++ k) u (X n).
Proof.
  apply (spells_mut m (fun k t p => forall n, In n (nodes_part p) -> exists a u b, t = a ++ u ++ b /\ spells m (b ++ k) u (X n))
    (fun k t its => forall n, below its n -> exists a u b, t = a ++ u ++ b /\ spells m (b ++ k) u (X n))).
  - intros k t p its P W IH n I. destruct (nodes_below _ _ _ P I) as [->|B]; [|apply IH, B].
    exists [], t, []. cbn [app]. rewrite app_nil_r. split; [reflexivity|]. econstructor; eauto.
  - intros k w S n (q & [] & _).
  - intros k w x t P its S Px W IH n (q & [E|I] & In_); [discriminate|].
    destruct (IH n) as (a & u & b & -> & Sp); [exists q; split; assumption|].
    exists (w ++ x ++ a), u, b. rewrite <- !app_assoc. split; [reflexivity|exact Sp].
  - intros k w x t p its S Px IHp W IH n (q & [E|I] & In_).
    + injection E as ->. destruct (IHp n In_) as (a & u & b & -> & Sp). exists (w ++ a), u, (b ++ t).
      rewrite <- !app_assoc. split; [reflexivity|]. exact Sp.
    + destruct (IH n) as (a & u & b & -> & Sp); [exists q; split; assumption|].
      exists (w ++ x ++ a), u, b. rewrite <- !app_assoc. split; [reflexivity|exact Sp].
Qed.

(** Replacing parts by what they are written as. *)
Definition opens (p : part) (E : list item) : Prop := forall k t, spells m k t p -> writes m k t E.
Definition into (a b : list item) : Prop := forall k t, writes m k t a -> writes m k t b.
Lemma into_refl a : into a a. Proof. now intros k t. Qed.
Lemma into_nil : into [] []. Proof. apply into_refl. Qed.
Lemma into_part p E a b : opens p E -> into a b -> into (Pt p :: a) (E ++ b).
Proof.
  intros HE Ha k t W. inversion W; subst. apply writes_lead; auto. apply writes_app; auto.
Qed.
Lemma into_keep i a b : into a b -> into (i :: a) (i :: b).
Proof. intros Ha k t W. inversion W; subst; constructor; auto. Qed.
Lemma into_app a a' b b' : into a a' -> into b b' -> into (a ++ b) (a' ++ b').
Proof.
  intros Ha Hb k t W. assert (exists u v, t = u ++ v /\ writes m (v ++ k) u a /\ writes m k v b) as (u & v & -> & Wa & Wb).
  { clear Ha Hb. induction a as [|i a IH] in t, W |- *; cbn [app] in W.
    - exists [], t. split; [reflexivity|]. split; auto. constructor. constructor.
    - inversion W as [|k' w x t' P its' S Px W' E1 E2 E3|k' w x t' p its' S Px W' E1 E2 E3]; subst;
        destruct (IH _ W') as (u & v & -> & Wa & Wb); exists (w ++ x ++ u), v; rewrite <- !app_assoc in *;
        (split; [reflexivity|]); (split; [|exact Wb]); constructor; auto; rewrite <- app_assoc; exact Px. }
  apply writes_app; auto.
Qed.
Lemma opens_by p E : (forall l k t, production m p l -> writes m k t l -> writes m k t E) -> opens p E.
Proof. intros H k t S. inversion S; subst. eauto. Qed.
Lemma into_each {A} (f : A -> node) (g : A -> list item) l : (forall a, opens (X (f a)) (g a)) -> into (each f l) (flat_map g l).
Proof. intros H. induction l as [|a l IH]; [apply into_nil|]. apply (into_part _ (g a)); auto. Qed.

Lemma opens_factor f : opens (X (N_factor f)) (signed f).
Proof.
  apply opens_by. intros l k t P W. inversion P; subst; cbn [signed]; auto.
  destruct s as [|c s]; auto. exfalso. inversion W as [|k' w x t' P' its' S Px W' E1 E2 E3|]; subst.
  destruct Px as [_ [H|[H|[]]]]; discriminate.
Qed.
Lemma opens_vterm o f : opens (X (N_vterm (VTerm o f))) (one_mark ["*"; "/"; "+"; "-"; "||"]%string o :: signed f).
Proof.
  apply opens_by. intros l k t P W. inversion P; subst. revert W. apply into_keep. rewrite <- (app_nil_r (signed f)).
  apply into_part; [apply opens_factor|apply into_nil].
Qed.
Lemma opens_venb v : opens (X (N_venb v)) (operands v).
Proof.
  apply opens_by. intros l k t P W. inversion P; subst. revert W. cbn [operands]. apply into_part; [apply opens_factor|].
  apply into_each. intros [o f']. apply opens_vterm.
Qed.
Lemma opens_bfac n p : opens (X (N_bfac (BF n p))) [optional_not n; Pt (X (N_bprim p))].
Proof. apply opens_by. intros l k t P W. now inversion P; subst. Qed.
Lemma opens_sc s : opens (X (N_sc s)) (conditions s).
Proof.
  revert s. fix IH 1. intros [[n p]|[n p] o s]; apply opens_by; intros l k t P W; inversion P; subst; revert W.
  - apply (into_part _ [_; _] [] []); [apply opens_bfac|apply into_nil].
  - apply (into_part _ [_; _]); [apply opens_bfac|]. apply into_keep.
    pose proof (into_part _ _ [] [] (IH s) into_nil) as H. rewrite app_nil_r in H. exact H.
Qed.
Lemma opens_jtype ty : opens (X_jtype ty) match ty with
      | JTy_plain s => if is_nil s then [] else [one_ofb ["INNER"]%string s]
      | JTy_outer s o => one_ofb ["LEFT"; "RIGHT"; "FULL"]%string s :: if o then [keyb "OUTER"] else []
      end.
Proof.
  apply opens_by. intros l k t P W. inversion P; subst; auto.
  destruct s as [|c s]; auto. exfalso. inversion W as [|k' w x t' P' its' S Px W' E1 E2 E3|]; subst.
  destruct Px as (_ & [H|[]] & _); discriminate.
Qed.
Lemma opens_jspec sp : opens (X (N_jspec sp)) match sp with
      | JSp_on s => [keyb "ON"; Pt (X (N_sc s))]
      | JSp_using l => [keyb "USING"; mark "("] ++ names l ++ [mark ")"]
      end.
Proof. apply opens_by. intros l k t P W. now inversion P; subst. Qed.
Lemma opens_jsuf s : opens (X (N_jsuf s)) (suffix_items s).
Proof.
  apply opens_by. intros l k t P W. inversion P; subst. revert W. cbn [suffix_items]. apply into_app; [apply into_refl|].
  apply into_part; [apply opens_jtype|]. apply into_keep, into_keep. destruct sp as [sp|]; [|apply into_nil].
  cbn [optional]. pose proof (into_part _ _ [] [] (opens_jspec sp) into_nil) as H. rewrite app_nil_r in H. destruct sp; exact H.
Qed.
Lemma opens_qjhead h : opens (X (N_qjhead h)) match h with
      | QH_tc n a => [T (table_name m n); Pt (X_alias a)]
      | QH_jt j => [Pt (X (N_jt j))]
      end.
Proof. apply opens_by. intros l k t P W. now inversion P; subst. Qed.
Lemma opens_jt j : opens (X (N_jt j)) (join_items m j).
Proof.
  apply opens_by. intros l k t P W. inversion P; subst; auto. revert W. destruct q as [h ss]. rewrite <- (app_nil_r (join_items m _)).
  apply into_part; [|apply into_nil]. clear. apply opens_by. intros l k t P W. inversion P; subst. revert W. cbn [join_items].
  apply into_part; [apply opens_qjhead|]. apply into_each. apply opens_jsuf.
Qed.
End Located.

Lemma accepted_part tm t q n : parse_it tm t = Q_ok q -> In n (nodes_qspec q) ->
  exists a u b, t = a ++ u ++ b /\ spells (lookup tm) b u (X n).
Proof.
  intros H I. apply spelled in H as (u & w & -> & W & S). eapply located in S as (a & x & b & -> & S); [|exact I].
  exists a, x, (b ++ w). rewrite <- !app_assoc. auto.
Qed.
