(** Rewriting makes no new TAP_UPLOAD (C40). *)
From Verif Require Import Query Spec SpecLexical SpecRewrite SpecUploads RewriteSound MappingLocal.

Lemma prefix_cut : forall w a b y, ~ In " "%char w -> a ++ " "%char :: b = w ++ y -> exists z, a = w ++ z.
Proof.
  induction w as [|c w IH]; intros a b y N E; [now exists a|]. destruct a as [|d a]; cbn [app] in E; injection E as <- E.
  - exfalso. apply N. now left.
  - destruct (IH a b y) as (z & ->); [intros H; apply N; now right|exact E|]. now exists z.
Qed.
Lemma occurs_cut w a b : ~ In " "%char w -> occurs w (a ++ " "%char :: b) -> occurs w a \/ occurs w b.
Proof.
  intros N (x & y & E). revert x y E. induction a as [|c a IH]; intros x y E.
  - destruct x as [|d x]; cbn [app] in E.
    + destruct w as [|d w]; [left; now exists [], []|]. injection E as <- _. exfalso. apply N. now left.
    + injection E as _ E. right. now exists x, y.
  - destruct x as [|d x]; cbn [app] in E.
    + destruct (prefix_cut w (c :: a) b y N E) as (z & P). left. exists [], z. exact P.
    + injection E as <- E. destruct (IH x y E) as [(x' & y' & ->)|H]; [left; now exists (c :: x'), y'|now right].
Qed.
Lemma occurs_app w a b c : ~ In c b -> occurs (w ++ [c]) (a ++ b) -> occurs (w ++ [c]) a.
Proof.
  intros N (x & y & E). exists x. revert y E. induction b as [|d b IH] using rev_ind; intros y E.
  - exists y. now rewrite app_nil_r in E.
  - destruct y as [|e y] using rev_ind.
    + rewrite app_nil_r, !app_assoc in E. apply app_inj_tail in E as [_ ->]. exfalso. apply N, in_or_app. right. now left.
    + clear IHy. rewrite !app_assoc in E. apply app_inj_tail in E as [E _]. rewrite <- !app_assoc in E. apply (IH (fun H => N (in_or_app _ _ _ (or_introl H))) y). rewrite E, <- !app_assoc. reflexivity.
Qed.
Lemma occurs_in w a b c : occurs w b -> occurs w (a ++ b ++ c).
Proof. intros (x & y & ->). exists (a ++ x), (y ++ c). now rewrite <- !app_assoc. Qed.
Lemma no_new_upload input t : ~ In "$"%char input -> preprocess input = inr t -> occurs (L "TAP_UPLOAD.") t -> occurs (L "TAP_UPLOAD.") input.
Proof.
  intros D P O. destruct (preprocess_exact input t D P) as [->|(pre & l & g & r & tl & l' & g' & W & C & ->)]; [exact O|].
  assert (B : ~ In " "%char (L "TAP_UPLOAD.")) by (cbn; intuition discriminate).
  destruct W as [w m1 m2 -> _ _ _ _ _ _ _]. apply check_shape in C.
  assert (Hl : occurs (L "TAP_UPLOAD.") l' -> occurs (L "TAP_UPLOAD.") l).
  { destruct C as [[-> ->]|[-> ->]]; [easy|]. intros H. pose proof (occurs_in _ ["("%char] _ [] H) as K. now rewrite app_nil_r in K. }
  assert (Hg : occurs (L "TAP_UPLOAD.") g' -> occurs (L "TAP_UPLOAD.") g).
  { destruct C as [[-> ->]|[-> ->]]; [easy|]. intros H. exact (occurs_in _ [] _ [")"%char] H). }
  assert (HA : ~ occurs (L "TAP_UPLOAD.") (L "AND")).
  { intros (x & y & E). apply (f_equal (@length ascii)) in E. rewrite !app_length in E. cbn in E. lia. }
  assert (E : moved pre l' g' r = (pre ++ L "WHERE") ++ " "%char :: g' ++ " "%char :: L "AND" ++ " "%char :: l' ++ match r with [] => [] | _ => " "%char :: L "AND" ++ " "%char :: r end).
  { unfold moved. rewrite <- !app_assoc. destruct r; reflexivity. }
  rewrite E in O. apply (occurs_cut _ _ _ B) in O as [O|O]; [|apply (occurs_cut _ _ _ B) in O as [O|O]; [|apply (occurs_cut _ _ _ B) in O as [O|O]]].
  - apply (occurs_app (L "TAP_UPLOAD") pre (L "WHERE") "."%char) in O; [exact (occurs_in _ [] _ _ O)|cbn; intuition discriminate].
  - apply Hg in O. apply (occurs_in _ (pre ++ w ++ l ++ m1) _ (m2 ++ r ++ tl)) in O. now rewrite <- !app_assoc in O.
  - now apply HA in O.
  - assert (K : occurs (L "TAP_UPLOAD.") l' \/ occurs (L "TAP_UPLOAD.") r).
    { destruct r as [|c r]; [rewrite app_nil_r in O; now left|]. apply (occurs_cut _ _ _ B) in O as [O|O]; [now left|]. right. apply (occurs_cut _ _ _ B) in O as [O|O]; [now apply HA in O|exact O]. }
    destruct K as [K|K].
    + apply Hl in K. apply (occurs_in _ (pre ++ w) _ (m1 ++ g ++ m2 ++ r ++ tl)) in K. now rewrite <- !app_assoc in K.
    + apply (occurs_in _ (pre ++ w ++ l ++ m1 ++ g ++ m2) _ tl) in K. now rewrite <- !app_assoc in K.
Qed.
