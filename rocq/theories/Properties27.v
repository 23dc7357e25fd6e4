(** C24, C37 for texts that are rewritten in front of the parser. *)
From Verif Require Import Query Print Spec SpecLexical SpecRewrite SpecSystem SpecWhite SpecSpelling SpecBehind RewriteNot RewriteSound WhiteProofs SysProofs Properties3 Properties13 Properties16.

(** A text of the intended form, without '$' and with matching parentheses. *)
Definition behind_conditions (input pre l g r tl : text) : Prop :=
  last_geometry input pre l g r tl /\ ~ In "$"%char (l ++ g ++ r) /\ shallow (peak 0 (l ++ g)) /\ balanced l /\ well_closed g.

Lemma is_moved input pre l g r tl : behind_conditions input pre l g r tl -> preprocess input = inr (moved pre l g r).
Proof. intros (G & D & S & B & W). exact (proj2 (C19_intended_form_partial _ _ _ _ _ _ G D S) B W). Qed.

(** White space outside of the words AND that the rewriting replaces: same answer of the constructor. *)
Theorem C37_rewritten_partial :
  forall tm i j pre l g r tl pre' l' g' r' tl', behind_conditions i pre l g r tl -> behind_conditions j pre' l' g' r' tl' ->
    spaced (moved pre l g r) (moved pre' l' g' r') -> same_answer (query tm i) (query tm j).
Proof. intros tm i j pre l g r tl pre' l' g' r' tl' I J S. unfold query. rewrite (is_moved _ _ _ _ _ _ I), (is_moved _ _ _ _ _ _ J). now apply parse_sim. Qed.
Print Assumptions C37_rewritten_partial.

(** Coordinate systems: same answer of the constructor. *)
Theorem C24_rewritten_partial :
  forall tm i j pre l g r tl pre' l' g' r' tl', behind_conditions i pre l g r tl -> behind_conditions j pre' l' g' r' tl' ->
    respelt false (moved pre l g r) (moved pre' l' g' r') -> like_answer (query tm i) (query tm j).
Proof. intros tm i j pre l g r tl pre' l' g' r' tl' I J S. unfold query. rewrite (is_moved _ _ _ _ _ _ I), (is_moved _ _ _ _ _ _ J). now apply parse_like. Qed.
Print Assumptions C24_rewritten_partial.

Local Definition pre : text := L "SELECT * FROM t ".
Local Definition l : text := L "a = b".
Local Definition i : text := L "SELECT * FROM t WHERE a = b AND CONTAINS(point('icrs',c,d),q)".
Local Definition j : text := L "SELECT * FROM t WHERE a = b AND CONTAINS(point(c,d),q)".
Local Definition k : text := L "SELECT * FROM t where a  =   b and   CONTAINS(point(c,d),q)  ".
Local Definition gi : text := L "CONTAINS(point('icrs',c,d),q)".
Local Definition gj : text := L "CONTAINS(point(c,d),q)".
Lemma one_case (w m lk gw d tl g t : text) : t = pre ++ w ++ lk ++ m ++ g ++ tl -> g = gw ++ d ->
  spelt "WHERE " w -> and_between m -> starts_dark lk -> ends_dark lk -> (2 < length lk)%nat -> oneline (lk ++ m ++ g ++ tl) ->
  geometry_word gw -> ends_dark g -> find_nc (L "AND") d = false -> find_nc (L "HAVING") d = false -> find_nc (L "GROUP") d = false -> find_nc (L "ORDER") d = false ->
  find_nc (L "CONTAINS") (d ++ tl) = false -> find_nc (L "INTERSECTS") (d ++ tl) = false -> blank tl ->
  ~ In "$"%char (lk ++ g) -> shallow (peak 0 (lk ++ g)) -> balanced lk -> well_closed g ->
  behind_conditions t pre lk g [] tl.
Proof.
  intros E Eg W M S1 S2 N O G Gd A1 A2 A3 A4 C1 C2 T D P B WC. split.
  - apply (last_geometry_intro _ _ _ _ _ _ w m [] [] gw d); try assumption; try (apply find_nc_false; assumption).
    + apply find_nc_false. reflexivity.
    + constructor.
    + now left.
    + now left.
  - rewrite app_nil_r. tauto.
Qed.
Ltac dark_at c := exists c; eexists; split; [reflexivity|discriminate].
Example C24_rewritten_case : behind_conditions i pre l gi [] [] /\ behind_conditions j pre l gj [] [] /\
  respelt false (moved pre l gi []) (moved pre l gj []) /\ exists q, query default_mapping i = Q_ok q.
Proof.
  split; [|split; [|split]].
  - apply (one_case (L "WHERE ") (L " AND ") l (L "CONTAINS") (L "(point('icrs',c,d),q)") []); try reflexivity.
    + exists [" "%char], (L "AND"), [" "%char]. repeat split; repeat constructor.
    + dark_at "a"%char.
    + exists (L "a = "), "b"%char. split; [reflexivity|discriminate].
    + cbn. lia.
    + repeat constructor; discriminate.
    + now left.
    + exists (L "CONTAINS(point('icrs',c,d),q"), ")"%char. split; [reflexivity|discriminate].
    + constructor.
    + cbn. intuition discriminate.
    + discriminate.
  - apply (one_case (L "WHERE ") (L " AND ") l (L "CONTAINS") (L "(point(c,d),q)") []); try reflexivity.
    + exists [" "%char], (L "AND"), [" "%char]. repeat split; repeat constructor.
    + dark_at "a"%char.
    + exists (L "a = "), "b"%char. split; [reflexivity|discriminate].
    + cbn. lia.
    + repeat constructor; discriminate.
    + now left.
    + exists (L "CONTAINS(point(c,d),q"), ")"%char. split; [reflexivity|discriminate].
    + constructor.
    + cbn. intuition discriminate.
    + discriminate.
  - change (moved pre l gi []) with (L "SELECT * FROM t WHERE CONTAINS(" ++ L "point" ++ [] ++ L "(" ++ ([] ++ (L "'" ++ L "icrs" ++ [] ++ [] ++ L "'") ++ [] ++ L ",") ++ L "c,d),q) AND a = b").
    change (moved pre l gj []) with (L "SELECT * FROM t WHERE CONTAINS(" ++ L "point" ++ [] ++ L "(" ++ [] ++ L "c,d),q) AND a = b").
    apply rs_chars; [vm_compute; reflexivity|]. apply (rs_shape _ _ _ _ ICRS).
    + cbn. auto.
    + constructor.
    + apply system_given; [constructor|constructor|constructor|left; reflexivity|now right].
    + now left.
    + now apply not_quote.
    + now apply not_quote.
    + constructor.
  - eexists. vm_compute. reflexivity.
Qed.
Example C37_rewritten_case : behind_conditions j pre l gj [] [] /\ behind_conditions k pre (L "a  =   b") gj [] (L "  ") /\
  spaced (moved pre l gj []) (moved pre (L "a  =   b") gj []).
Proof.
  split; [exact (proj1 (proj2 C24_rewritten_case))|]. split.
  - apply (one_case (L "where ") (L " and   ") (L "a  =   b") (L "CONTAINS") (L "(point(c,d),q)") (L "  ")); try reflexivity.
    + exists [" "%char], (L "and"), (L "   "). repeat split; repeat constructor.
    + dark_at "a"%char.
    + exists (L "a  =   "), "b"%char. split; [reflexivity|discriminate].
    + cbn. lia.
    + repeat constructor; discriminate.
    + now left.
    + exists (L "CONTAINS(point(c,d),q"), ")"%char. split; [reflexivity|discriminate].
    + repeat constructor.
    + cbn. intuition discriminate.
    + discriminate.
  - apply (spacedb_sound 80). vm_compute. reflexivity.
Qed.
