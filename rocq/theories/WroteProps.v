(** C102: what a cell is recorded to write. *)
From Coq Require Import List Arith Bool.
From Verif Require Import Base WroteModel WroteSpec WroteProofs.
Import ListNotations.

(** Symbols 1 and 2 are plain variables; 3 is a list (namespace 30) with the
    elements 31 and 32; 4 is an empty list (namespace 40); 5 is an object
    (namespace 50) with the attribute 51. *)
Definition w0 : world := mkW
  (fun s => match s with 3 => Some 30 | 4 => Some 40 | 5 => Some 50 | _ => None end)
  (fun s => match s with 31 | 32 => Some 30 | 51 => Some 50 | _ => None end)
  (fun n => match n with 30 => [31; 32] | 50 => [51] | _ => [] end).

Definition run0 : list event :=
  [Write w0 1 true; Done; Write w0 2 false; Write w0 2 true; Done;
   Write w0 3 true; Done; Write w0 1 false; Done; Write w0 1 true].

(** Nothing is recorded both as a static write and as a dynamic one. *)
Theorem C102_disjoint_partial : forall f es c y,
  run f empty es = Ok c -> In y (stat c) -> ~ In y (dyn c) /\ ~ In y (pending c).
Proof.
  intros f es c y R I. apply (apart_run f es empty c); [|exact R|exact I].
  intros z Z. destruct Z.
Qed.
Print Assumptions C102_disjoint_partial.

Example C102_disjoint_case : exists c, run 5 empty run0 = Ok c /\ In 2 (stat c) /\ In 1 (dyn c).
Proof. eexists. split; [reflexivity|]. cbn. auto. Qed.

(** Plain variables: one is recorded exactly when it was assigned; as a
    dynamic write exactly when in some statement its last assignment was not
    static, and otherwise as a static one. *)
Theorem C102_plain_partial : forall f es c y,
  run f empty (es ++ [Done]) = Ok c -> plain es y ->
  (recorded c y <-> written es y) /\
  (In y (dyn c) <-> moving y None es) /\
  (In y (stat c) <-> written es y /\ ~ moving y None es) /\
  pending c = [].
Proof.
  intros f es c y R PL.
  assert (N : @None bool <> None -> False) by (intros H; now apply H).
  destruct (way_run f y es empty c False None False N (or_intror (fun x => x)) PL (way_empty y) R) as (A & B & C).
  destruct (sound_run f _ _ _ y R) as (_ & S).
  assert (W : written (es ++ [Done]) y -> written es y).
  { intros (w & b & I). exists w, b. apply in_app_or in I as [I|[I|[]]]; [auto|discriminate]. }
  cbn in S. assert (DM : In y (dyn c) \/ ~ In y (dyn c)) by (destruct (in_dec Nat.eq_dec y (dyn c)); auto).
  unfold recorded. repeat split; try tauto.
Qed.
Print Assumptions C102_plain_partial.

Example C102_plain_case : exists c,
  run 5 empty (run0 ++ [Done]) = Ok c /\ plain run0 1 /\ plain run0 2 /\ In 1 (dyn c) /\ In 2 (stat c).
Proof.
  eexists. split; [reflexivity|]. cbn.
  assert (P : forall y, y = 1 \/ y = 2 -> plain run0 y).
  { intros y Y w s b I. cbn in I.
    repeat (destruct I as [I|I]; [try discriminate I; injection I as <- _ _; destruct Y as [ -> | -> ]; now cbn|]).
    destruct I. }
  auto 10.
Qed.

(** Nothing else is recorded: what is recorded was assigned, or is an element
    of what was assigned statically. *)
Theorem C102_sound_partial : forall f es c y,
  run f empty es = Ok c ->
  (In y (dyn c) -> written es y) /\
  (In y (stat c) -> written es y \/ element es y).
Proof.
  intros f es c y R. destruct (sound_run f es empty c y R) as (A & B). cbn in *. split.
  - intros H. destruct (B (or_introl H)) as [[]|[[]|W]]. exact W.
  - intros H. destruct (A H) as [[]|W]. exact W.
Qed.
Print Assumptions C102_sound_partial.

Example C102_sound_case : exists c, run 5 empty run0 = Ok c /\ In 31 (stat c) /\ ~ written run0 31.
Proof.
  eexists. split; [reflexivity|]. split; [cbn; auto|].
  intros (w & b & I). cbn in I. repeat (destruct I as [I|I]; [discriminate I|]). destruct I.
Qed.

(** Containers: a static assignment records the elements, unless they are
    recorded as dynamic writes already. *)
Theorem C102_elements_partial : forall f w s n c c' y,
  write f w s true c = Ok c' -> space w s = Some n ->
  In y (below w n) -> inside w y = Some n -> y <> s -> recorded c' y.
Proof.
  intros f w s n c c' y W SN B I NE. unfold write in W.
  destruct (gen f w s []) as [[l q]|] eqn:G; [|discriminate]. injection W as <-.
  pose proof (gen_direct f w s n l q SN G y B) as IL.
  change (fold_left (round w s true) l (round w s true c s)) with (fold_left (round w s true) (s :: l) c).
  unfold recorded. rewrite round_dyn.
  destruct (fold_static_in w s (s :: l) c y) as [H|[H|H]]; [now right|congruence|auto|auto|contradiction].
Qed.
Print Assumptions C102_elements_partial.

Example C102_elements_case : exists c', write 5 w0 3 true empty = Ok c' /\ recorded c' 32.
Proof. eexists. split; [reflexivity|]. left. cbn. auto. Qed.

(** Any other assignment of a container records the container, if it has an
    element of its own. *)
Theorem C102_container_partial : forall f w s n c c' y,
  write f w s false c = Ok c' -> space w s = Some n ->
  In y (below w n) -> inside w y = Some n -> recorded (done c') s.
Proof.
  intros f w s n c c' y W SN B I. unfold write in W.
  destruct (gen f w s []) as [[l q]|] eqn:G; [|discriminate]. injection W as <-.
  pose proof (gen_direct f w s n l q SN G y B) as IL.
  right. cbn. apply In_supd. right.
  apply (fold_dynamic_in w s (s :: l) c y); [now right|congruence].
Qed.
Print Assumptions C102_container_partial.

Example C102_container_case : exists c', write 5 w0 3 false empty = Ok c' /\ recorded (done c') 3.
Proof. eexists. split; [reflexivity|]. right. cbn. auto. Qed.

(** But nothing whatever is recorded for a container that nothing is inside
    of. *)
Theorem C102_nothing_partial : forall f w s n b c c',
  write f w s b c = Ok c' -> space w s = Some n ->
  (forall y, inside w y <> Some n) -> c' = c.
Proof.
  intros f w s n b c c' W SN N. unfold write in W.
  destruct (gen f w s []) as [[l q]|]; [|discriminate]. injection W as <-.
  apply (fold_none w s b (s :: l) c). intros y _. rewrite SN. apply N.
Qed.
Print Assumptions C102_nothing_partial.

Example C102_nothing_case : write 5 w0 4 true empty = Ok empty.
Proof. reflexivity. Qed.

(** And so neither [x = [1, 2]] nor [x = []] records that [x] is written,
    whatever the cell did before. *)
Theorem C102_refuted :
  (exists es c, run 5 empty (es ++ [Done]) = Ok c /\ In (Write w0 3 true) es /\ ~ recorded c 3 /\ recorded c 31) /\
  (exists es c, run 5 empty (es ++ [Done]) = Ok c /\ In (Write w0 4 true) es /\ forall y, ~ recorded c y).
Proof.
  split.
  - exists [Write w0 3 true]. eexists. split; [reflexivity|]. split; [now left|]. split.
    + intros [H|H]; cbn in H; [|exact H]. destruct H as [H|[H|[]]]; discriminate.
    + left. cbn. auto.
  - exists [Write w0 4 true]. eexists. split; [reflexivity|]. split; [now left|].
    intros y [H|H]; exact H.
Qed.
Print Assumptions C102_refuted.

(** And an assignment to an attribute or element with a plain value is never
    recorded, static or not. *)
Theorem C102_attribute_refuted : forall f w s n b c c',
  space w s = None -> inside w s = Some n -> write f w s b c = Ok c' -> c' = c.
Proof.
  intros f w s n b c c' SN I W. unfold write in W.
  destruct (gen f w s []) as [[l q]|] eqn:G; [|discriminate].
  apply (gen_none f w s [] SN) in G. injection G as -> _. injection W as <-.
  apply (fold_none w s b [s] c). intros y [ <- |[]]. congruence.
Qed.
Print Assumptions C102_attribute_refuted.

Example C102_attribute_case : write 5 w0 51 true empty = Ok empty.
Proof. reflexivity. Qed.
