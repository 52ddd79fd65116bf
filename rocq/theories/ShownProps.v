(** Properties C91 and C92. *)
From Coq Require Import List Arith Bool String Lia.
From Verif Require Import Base ShownModel ShownSpec ShownProofs.
Import ListNotations.
Local Open Scope string_scope.
Local Open Scope nat_scope.
Local Open Scope list_scope.

(** ** C91: what is shown of a traceback *)

(** For every traceback: showing it does not fail; what is shown starts with its first frame and goes on
    with those of the others that are not hidden, in their order; no other traceback object is changed,
    and no object gets another frame. In the mode for developers nothing is changed. *)
Theorem C91_shown : forall k dev h tb l, chain h tb l ->
  exists h', showtraceback k dev h tb = Ok h' /\
    chain h' tb (if dev then l else visible k l) /\
    (forall x, ~ In x (map fst l) -> dget h' x = dget h x) /\
    (forall x f, In (x, f) l -> exists n, dget h' x = Some (f, n)).
Proof.
  intros k [|] h tb l C; cbn [showtraceback].
  - exists h. refine (conj eq_refl (conj C (conj (fun _ _ => eq_refl) _))).
    induction C as [|r f next l D C IH]; intros x g; [intros []|]. intros [[= <- <-]|I]; eauto.
  - exact (filter_spec k h tb l C).
Qed.
Print Assumptions C91_shown.

(** Showing it once more shows the same. *)
Theorem C91_again : forall k h tb l h1, chain h tb l -> showtraceback k false h tb = Ok h1 ->
  exists h2, showtraceback k false h1 tb = Ok h2 /\ chain h1 tb (visible k l) /\ chain h2 tb (visible k l).
Proof.
  intros k h tb l h1 C E. destruct (C91_shown k false h tb l C) as (h' & E' & C' & _).
  assert (h' = h1) by congruence. subst h'.
  destruct (C91_shown k false h1 tb _ C') as (h2 & E2 & C2 & _). exists h2.
  rewrite visible_idem in C2. auto.
Qed.
Print Assumptions C91_again.

(** No frame of a file is hidden whose path does not begin like those of the sandbox and does not
    contain "pyccolo", unless its function has one of three names or it sets the variable. *)
Theorem C91_partial : forall k f,
  flagged f = false -> (forall b, file f <> sandbox k ++ b)%string ->
  name f <> lambda k -> name f <> "_patched_eval"%string -> name f <> "_patched_tracer_eval"%string ->
  (forall a b, file f <> a ++ "pyccolo" ++ b)%string ->
  hidden k f = false.
Proof.
  intros k f F S N1 N2 N3 P. unfold hidden. rewrite F. cbn [orb].
  apply String.eqb_neq in N1, N2, N3. rewrite N1, N2, N3. cbn [orb].
  apply orb_false_iff. split; [apply orb_false_iff; split; [|reflexivity]|].
  - apply not_true_iff_false. intros Q.
    assert (O : exists b, file f = (sandbox k ++ b)%string).
    { clear - Q. revert Q. generalize (sandbox k) (file f). intros p. induction p as [|c p IH]; intros s Q; [exists s; reflexivity|].
      destruct s as [|d s]; cbn in Q; [discriminate|]. destruct (Ascii.ascii_dec c d) as [->|]; [|discriminate].
      destruct (IH s Q) as (b & ->). exists b. reflexivity. }
    destruct O as (b & O). apply (S b O).
  - apply not_true_iff_false. rewrite occurs_spec. intros (a & b & E). exact (P a b E).
Qed.
Print Assumptions C91_partial.

Definition pyc := mkNames "<sandbox" "<traced_lambda>".
Definition user (n : string) := mkFrame "/home/me/work.py" n false.
Definition tb5 : tbs :=
  [(10, (mkFrame "/lib/IPython/core.py" "run_code" false, Some 11));
   (11, (user "<module>", Some 12));
   (12, (mkFrame "/lib/pyccolo/tracer.py" "_emit" false, Some 13));
   (13, (mkFrame "<sandbox 1>" "f" false, Some 14));
   (14, (user "f", Some 15));
   (15, (user "<traced_lambda>", None))].

Example C91_ex :
  chain tb5 (Some 10) (map (fun x => (fst x, fst (snd x))) tb5) /\
  rmap (fun h => map (fun x => snd (snd x)) h) (showtraceback pyc false tb5 (Some 10)) =
    Ok [Some 11; Some 14; Some 13; Some 14; None; None] /\
  map fst (visible pyc (map (fun x => (fst x, fst (snd x))) tb5)) = [10; 11; 14] /\
  hidden pyc (user "f") = false.
Proof. split; [|vm_compute; repeat split]. repeat (econstructor; [reflexivity|]). constructor. Qed.

(** A user whose files are in a directory called "pyccolo-talk" sees none of the functions in them. *)
Theorem C91_refuted : exists h l h' f,
  chain h (Some 0) l /\ In (1, f) l /\ flagged f = false /\
  (forall b, file f <> sandbox pyc ++ b)%string /\ name f = "compute"%string /\
  showtraceback pyc false h (Some 0) = Ok h' /\ chain h' (Some 0) [(0, user "<module>")].
Proof.
  set (f := mkFrame "/home/me/pyccolo-talk/model.py" "compute" false).
  exists [(0, (user "<module>", Some 1)); (1, (f, None))], [(0, user "<module>"); (1, f)],
         [(0, (user "<module>", None)); (1, (f, None))], f.
  repeat split; try reflexivity.
  - repeat (econstructor; [reflexivity|]). constructor.
  - right. left. reflexivity.
  - intros b E. discriminate E.
  - repeat (econstructor; [reflexivity|]). constructor.
Qed.
Print Assumptions C91_refuted.

(** ** C92: which outputs are kept *)

(** In every history, a cell that was run keeps its own output or none. *)
Theorem C92_own : forall limit rs i r, nth_error rs i = Some r ->
  exists c, nth_error (runs limit rs) i = Some c /\ c_id c = r_id r /\
    (kept c = None \/ kept c = Some (r_out r)).
Proof. intros limit rs i r. apply runs_own. Qed.
Print Assumptions C92_own.

(** With dataflow enabled, and if everything in the outputs has a length: exactly those outputs are dropped
    that are longer than the limit and whose cell was run again. *)
Theorem C92_partial : forall limit rs i r c,
  Forall (fun r => r_on r = true /\ measurable (r_out r)) rs ->
  nth_error rs i = Some r -> nth_error (runs limit rs) i = Some c ->
  (kept c = None <-> superseded rs i r /\ limit < total (lengths (r_out r))).
Proof. intros limit rs i r c A. now apply runs_kept. Qed.
Print Assumptions C92_partial.

Definition o (n : nat) := mkOut [[Some n; Some 2]] 1 0 n.
Definition rs4 := [mkRun 1 (o 50) true; mkRun 2 (o 60) true; mkRun 1 (o 3) true; mkRun 1 (o 70) true].
Example C92_ex :
  Forall (fun r => r_on r = true /\ measurable (r_out r)) rs4 /\
  map kept (runs 10 rs4) = [None; Some (o 60); Some (o 3); Some (o 70)].
Proof.
  split; [|reflexivity].
  repeat (apply Forall_cons; [split; [reflexivity|unfold measurable; cbn; repeat (apply Forall_cons; [discriminate|]); apply Forall_nil]|]).
  apply Forall_nil.
Qed.

(** A run with dataflow disabled in between: the long output stays for ever. *)
Theorem C92_disabled_refuted : exists rs r c,
  nth_error rs 0 = Some r /\ nth_error (runs 10 rs) 0 = Some c /\
  superseded rs 0 r /\ measurable (r_out r) /\ 10 < total (lengths (r_out r)) /\ kept c = Some (r_out r).
Proof.
  exists [mkRun 1 (o 50) true; mkRun 1 (o 3) false; mkRun 1 (o 4) true; mkRun 1 (o 5) true].
  eexists. eexists. split; [reflexivity|]. split; [reflexivity|]. split.
  - exists 1. eexists. split; [lia|]. split; reflexivity.
  - split; [unfold measurable; cbn; repeat (apply Forall_cons; [discriminate|]); apply Forall_nil|].
    vm_compute. split; [lia|reflexivity].
Qed.
Print Assumptions C92_disabled_refuted.

(** A datum without length, such as a number: the next run of the cell does not get its output. *)
Theorem C92_refuted : exists rs r c,
  Forall (fun r => r_on r = true) rs /\ nth_error rs 1 = Some r /\ nth_error (runs 10 rs) 1 = Some c /\
  ~ superseded rs 1 r /\ kept c = None.
Proof.
  exists [mkRun 1 (mkOut [[None]] 0 0 7) true; mkRun 1 (o 5) true].
  eexists. eexists. split; [repeat (apply Forall_cons; [reflexivity|]); apply Forall_nil|].
  split; [reflexivity|]. split; [reflexivity|]. split; [|reflexivity].
  intros (j & r' & J & E & _). destruct j as [|[|j]]; [lia|lia|]. cbn in E. destruct j; discriminate.
Qed.
Print Assumptions C92_refuted.
