(** C110: which cell last updated a variable. *)
Require Import List ZArith Bool Arith Lia.
Import ListNotations.
Require Import Verif.Base Verif.SessionModel Verif.SessionSpec Verif.WhereModel Verif.WhereSpec Verif.WhereProofs.

(** A variable that was assigned in the run of a cell, and not set since, is said to be updated by that cell, under
    the id by which the cell is known now; telling the kernel about it again changes nothing.
    Missing: sessions in which the counter is moved back, [C110_refuted]. *)
Theorem C110_assigned_partial : forall a i f p b x o h t r,
  Forall not_run b -> Forall (quiet x) h ->
  hist restricted (a ++ Event (EExec i f p) :: b ++ Assign x o :: h) t r ->
  last_updated t x = Some (known_as (b ++ h) i) /\ upsert t x = (t, false).
Proof.
  intros a i f p b x o h t r N Q H. rewrite app_comm_cons, app_assoc in H.
  destruct (after_quiet _ _ _ _ Q _ _ H) as (G & S & C). split.
  - eapply named; eauto.
  - eapply upsert_same; eauto.
Qed.
Print Assumptions C110_assigned_partial.

(** A history, step by step. *)
Ltac hs := lazymatch goal with
  | |- hist _ [] _ _ => apply W_init
  | |- hist _ (_ ++ [Event _]) _ _ =>
      eapply W_event;
        [hs
        |simpl; first [reflexivity | split; first [reflexivity | discriminate]
                      | split; [discriminate | reflexivity] ]
        |simpl; first [exact I | intros ? [=] | split; [vm_compute; intuition discriminate | auto] ]
        |vm_compute; reflexivity]
  | |- hist _ (_ ++ [_]) _ _ => eapply W_other; [hs | discriminate | vm_compute; reflexivity]
  end.
Ltac history := match goal with |- hist ?ok ?l ?t ?r =>
  change (hist ok (fold_left (fun a x => a ++ [x]) l []) t r); cbn [fold_left]; hs end.

(** Cell 3 assigns variable 9, is renamed to 5, and other cells run. *)
Example C110_assigned_case :
  Forall (quiet 9) [Event (EFinish []); Event (EExec 4 None false); Assign 8 1; Event (EFinish []); Upsert 9;
    Event (ERename true true 3 5); Event (EExec 5 None false); Event (EFinish [])] /\
  exists t, hist restricted
    ([Event (EExec 4 None false); Event (EFinish [])] ++ Event (EExec 3 None false) :: [Put 7 2] ++ Assign 9 2 ::
      [Event (EFinish []); Event (EExec 4 None false); Assign 8 1; Event (EFinish []); Upsert 9;
       Event (ERename true true 3 5); Event (EExec 5 None false); Event (EFinish [])]) t None /\
    last_updated t 9 = Some 5.
Proof.
  split; [repeat constructor; simpl; lia|]. eexists. split; [cbn [app]; history|]. vm_compute. reflexivity.
Qed.

(** A variable that is set behind the back of the kernel stays attributed to the cell that assigned it ... *)
Theorem C110_unseen_partial : forall a i f p b x o h t r,
  Forall not_run b -> Forall (unseen x) h ->
  hist restricted (a ++ Event (EExec i f p) :: b ++ Assign x o :: h) t r ->
  last_updated t x = Some (known_as (b ++ h) i).
Proof.
  intros a i f p b x o h t r N Q H. rewrite app_comm_cons, app_assoc in H.
  destruct (after_unseen _ _ _ _ Q _ _ H) as (S & C). eapply named; eauto.
Qed.
Print Assumptions C110_unseen_partial.

(** ... until the kernel is told: this is accepted if the object is another one, and only then ... *)
Theorem C110_told_partial : forall l x o h o' t r,
  Forall (quiet x) h -> hist restricted (l ++ Assign x o :: h ++ [Put x o']) t r ->
  (snd (upsert t x) = true <-> o' <> o).
Proof.
  intros l x o h o' t r Q H. rewrite app_comm_cons, app_assoc in H.
  destruct (snoc_does _ _ _ _ _ H) as (t0 & r0 & H0 & D). destruct (after_quiet _ _ _ _ Q _ _ H0) as (G & S & C).
  simpl in D. injection D as <-. unfold upsert. simpl. rewrite dget_dset_same, S.
  destruct (Nat.eqb_spec o o') as [->|E]; simpl; split; congruence.
Qed.
Print Assumptions C110_told_partial.

(** ... and then the variable is attributed to the cell that was run last. *)
Theorem C110_upsert_partial : forall a i f p b x t r t',
  Forall not_run b -> hist restricted (a ++ Event (EExec i f p) :: b) t r ->
  upsert t x = (t', true) -> last_updated t' x = Some (known_as b i).
Proof.
  intros a i f p b x t r t' N H U.
  assert (H' : hist restricted ((a ++ Event (EExec i f p) :: b) ++ [Upsert x]) t' r).
  { eapply W_other; eauto; [discriminate|]. simpl. rewrite U. auto. }
  destruct (counter_now _ _ _ H) as [C P].
  assert (S : exists o, dget (syms t') x = Some (o, now t)).
  { unfold upsert in U. destruct (dget (globals t) x) as [o|]; [|discriminate]. exists o.
    destruct (dget (syms t) x) as [[o' k]|].
    - destruct (Nat.eqb o' o); [discriminate|]. injection U as <-. simpl. apply dget_dset_same.
    - injection U as <-. simpl. apply dget_dset_same. }
  destruct S as [o S]. eapply answer; eauto; [lia|]. rewrite C.
  change (known_as b i) with (known_as [Upsert x] (known_as b i)). apply log_keeps. apply (log_last a i f p b N).
Qed.
Print Assumptions C110_upsert_partial.

(** Variable 9 is assigned by cell 3, then set to another object after a run of cell 4. *)
Definition set_later : list op :=
  [Event (EExec 3 None false); Assign 9 2; Event (EFinish []); Event (EExec 4 None false); Event (EFinish []); Put 9 6].
Example C110_told_case : exists t t', hist restricted set_later t None /\ last_updated t 9 = Some 3 /\
  upsert t 9 = (t', true) /\ last_updated t' 9 = Some 4.
Proof.
  eexists. eexists. split; [unfold set_later; history|]. split; [vm_compute; reflexivity|].
  split; vm_compute; reflexivity.
Qed.

(** Nothing is said about a variable that was never assigned, or was deleted, and that the kernel was not told
    about since, in any session. *)
Theorem C110_unknown : forall l h x t r,
  (l = [] \/ exists l', l = l' ++ [Del x]) -> Forall (unknown x) h ->
  hist (fun _ _ _ => True) (l ++ h) t r -> last_updated t x = None.
Proof.
  intros l h x t r L Q H. unfold last_updated. rewrite (unknown_sym _ _ _ _ L Q _ _ H). auto.
Qed.
Print Assumptions C110_unknown.
Example C110_unknown_case : exists t,
  hist (fun _ _ _ => True) ((set_later ++ [Del 9]) ++ [Put 9 1; Event (EExec 3 None false); Assign 8 1]) t (Some 3).
Proof. eexists. unfold set_later. cbn [app]. history. Qed.

(** When such a variable is set, telling the kernel about it is accepted. *)
Theorem C110_new : forall l h x o t r,
  (l = [] \/ exists l', l = l' ++ [Del x]) -> Forall (unknown x) h ->
  hist (fun _ _ _ => True) ((l ++ h) ++ [Put x o]) t r -> snd (upsert t x) = true.
Proof.
  intros l h x o t r L Q H. destruct (snoc_does _ _ _ _ _ H) as (t0 & r0 & H0 & D). simpl in D. injection D as <-.
  unfold upsert. simpl. rewrite dget_dset_same, (unknown_sym _ _ _ _ L Q _ _ H0). auto.
Qed.
Print Assumptions C110_new.
Example C110_new_case : exists t, hist (fun _ _ _ => True) (([] ++ [Event (EExec 3 None false); Assign 8 1]) ++ [Put 9 1])
  t (Some 3) /\ exists t', upsert t 9 = (t', true) /\ last_updated t' 9 = Some 3.
Proof. eexists. split; [cbn [app]; history|]. eexists. split; vm_compute; reflexivity. Qed.

(** A variable that does not exist, because it was never set or is deleted, is refused. *)
Theorem C110_gone : forall l h x t r,
  (l = [] \/ exists l', l = l' ++ [Del x]) -> Forall (unset x) h ->
  hist (fun _ _ _ => True) (l ++ h) t r -> upsert t x = (t, false).
Proof.
  intros l h x t r L Q H. unfold upsert. rewrite (unset_global _ _ _ _ L Q _ _ H). auto.
Qed.
Print Assumptions C110_gone.
Example C110_gone_case : Forall (unset 9) [Upsert 9; Event (EExec 3 None false); Put 8 1] /\
  exists t, hist (fun _ _ _ => True) ((set_later ++ [Del 9]) ++ [Upsert 9; Event (EExec 3 None false); Put 8 1]) t (Some 3).
Proof. split; [repeat constructor; simpl; lia|]. eexists. unfold set_later. cbn [app]. history. Qed.

(** Before any cell was run, no cell is named, even if the kernel was told about the variable. *)
Theorem C110_no_run_partial : forall l t r x,
  Forall not_run l -> hist restricted l t r -> last_updated t x = None.
Proof. exact no_run_answer. Qed.
Print Assumptions C110_no_run_partial.
Example C110_no_run_case : Forall not_run [Event (EUntracked 3); Put 9 1; Upsert 9] /\
  exists t, hist restricted [Event (EUntracked 3); Put 9 1; Upsert 9] t None /\ dget (syms t) 9 = Some (1, 0%Z).
Proof. split; [repeat constructor; discriminate|]. eexists. split; [history|]. reflexivity. Qed.

(** The counter is moved back to that of an earlier run, and a variable of that run is attributed to the cell that is
    run now, which did not touch it. *)
Theorem C110_refuted : exists t, hist (fun _ _ _ => True)
  ([] ++ Event (EExec 3 None false) :: [] ++ Assign 9 2 ::
    [Event (EFinish []); Event (EExec 4 (Some 1%Z) false); Event (EFinish [])]) t None /\
  last_updated t 9 = Some 4.
Proof. eexists. split; [cbn [app]; history|]. vm_compute. reflexivity. Qed.
Print Assumptions C110_refuted.
