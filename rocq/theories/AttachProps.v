(** C109: turning the capture of dataflow off and on. *)
Require Import List ZArith Bool Arith Lia.
Import ListNotations.
Require Import Verif.Base Verif.SessionModel Verif.SessionSpec Verif.SessionLog Verif.AttachModel Verif.AttachSpec
  Verif.AttachProofs.

(** While the debugger is attached, whatever is run, the dependencies of all cells are reported as they were before,
    and each request for a schedule is refused, except the one that the debugger makes itself when it is attached.
    Missing: a cell that contains [%flow on], [C109_flow_on_refuted]. *)
Theorem C109_attached_partial : forall t l t',
  session (ss t) None -> Forall debugging l -> acts (Attach :: l) t = Ok t' ->
  on t' = false /\ same_edges (ss t) (ss t') /\
  exists n, said t' = repeat Refused n ++ (if on t then Schedule else Refused) :: said t.
Proof. exact attached. Qed.
Print Assumptions C109_attached_partial.

(** Two cells, the second uses symbol 7 of the first. *)
Definition notebook : list action := [Run 0 []; Run 1 [Uses Dynamic 0 7]].

(** Under the debugger the second cell is run with another text, the first one again, and a new one. *)
Example C109_attached_case : exists t t', acts notebook start = Ok t /\ session (ss t) None /\
  lists_parent (ss t) Dynamic 1 0 7 /\
  Forall debugging [Run 1 []; Ask; Run 0 [Turn false]; Run 2 [Uses Dynamic 0 7]] /\
  acts (Attach :: [Run 1 []; Ask; Run 0 [Turn false]; Run 2 [Uses Dynamic 0 7]]) t = Ok t' /\
  said t' = [Refused; Schedule].
Proof.
  destruct (acts notebook start) as [t|] eqn:E; [|vm_compute in E; discriminate].
  destruct (acts (Attach :: [Run 1 []; Ask; Run 0 [Turn false]; Run 2 [Uses Dynamic 0 7]]) t) as [t'|] eqn:F.
  2:{ vm_compute in E. injection E as <-. vm_compute in F. discriminate. }
  exists t, t'. split; auto. split.
  { apply (whole_acts notebook start t); auto; [exists []; constructor|simpl; auto]. }
  vm_compute in E. injection E as <-. split.
  { exists 1. eexists. split; [split; vm_compute; reflexivity|]. eexists. split; [vm_compute; reflexivity|simpl; auto]. }
  split; [repeat constructor; simpl; intuition discriminate|]. split; auto.
  vm_compute in F. injection F as <-. reflexivity.
Qed.

(** A cell with [%flow on] turns the capture on although the debugger is attached; the next run is traced. *)
Theorem C109_flow_on_refuted : exists t t', acts notebook start = Ok t /\
  acts [Attach; Run 0 [Turn true]; Run 2 [Uses Dynamic 2 7]] t = Ok t' /\
  on t' = true /\ lists_parent (ss t') Dynamic 2 0 7 /\ ~ lists_parent (ss t) Dynamic 2 0 7.
Proof.
  eexists. eexists. split; [vm_compute; reflexivity|]. split; [vm_compute; reflexivity|]. split; [reflexivity|]. split.
  - exists 3. eexists. split; [split; vm_compute; reflexivity|]. eexists. split; [vm_compute; reflexivity|simpl; auto].
  - intros (u & v & [C _] & _). vm_compute in C. discriminate.
Qed.
Print Assumptions C109_flow_on_refuted.

(** After the debugger is gone the capture is as it was before, if it was on; whatever happened in between.
    Missing: when it was off, [C109_detached_refuted]. *)
Theorem C109_detached_partial : forall t l t',
  on t = true -> acts (Attach :: l ++ [Detach]) t = Ok t' -> on t' = on t /\ exists rest, said t' = Schedule :: rest.
Proof.
  intros t l t' O H. change (acts (Attach :: l ++ [Detach]) t) with (acts (l ++ [Detach]) (turn false (ask t))) in H.
  revert H. generalize (turn false (ask t)). rewrite O.
  induction l as [|a l IH]; intros t0 H; cbn [app acts rfold] in H.
  - injection H as <-. split; auto. eexists. reflexivity.
  - destruct (act t0 a) as [t1|]; [|discriminate]. exact (IH t1 H).
Qed.
Print Assumptions C109_detached_partial.
Example C109_detached_case : on start = true /\
  exists t', acts (Attach :: [Run 1 [Turn false]; Ask] ++ [Detach]) start = Ok t' /\ on t' = true.
Proof. split; auto. eexists. split; vm_compute; reflexivity. Qed.

(** If the user had turned the capture off, the debugger always turns it on. *)
Theorem C109_detached_refuted : forall t, on t = false ->
  exists t', acts [Attach; Detach] t = Ok t' /\ on t' <> on t.
Proof. intros t O. eexists. split; [reflexivity|]. simpl. rewrite O. discriminate. Qed.
Print Assumptions C109_detached_refuted.

(** However the capture is turned off and on, cells agree on their edges from both ends.
    Missing: a run that starts with the capture on and ends with it off, [C109_midway_refuted]. *)
Theorem C109_agree_partial : forall l t', whole_runs true l -> acts l start = Ok t' -> edges_agree (ss t').
Proof.
  intros l t' W H. apply agree. apply (whole_acts l start t'); auto. exists []. constructor.
Qed.
Print Assumptions C109_agree_partial.
Example C109_agree_case :
  let l := [Run 0 []; Run 1 [Uses Dynamic 0 7; Turn false; Turn true]; Attach; Run 1 []; Detach; Run 0 [];
            Run 1 [Uses Static 3 8]] in
  whole_runs true l /\ exists t', acts l start = Ok t' /\ lists_parent (ss t') Static 1 0 8 /\
    ~ lists_parent (ss t') Dynamic 1 0 7.
Proof.
  cbv zeta. split; [simpl; repeat split; auto; discriminate|]. eexists. split; [vm_compute; reflexivity|]. split.
  - exists 4. eexists. split; [split; vm_compute; reflexivity|]. eexists. split; [vm_compute; reflexivity|simpl; auto].
  - intros (u & v & [C D] & l & G & _). vm_compute in C. injection C as <-. vm_compute in D. injection D as <-.
    vm_compute in G. discriminate.
Qed.

(** A cell that is run again with [%flow off] in it, and no longer uses the first cell: the first cell still has
    it as a child. *)
Theorem C109_midway_refuted : exists t t', acts notebook start = Ok t /\ acts [Run 1 [Turn false]] t = Ok t' /\
  lists_child (ss t') Dynamic 0 1 7 /\ ~ lists_parent (ss t') Dynamic 1 0 7.
Proof.
  eexists. eexists. split; [vm_compute; reflexivity|]. split; [vm_compute; reflexivity|]. split.
  - eexists. split; [vm_compute; reflexivity|simpl; auto].
  - intros (u & v & [C D] & l & G & _). vm_compute in C. injection C as <-. vm_compute in D. injection D as <-.
    vm_compute in G. discriminate.
Qed.
Print Assumptions C109_midway_refuted.
