(** C29: the symbols for the elements of a list follow the elements. *)
Require Import List ZArith Bool Arith Lia.
Import ListNotations.
Require Import Verif.Base Verif.ElemModel Verif.ElemSpec Verif.ElemProofs.
Local Open Scope Z_scope.

(** C29, for the positions that are understood and without [pop()]: whatever is done to the list, one
    call in a statement, each symbol describes the element at its position afterwards.
    Missing: [pop()], positions that count from the end (except -1), [insert] beyond the end, starred
    arguments, several calls in a statement other than those of [C29_appends_partial]. All of them are
    refuted below. *)
Theorem C29_mirrors_partial : forall eqb os t,
  mirrors t -> all_inside eqb os (t_list t) -> Forall no_bare_pop os -> mirrors (steps eqb os t).
Proof. intros eqb os t. apply steps_mirrors. Qed.
Print Assumptions C29_mirrors_partial.

(** If each element has a symbol that describes it, this stays so, even with [pop()]. *)
Theorem C29_covers_partial : forall eqb os t,
  natural t -> covers t -> all_inside eqb os (t_list t) -> natural (steps eqb os t) /\ covers (steps eqb os t).
Proof. intros eqb os t. apply steps_covers. Qed.
Print Assumptions C29_covers_partial.

(** An element takes its symbol along. *)
Theorem C29_follows : forall eqb t o l' i y j,
  mirrors t -> inside (t_list t) o -> exec eqb o (t_list t) = Some l' ->
  zget (t_syms t) i = Some y -> goes eqb o (t_list t) i = Some j ->
  zget (t_syms (step eqb t o)) j = Some y.
Proof. exact step_follows. Qed.
Print Assumptions C29_follows.

(** Several calls in a statement that only add at the end, as in [x.append(f(x.append(1)))]: in whatever order
    the arguments are evaluated, the symbols are right, and each element has one if each had one.
    Missing: statements in which another call is made on the list. *)
Theorem C29_appends_partial : forall eqb t cs t',
  Forall (fun c => adds (snd c)) cs -> run_stmt eqb t cs = Some t' -> mirrors t ->
  mirrors t' /\ (covers t -> covers t').
Proof. exact run_stmt_adds. Qed.
Print Assumptions C29_appends_partial.

(** A call that raises changes nothing. *)
Theorem C29_raises : forall eqb t o, exec eqb o (t_list t) = None -> step eqb t o = t.
Proof. exact step_raises. Qed.
Print Assumptions C29_raises.

(** The list itself is the one that Python computes. *)
Theorem C29_list : forall eqb t o,
  t_list (step eqb t o) = match exec eqb o (t_list t) with Some l => l | None => t_list t end.
Proof. exact exec_list. Qed.
Print Assumptions C29_list.

(** [x = [7, 8, 9]] with a symbol for each element. *)
Definition full : st := mkSt [7; 8; 9]%nat [(0, mkSym 0 7); (1, mkSym 1 8); (2, mkSym 2 9)] 3.
(** The same with a symbol for the last one only. *)
Definition last_only : st := mkSt [7; 8; 9]%nat [(2, mkSym 0 9)] 1.

Example full_mirrors : mirrors full.
Proof.
  intros i y. unfold full. simpl.
  destruct (Z.eqb_spec i 0) as [->|]; [|destruct (Z.eqb_spec i 1) as [->|]; [|destruct (Z.eqb_spec i 2) as [->|]]];
    intros E; try discriminate; injection E as <-; split; auto; lia.
Qed.
Example full_covers : covers full.
Proof.
  intros i o. unfold full. destruct i as [|[|[|i]]]; simpl; intros E; try (destruct i; discriminate);
    injection E as <-; eexists; split; reflexivity.
Qed.
Example last_only_mirrors : mirrors last_only.
Proof.
  intros i y. unfold last_only. simpl. destruct (Z.eqb_spec i 2) as [->|]; intros E; try discriminate.
  injection E as <-. split; auto; lia.
Qed.

Example C29_case :
  let os := [Append 5; Insert 1 6 true; Remove 8; Pop (Some 0); Del (-1); Extend [3%nat; 4%nat]; Del 0] in
  mirrors full /\ covers full /\ all_inside Nat.eqb os (t_list full) /\ Forall no_bare_pop os /\
  t_list (steps Nat.eqb os full) = [9; 3; 4]%nat /\
  map (zget (t_syms (steps Nat.eqb os full))) [0; 1; 2; 3] =
    [Some (mkSym 2 9); Some (mkSym 5 3); Some (mkSym 6 4); None].
Proof.
  cbv zeta. split; [apply full_mirrors|]. split; [apply full_covers|]. split.
  { cbn. repeat split; auto; lia. }
  split; [repeat constructor; discriminate|]. split; reflexivity.
Qed.

(** [x.append((x.append(1), x.extend([2, 3]))[0])] *)
Example C29_appends_case :
  let cs := [(0%nat, Append 1%nat); (1%nat, Extend [2%nat; 3%nat]); (0%nat, Append 4%nat)] in
  Forall (fun c => adds (snd c)) cs /\ mirrors full /\ covers full /\
  exists t', run_stmt Nat.eqb full cs = Some t' /\ t_list t' = [7; 8; 9; 1; 2; 3; 4]%nat /\
    map (fun i => option_map s_obj (zget (t_syms t') i)) [2; 3; 5; 6; 7] = [Some 9; Some 1; Some 3; Some 4; None]%nat.
Proof.
  cbv zeta. split; [repeat constructor|]. split; [apply full_mirrors|]. split; [apply full_covers|].
  eexists. split; [reflexivity|]. split; reflexivity.
Qed.

Example C29_follows_case :
  inside (t_list full) (Insert 1 6 true) /\ exec Nat.eqb (Insert 1 6 true) (t_list full) = Some [7; 6; 8; 9]%nat /\
  goes Nat.eqb (Insert 1 6 true) (t_list full) 2 = Some 3 /\
  zget (t_syms (step Nat.eqb full (Insert 1 6 true))) 3 = zget (t_syms full) 2.
Proof. split; [simpl; split; [unfold len; simpl; lia|auto]|]. repeat split. Qed.

(** [x.pop()] always leaves the symbol of the last element behind. *)
Theorem C29_bare_pop_refuted : forall eqb t l' y,
  exec eqb (Pop None) (t_list t) = Some l' -> zget (t_syms t) (len (t_list t) - 1) = Some y ->
  ~ mirrors (step eqb t (Pop None)).
Proof.
  intros eqb t l' y E G M. unfold mirrors, step, run_stmt, run_calls in M. rewrite E in M. simpl in M.
  cbn [exec] in E. apply cut_at_Some in E. change (-1 <? 0) with true in E. cbv iota zeta in E. destruct E as [R ->].
  destruct (M _ _ G) as [_ N].
  pose proof (len_cut (t_list t) (Z.to_nat (-1 + len (t_list t))) ltac:(unfold len in *; lia)) as L.
  assert (nth_error (cut (t_list t) (Z.to_nat (-1 + len (t_list t)))) (Z.to_nat (len (t_list t) - 1)) <> None) by congruence.
  apply nth_error_Some in H. unfold len in *. lia.
Qed.
Print Assumptions C29_bare_pop_refuted.

(** It may describe another element later: [x.pop(); x.insert(0, 6)], here the symbol of 9 is found
    for the element 8. *)
Theorem C29_stale_symbol_refuted : exists t os i y, mirrors t /\ all_inside Nat.eqb os (t_list t) /\
  zget (t_syms (steps Nat.eqb os t)) i = Some y /\
  nth_error (t_list (steps Nat.eqb os t)) (Z.to_nat i) = Some 8%nat /\ s_obj y = 9%nat.
Proof.
  exists last_only, [Pop None; Insert 0 6%nat true], 2, (mkSym 0 9%nat). split; [apply last_only_mirrors|].
  split; [cbn; unfold len; simpl; repeat split; auto; lia|]. repeat split.
Qed.
Print Assumptions C29_stale_symbol_refuted.

(** Wrong after one call: an element is described as another one. *)
Definition confused (t : st) : Prop := exists i y o, zget (t_syms t) i = Some y /\
  nth_error (t_list t) (Z.to_nat i) = Some o /\ s_obj y <> o.

(** [x.insert(-1, 6)] *)
Theorem C29_insert_negative_refuted : confused (step Nat.eqb full (Insert (-1) 6 true)).
Proof. exists 2, (mkSym 1 8%nat), 6%nat. split; [reflexivity|]. split; [reflexivity|]. discriminate. Qed.
Print Assumptions C29_insert_negative_refuted.
(** [x.pop(-2)] and [del x[-2]] *)
Theorem C29_pop_negative_refuted :
  confused (step Nat.eqb full (Pop (Some (-2)))) /\ confused (step Nat.eqb full (Del (-2))).
Proof.
  split; exists 0, (mkSym 1 8%nat), 7%nat; (split; [reflexivity|]); (split; [reflexivity|]); discriminate.
Qed.
Print Assumptions C29_pop_negative_refuted.
(** [x.insert(5, 6)]: the new element has no symbol. *)
Theorem C29_insert_beyond_refuted : covers full /\ ~ covers (step Nat.eqb full (Insert 5 6 true)).
Proof.
  split; [apply full_covers|]. intros C. destruct (C 3%nat 6%nat) as (y & Y & _); [reflexivity|]. discriminate Y.
Qed.
Print Assumptions C29_insert_beyond_refuted.
(** [x.insert( *args)]: nothing is moved. *)
Theorem C29_insert_starred_refuted : confused (step Nat.eqb full (Insert 0 6 false)).
Proof. exists 0, (mkSym 0 7%nat), 6%nat. split; [reflexivity|]. split; [reflexivity|]. discriminate. Qed.
Print Assumptions C29_insert_starred_refuted.
(** Two calls in a statement: [x.insert(0, 6), x.insert(0, 5)], although both are handled. *)
Theorem C29_two_calls_refuted : exists t',
  run_stmt Nat.eqb full [(0%nat, Insert 0 6 true); (1%nat, Insert 0 5 true)] = Some t' /\ confused t'.
Proof.
  eexists. split; [reflexivity|]. exists 1, (mkSym 3 5%nat), 6%nat. split; [reflexivity|].
  split; [reflexivity|]. discriminate.
Qed.
Print Assumptions C29_two_calls_refuted.
(** [x.append(f(x.pop(0)))]: the length is taken before the arguments are evaluated. *)
Theorem C29_nested_call_refuted : exists t',
  run_stmt Nat.eqb full [(0%nat, Pop (Some 0)); (0%nat, Append 5)] = Some t' /\ covers full /\ ~ covers t'.
Proof.
  eexists. split; [reflexivity|]. split; [apply full_covers|].
  intros C. destruct (C 2%nat 5%nat) as (y & Y & _); [reflexivity|]. discriminate Y.
Qed.
Print Assumptions C29_nested_call_refuted.
