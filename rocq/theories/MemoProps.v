(** C28, C49: reuse of memoized runs. *)
Require Import List ZArith Bool Arith Lia Permutation.
Import ListNotations.
Require Import Verif.Base Verif.TimestampModel Verif.MemoModel Verif.MemoSpec Verif.MemoProofs.
Local Open Scope nat_scope.

(** ** C28 *)

(** A reused run is an earlier one of the same text that did not raise, and every one of its
    inputs is unchanged. *)
Theorem C28_reuse_sound_partial : forall P runs t s m text ctr e,
  tables P runs t -> reuse P t s m text ctr = Ok (Some e) ->
  m = true /\
  exists r, In r runs /\ r_text r = text /\ r_err r = false /\ r_ctr r = ex_ctr e /\ r_ctr r < ctr /\
    forall x, input_of r x -> unchanged P (r_state r) s x.
Proof.
  intros P runs t s m text ctr e T R. unfold reuse in R. destruct m; [|discriminate].
  split; auto. apply find_run_Some in R. destruct R as (I & L & C).
  destruct (dget t text) as [d|] eqn:D; [|destruct I].
  destruct (tables_sound P runs t T text d e D I) as (r & Ir & Tx & Er & Ct & In0 & Out).
  exists r. split; [auto|]. split; [auto|]. split; [auto|]. split; [auto|]. split; [lia|].
  intros x (X & G & N). apply inputs_spec in In0; [|intros i []].
  destruct In0 as (I1 & _ & I3). destruct (I3 x X G N) as (i & Ii & <-).
  apply check_sound; [apply I1; auto|]. eapply check_all_true; eauto.
Qed.
Print Assumptions C28_reuse_sound_partial.

(** Values made of ints, texts and lists of such must be equal. *)
Theorem C28_equal_inputs : forall P runs t s m text ctr e,
  tables P runs t -> reuse P t s m text ctr = Ok (Some e) ->
  exists r, In r runs /\ r_text r = text /\ r_ctr r = ex_ctr e /\ r_ctr r < ctr /\
    forall x v0 v1 c, input_of r x ->
      comparable (p_cap P) (heap_of (r_state r)) (p_fuel P) (obj_of (r_state r) x) = Ok (Some c) ->
      denotes (heap_of (r_state r)) (obj_of (r_state r) x) v0 -> rigid v0 ->
      denotes (heap_of s) (obj_of s x) v1 -> rigid v1 -> v1 = v0.
Proof.
  intros P runs t s m text ctr e T R.
  destruct (C28_reuse_sound_partial _ _ _ _ _ _ _ _ T R) as (_ & r & A & B & _ & C & D & U).
  exists r. split; [auto|]. split; [auto|]. split; [auto|]. split; [auto|].
  intros x v0 v1 c X Cm D0 R0 D1 R1. specialize (U x X). unfold unchanged in U. rewrite Cm in U.
  assert (F : forall v, rigid v -> frozen v).
  { clear. induction v using val_ind'; inversion 1; subst; try constructor.
    rewrite Forall_forall in *. auto. }
  destruct (U v0 D0 (F v0 R0)) as [(w & Dw & S)|HA].
  - rewrite (denotes_fun _ _ _ _ D1 Dw). apply similar_rigid; auto.
    rewrite <- (denotes_fun _ _ _ _ D1 Dw). auto.
  - exfalso. eapply array_not_plain; eauto.
Qed.
Print Assumptions C28_equal_inputs.

(** If an earlier run of the same text was recorded and all its inputs are the same again, the
    search does not come back empty-handed. *)
Theorem C28_same_inputs_found : forall P runs t s text ctr r,
  tables P runs t -> In r runs -> r_text r = text -> r_err r = false -> r_ctr r < ctr ->
  (forall x, input_of r x -> (cell_num (ts_of (r_state r) x) < Z.of_nat (r_ctr r))%Z /\
     same_again P (r_state r) s x) ->
  reuse P t s true text ctr <> Ok None.
Proof.
  intros P runs t s text ctr r T I <- E L S. unfold reuse.
  assert (K : exists ins, inputs P (r_state r) (r_ctr r) (r_syms r) [] = Ok (Some ins)).
  { assert (H : forall syms acc, incl syms (r_syms r) ->
      exists ins, inputs P (r_state r) (r_ctr r) syms acc = Ok (Some ins)).
    { induction syms as [|x l IH]; simpl; intros acc IN; [eauto|].
      assert (IN' : incl l (r_syms r)) by (intros y Y; apply IN; now right).
      destruct (existsb _ acc); auto.
      destruct (Z.eqb_spec (cell_num (ts_of (r_state r) x)) (Z.of_nat (r_ctr r))); auto.
      destruct (global_of (r_state r) x) eqn:G; simpl; auto.
      destruct (S x) as [S1 S2]; [split; [apply IN; now left|auto]|].
      destruct (Z.ltb_spec (Z.of_nat (r_ctr r)) (cell_num (ts_of (r_state r) x))); [lia|].
      unfold same_again in S2.
      destruct (comparable (p_cap P) (heap_of (r_state r)) (p_fuel P) (obj_of (r_state r) x));
        [simpl; auto|destruct S2]. }
    apply H. apply incl_refl. }
  destruct K as (ins & K). destruct (tables_complete P runs t T r ins I E K) as (d & e & D & Ie & C & Q).
  rewrite D. intros N. destruct (find_run_None P s ctr (dvals d) N e Ie) as [H|H]; [lia|].
  revert H. apply check_all_same. rewrite Q. intros i Ii.
  apply inputs_spec in K; [|intros j []]. destruct K as (K1 & _ & _).
  destruct (K1 i Ii) as (K2 & K3 & K4 & [[]|K5]). apply (check_complete P (r_state r) s i K2).
  apply S. repeat split; auto.
Qed.
Print Assumptions C28_same_inputs_found.

(** A reuse puts back the objects of all global symbols which the earlier run updated, as
    updates of the current cell, and touches nothing else. *)
Theorem C28_outputs_restored : forall P runs t s m text ctr e,
  tables P runs t -> reuse P t s m text ctr = Ok (Some e) ->
  exists r, In r runs /\ r_text r = text /\ r_ctr r = ex_ctr e /\
    (forall x, In x (r_updated r) -> global_of (r_state r) x = true ->
       obj_of (restore s ctr e) x = obj_of (r_state r) x /\
       cell_num (ts_of (restore s ctr e) x) = Z.of_nat ctr /\
       stmt_num (ts_of (restore s ctr e) x) = stmt_num (r_shallow r x)) /\
    (forall x, ~ (In x (r_updated r) /\ global_of (r_state r) x = true) ->
       obj_of (restore s ctr e) x = obj_of s x /\ ts_of (restore s ctr e) x = ts_of s x) /\
    heap_of (restore s ctr e) = heap_of s.
Proof.
  intros P runs t s m text ctr e T R. unfold reuse in R. destruct m; [|discriminate].
  apply find_run_Some in R. destruct R as (I & L & C).
  destruct (dget t text) as [d|] eqn:D; [|destruct I].
  destruct (tables_sound P runs t T text d e D I) as (r & Ir & Tx & Er & Ct & In0 & Out).
  exists r. split; [auto|]. split; [auto|]. split; [auto|].
  unfold restore. rewrite Out.
  destruct (restore_spec (r_state r) (r_shallow r) ctr (r_updated r) s) as (A & B & H).
  split; [|split; [|exact H]].
  - intros x X G. rewrite A, B. apply memb_In in X. rewrite X, G. simpl. auto.
  - intros x N. rewrite A, B. destruct (memb x (r_updated r) && global_of (r_state r) x)%bool eqn:E; auto.
    apply andb_true_iff in E. destruct E as [E1 E2]. apply memb_In in E1. tauto.
Qed.
Print Assumptions C28_outputs_restored.

(** *** A case: [y = x] is run as cell 2 when [x] is [[1, "a"]] (cell 1), [x] is assigned an
    equal list by cell 3, and the cell is run again as cell 4. *)

Definition never (_ : heap) (_ _ : comp) : bool := false.
Definition P0 := mkP 100 20 never.

Definition h0 : heap := fun r =>
  match r with
  | 10 => OList [11; 12] | 11 => ONum KInt 1 | 12 => OStr 7
  | 20 => OList [21; 12] | 21 => ONum KInt 1
  | 30 => OList [31; 12] | 31 => ONum KInt 2
  | _ => OOther
  end.

(** Symbol 0 is [x], symbol 1 is [y]. *)
Definition at_time (h : heap) (ox oy : nat) (tx ty : Z) : state :=
  mkState h (fun x => match x with 0 => ox | _ => oy end)
    (fun x => match x with 0 => mkTs tx 0 | _ => mkTs ty 0 end)
    (fun _ _ => None) (fun _ => false) (fun _ => true).

Definition run2 := mkRun (at_time h0 10 10 1 2) false 5 2 [0] (fun _ => mkTs 2 0) [1].

Definition table_of (r : run) : table :=
  match memoize P0 [] (r_state r) (r_err r) (r_text r) (r_ctr r) (r_syms r) (r_shallow r) (r_updated r)
  with Ok t => t | Err _ => [] end.

Lemma table_of_one r t :
  memoize P0 [] (r_state r) (r_err r) (r_text r) (r_ctr r) (r_syms r) (r_shallow r) (r_updated r) = Ok t ->
  tables P0 [r] (table_of r).
Proof.
  intros E. unfold table_of. rewrite E. apply (Ta_run P0 [] [] r t); auto; [constructor|intros q []].
Qed.

Example memo_found : tables P0 [run2] (table_of run2) /\
  exists e, reuse P0 (table_of run2) (at_time h0 20 99 3 2) true 5 4 = Ok (Some e) /\
            obj_of (restore (at_time h0 20 99 3 2) 4 e) 1 = 10 /\
            reuse P0 (table_of run2) (at_time h0 30 99 3 2) true 5 4 = Ok None.
Proof.
  split; [eapply table_of_one; vm_compute; reflexivity|].
  eexists. split; [vm_compute; reflexivity|]. split; vm_compute; reflexivity.
Qed.

Example memo_input : input_of run2 0 /\
  denotes (heap_of (r_state run2)) (obj_of (r_state run2) 0) (VList [VNum KInt 1; VStr 7]) /\
  denotes h0 20 (VList [VNum KInt 1; VStr 7]) /\ rigid (VList [VNum KInt 1; VStr 7]) /\
  frozen (VList [VNum KInt 1; VStr 7]) /\
  (exists c, comparable 100 h0 20 10 = Ok (Some c)) /\
  same_again P0 (r_state run2) (at_time h0 20 99 3 2) 0.
Proof.
  assert (D : denotes h0 10 (VList [VNum KInt 1; VStr 7])).
  { eapply De_list; [reflexivity|]. constructor; [constructor; reflexivity|].
    constructor; [constructor; reflexivity|constructor]. }
  assert (D' : denotes h0 20 (VList [VNum KInt 1; VStr 7])).
  { eapply De_list; [reflexivity|]. constructor; [constructor; reflexivity|].
    constructor; [constructor; reflexivity|constructor]. }
  assert (F : frozen (VList [VNum KInt 1; VStr 7])) by (repeat constructor).
  split; [repeat split; simpl; auto; discriminate|]. split; [exact D|]. split; [exact D'|].
  split; [repeat constructor|]. split; [exact F|]. split; [eexists; vm_compute; reflexivity|].
  split; [exists (VList [VNum KInt 1; VStr 7]); auto|]. vm_compute. discriminate.
Qed.

(** *** Where reuse goes wrong *)

(** Run again after [x] was bound to an object of a different type. [reused h a b]: a run with
    [x] bound to [a] is reused when [x] is bound to [b], assigned in between. *)
Definition run_with (h : heap) (a : nat) : run :=
  mkRun (at_time h a 99 1 2) false 5 2 [0] (fun _ => mkTs 2 0) [1].
Definition reused (h h' : heap) (a b : nat) : Prop :=
  tables P0 [run_with h a] (table_of (run_with h a)) /\ input_of (run_with h a) 0 /\
  exists e, reuse P0 (table_of (run_with h a)) (at_time h' b 99 3 2) true 5 4 = Ok (Some e).

Lemma reused_intro h h' a b t e :
  memoize P0 [] (at_time h a 99 1 2) false 5 2 [0] (fun _ => mkTs 2 0) [1] = Ok t ->
  reuse P0 (table_of (run_with h a)) (at_time h' b 99 3 2) true 5 4 = Ok (Some e) ->
  reused h h' a b.
Proof.
  intros M R. split; [eapply table_of_one; exact M|]. split; [|eauto].
  repeat split; simpl; auto; discriminate.
Qed.

Definition h1 : heap := fun r =>
  match r with
  | 1 => ONum KInt 1 | 2 => ONum KInt 2 | 3 => ONum KBool 1
  | 10 => OList [1; 2] | 11 => OTuple [1; 2]
  | 12 => ODict [(1, 2)] | 13 => OList [10]
  | _ => OOther
  end.

(** A list and a tuple, a dict and a list of lists, and [True] and [1] pass as the same input,
    though a program can tell them apart. *)
Theorem C28_type_refuted :
  reused h1 h1 10 11 /\ reused h1 h1 12 13 /\ reused h1 h1 1 3.
Proof.
  split; [|split]; eapply reused_intro; vm_compute; reflexivity.
Qed.
Print Assumptions C28_type_refuted.

(** A [bytearray] that changed since compares equal to itself. *)
Definition bytes_then (s : nat) : heap := fun r => match r with 10 => OBytearray s | _ => OOther end.

Theorem C28_bytearray_refuted : reused (bytes_then 1) (bytes_then 2) 10 10.
Proof. eapply reused_intro; vm_compute; reflexivity. Qed.
Print Assumptions C28_bytearray_refuted.

(** A list that starts with an array may grow: only the common prefix is compared. Here
    arrays are compared by identity. *)
Definition same_array (_ : heap) (a b : comp) : bool :=
  match a, b with CArr r, CArr r' => Nat.eqb r r' | _, _ => false end.
Definition P1 := mkP 100 20 same_array.
Definition grown (l : list nat) : heap := fun r =>
  match r with 10 => OArr 3 | 11 => ONum KInt 5 | 20 => OList l | _ => OOther end.

Theorem C28_prefix_refuted : exists t e,
  tables P1 [run_with (grown [10]) 20] t /\
  reuse P1 t (at_time (grown [10; 11]) 20 99 3 2) true 5 4 = Ok (Some e).
Proof.
  eexists. eexists. split.
  - apply (Ta_run P1 [] [] (run_with (grown [10]) 20)); [constructor|vm_compute; reflexivity|intros q []].
  - vm_compute. reflexivity.
Qed.
Print Assumptions C28_prefix_refuted.

(** [x = x + 1]: [x] was updated by the cell itself, so it is not recorded as an input and any
    later value of [x] will do. The run below is reused though [x] was 1 before it and is 7
    now; [x] becomes 2 again. *)
Definition h2 : heap := fun r => match r with 1 => ONum KInt 2 | 2 => ONum KInt 7 | _ => OOther end.
Definition increment := mkRun (at_time h2 1 99 2 1) false 5 2 [0] (fun _ => mkTs 2 0) [0].

Theorem C28_own_input_refuted : tables P0 [increment] (table_of increment) /\
  exists e, reuse P0 (table_of increment) (at_time h2 2 99 3 1) true 5 4 = Ok (Some e) /\
            obj_of (restore (at_time h2 2 99 3 1) 4 e) 0 = 1.
Proof.
  split; [eapply table_of_one; vm_compute; reflexivity|].
  eexists. split; vm_compute; reflexivity.
Qed.
Print Assumptions C28_own_input_refuted.

(** Outputs are kept by reference. [y = [x]] ran with [x] equal 1 and was reused after
    [y.append(x)]: [y] is then the longer list. *)
Definition appended (l : list nat) : heap := fun r => match r with 1 => ONum KInt 1 | 10 => OList l | _ => OOther end.
Definition listing := mkRun (at_time (appended [1]) 1 10 1 2) false 5 2 [0] (fun _ => mkTs 2 0) [1].

Theorem C28_output_refuted : tables P0 [listing] (table_of listing) /\
  denotes (heap_of (r_state listing)) (obj_of (r_state listing) 1) (VList [VNum KInt 1]) /\
  exists e s', reuse P0 (table_of listing) (at_time (appended [1; 1]) 1 10 1 3) true 5 4 = Ok (Some e) /\
    s' = restore (at_time (appended [1; 1]) 1 10 1 3) 4 e /\
    denotes (heap_of s') (obj_of s' 1) (VList [VNum KInt 1; VNum KInt 1]).
Proof.
  split; [eapply table_of_one; vm_compute; reflexivity|]. split.
  { eapply De_list; [reflexivity|]. repeat constructor. }
  eexists. eexists. split; [vm_compute; reflexivity|]. split; [reflexivity|].
  eapply De_list; [reflexivity|]. repeat constructor.
Qed.
Print Assumptions C28_output_refuted.

(** ** C49 *)

(** On tidy values of any shape, also cyclic ones, recording a run does not fail if the stack
    is deep enough. *)
Theorem C49_record_partial : forall s U,
  finite_heap (heap_of s) U -> tidy (heap_of s) U -> (forall x, In (obj_of s x) U) ->
  exists N, forall P t err text ctr syms shallow updated, N <= p_fuel P ->
    exists t', memoize P t s err text ctr syms shallow updated = Ok t'.
Proof.
  intros s U F T O. destruct (comparable_total _ U F T) as (N & H). exists N.
  intros P t err text ctr syms shallow updated L. unfold memoize. destruct err; [eauto|].
  destruct (inputs_total P s ctr) with (syms := syms) (acc := @nil minput) as (o & ->); auto.
  simpl. eauto.
Qed.
Print Assumptions C49_record_partial.

(** The same for looking for a run to reuse, if there are no arrays. *)
Theorem C49_search_partial : forall s U,
  finite_heap (heap_of s) U -> tidy (heap_of s) U -> (forall x, In (obj_of s x) U) ->
  (forall x, ~ has_array (heap_of s) (obj_of s x)) ->
  exists N, forall P t m text ctr, N <= p_fuel P ->
    exists o, reuse P t s m text ctr = Ok o.
Proof.
  intros s U F T O A. destruct (comparable_total _ U F T) as (N & H). exists N.
  intros P t m text ctr L. unfold reuse. destruct m; [|eauto].
  apply find_run_total. intros i. apply check_total; auto.
Qed.
Print Assumptions C49_search_partial.

(** A list that contains itself, and a tuple that contains a list that contains the tuple. *)
Definition knot : heap := fun r =>
  match r with
  | 1 => ONum KInt 1 | 10 => OList [10; 1] | 11 => OTuple [12] | 12 => OList [11]
  | 13 => ODict [(1, 13)] | 14 => OSet [1] | _ => OOther
  end.
Example knot_tidy :
  finite_heap knot [0; 1; 10; 11; 12; 13; 14] /\ tidy knot [0; 1; 10; 11; 12; 13; 14] /\
  (forall x, ~ has_array knot x) /\ comparable 100 knot 20 10 = Ok None.
Proof.
  split; [split|split; [|split]].
  - intros r x I. simpl in I.
    repeat destruct I as [<-|I]; simpl; try tauto; intros H; repeat destruct H as [<-|H]; simpl; tauto.
  - exists (fun r => match r with 11 => 1 | _ => 0 end). intros r l x H.
    destruct (Nat.eq_dec r 11) as [->|N]; [injection H as <-; intros [<-|[]]; simpl; lia|].
    exfalso. do 15 (destruct r as [|r]; [simpl in H; try discriminate; congruence|]). discriminate.
  - intros r I. simpl in I.
    repeat destruct I as [<-|I]; simpl; try tauto.
    + left. intros p [<-|[]]. simpl. eauto.
    + intros x [<-|[]]. simpl. auto.
  - intros x H. induction H as [r n H| | | |]; auto.
    do 15 (destruct r as [|r]; [simpl in H; discriminate|]). simpl in H. discriminate.
  - vm_compute. reflexivity.
Qed.

(** A set of tuples, a dict with keys of two types, and a list of arrays where there was a
    number, make it raise. *)
Definition h3 : heap := fun r =>
  match r with
  | 1 => ONum KInt 1 | 2 => OStr 1 | 10 => OTuple [1] | 11 => OSet [10]
  | 12 => ODict [(1, 1); (2, 1)] | 13 => OArr 3 | 14 => OList [13] | _ => OOther
  end.

Theorem C49_raises_refuted :
  memoize P0 [] (at_time h3 11 99 1 2) false 5 2 [0] (fun _ => mkTs 2 0) [1] = Err TypeError /\
  memoize P0 [] (at_time h3 12 99 1 2) false 5 2 [0] (fun _ => mkTs 2 0) [1] = Err TypeError /\
  exists t, tables P0 [run_with h3 1] t /\
    reuse P0 t (at_time h3 14 99 3 2) true 5 4 = Err TypeError.
Proof.
  split; [vm_compute; reflexivity|]. split; [vm_compute; reflexivity|].
  eexists. split.
  - apply (Ta_run P0 [] [] (run_with h3 1)); [constructor|vm_compute; reflexivity|intros q []].
  - vm_compute. reflexivity.
Qed.
Print Assumptions C49_raises_refuted.
