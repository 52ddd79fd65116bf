(** C42: debounced requests for a schedule coalesce and the last one is not lost. *)
Require Import List Arith Bool Lia.
Import ListNotations.
Require Import Verif.Base Verif.Loops Verif.DebModel Verif.DebSpec Verif.DebProofs.

(** Two calls, the second within the delay (3) of the first, and all that follows. *)
Definition call (a : nat) (first : bool) : list label := if first then [Call a; Start; Return] else [Call a; Cancel; Start; Return].
Definition fires (i : nat) : list label := [Wake i; Test i; Enter i; Leave i; SetFinished i true].
Definition burst : list label := call 7 true ++ [Tick] ++ call 8 false ++ [Wake 0; Test 0; Tick; Tick; Tick] ++ fires 1.
Example burst_runs : exists s, run 3 burst (init 0) = Some s /\ quiet s /\
  log s = [EStart 0 7 0; EReturn 0 true; ECancel 0 1; EStart 1 8 1; EReturn 1 false; EFire 1 8 4].
Proof.
  eexists. split; [vm_compute; reflexivity|]. split; [|reflexivity]. split; [reflexivity|].
  intros [|[|i]] x H; simpl in H; [injection H as <-; reflexivity|injection H as <-; reflexivity|destruct i; discriminate].
Qed.

(** A request that is followed by another one within the delay never leads to a computation, however the threads are
    scheduled. *)
Theorem C42_superseded : forall w sc ls s i a a' t t',
  run w ls (init sc) = Some s -> In (EStart i a t) (log s) -> In (EStart (S i) a' t') (log s) -> t' < t + w -> ~ fired i s.
Proof.
  intros w sc ls s i a a' t t' R A B L. pose proof (Inv_run w ls _ _ (Inv_init w sc) R) as I.
  destruct (I_next w s I i a' t' B) as (tc & T & C). destruct (I_cancel w s I i tc C) as (_ & x & N & _ & F).
  apply (I_start w s I) in A. destruct A as (y & Y & _ & D). rewrite N in Y. injection Y as <-. apply F. lia.
Qed.
Print Assumptions C42_superseded.
Example C42_superseded_case : exists s, run 3 burst (init 0) = Some s /\ In (EStart 0 7 0) (log s) /\ In (EStart 1 8 1) (log s) /\ 1 < 0 + 3.
Proof. eexists. split; [vm_compute; reflexivity|]. simpl. auto 10. Qed.

(** A computation is for a request that was made, not before the delay is over, and is done at most once for it. *)
Theorem C42_delay : forall w sc ls s i a t,
  run w ls (init sc) = Some s -> In (EFire i a t) (log s) -> exists t0, In (EStart i a t0) (log s) /\ t0 + w <= t.
Proof.
  intros w sc ls s i a t R A. pose proof (Inv_run w ls _ _ (Inv_init w sc) R) as I.
  destruct (I_fire w s I i a t A) as (x & N & X & D & _).
  pose proof (deadline_run w sc ls s i x R N) as W. exists (t_deadline x - w). split; [|lia]. apply (I_start w s I). exists x.
  split; auto. split; auto. lia.
Qed.
Print Assumptions C42_delay.
Theorem C42_at_most_once : forall w sc ls s, run w ls (init sc) = Some s -> NoDup (flat_map fire_of (log s)).
Proof. intros w sc ls s R. apply (I_once w s). apply (Inv_run w ls _ _ (Inv_init w sc) R). Qed.
Print Assumptions C42_at_most_once.
Example C42_delay_case : exists s, run 3 burst (init 0) = Some s /\ In (EFire 1 8 4) (log s) /\ flat_map fire_of (log s) = [1].
Proof. eexists. split; [vm_compute; reflexivity|]. simpl. auto 10. Qed.

(** When everything came to rest, each request has led to a computation with its arguments, or was followed by another
    request. In particular, the last request has led to one. *)
Theorem C42_not_lost : forall w sc ls s i a t,
  run w ls (init sc) = Some s -> quiet s -> In (EStart i a t) (log s) ->
  (exists t', In (EFire i a t') (log s)) \/ started (S i) s.
Proof.
  intros w sc ls s i a t R (M & Q) A. pose proof (Inv_run w ls _ _ (Inv_init w sc) R) as I.
  pose proof A as A'. apply (I_start w s I) in A. destruct A as (x & N & X & D).
  pose proof (I_phase w s I i x N) as K. rewrite (Q i x N) in K. destruct K as [(b & t' & F)|(tc & C)].
  - left. exists t'. destruct (I_fire w s I i b t' F) as (y & Y & Z & _). rewrite N in Y. injection Y as <-. congruence.
  - right. destruct (I_last w s I i tc C) as [L|(_ & r & b & Z)]; [|congruence].
    destruct (nth_error (timers s) (S i)) as [y|] eqn:Y; [|apply nth_error_None in Y; lia].
    exists (t_arg y), (t_deadline y - w). apply (I_start w s I). exists y. split; auto. split; auto.
    pose proof (deadline_run w sc ls s (S i) y R Y). lia.
Qed.
Print Assumptions C42_not_lost.

(** And it can come to rest from every state in which no call is going on. *)
Theorem C42_comes_to_rest : forall w sc ls s,
  run w ls (init sc) = Some s -> at_ s = Idle ->
  exists ls' s', run w ls' s = Some s' /\ (forall l a, In l ls' -> l <> Call a) /\ quiet s'.
Proof.
  intros w sc ls s R M. destruct (come_to_rest w (total (timers s)) s (le_n _) M) as (ls' & s' & H & F & Q).
  exists ls', s'. split; auto. split; auto. intros l a L. rewrite Forall_forall in F. apply (F l L a).
Qed.
Print Assumptions C42_comes_to_rest.

(** Of the last burst, exactly the last request leads to a computation. *)
Theorem C42_burst : forall w sc ls s i j,
  run w ls (init sc) = Some s -> quiet s -> i <= j -> started j s -> ~ started (S j) s ->
  (forall k, i <= k < j -> exists a t a' t', In (EStart k a t) (log s) /\ In (EStart (S k) a' t') (log s) /\ t' < t + w) ->
  forall k, i <= k <= j -> (fired k s <-> k = j).
Proof.
  intros w sc ls s i j R Q IJ (a & t & A) N B k K. split.
  - intros F. destruct (Nat.eq_dec k j) as [|D]; auto. exfalso. destruct (B k ltac:(lia)) as (b & u & b' & u' & U & U' & L).
    apply (C42_superseded w sc ls s k b b' u u' R U U' L F).
  - intros ->. destruct (C42_not_lost w sc ls s j a t R Q A) as [(t' & F)|S]; [|contradiction]. exists a, t'. auto.
Qed.
Print Assumptions C42_burst.
Example C42_burst_case : exists s, run 3 burst (init 0) = Some s /\ quiet s /\ started 1 s /\ ~ started 2 s /\
  (forall k, 0 <= k < 1 -> exists a t a' t', In (EStart k a t) (log s) /\ In (EStart (S k) a' t') (log s) /\ t' < t + 3).
Proof.
  destruct burst_runs as (s & R & Q & L). exists s. unfold started. rewrite L. split; auto. split; auto. split; [|split].
  - exists 8, 1. simpl. auto 10.
  - intros (a & t & H). simpl in H. destruct H as [H|[H|[H|[H|[H|[H|[]]]]]]]; discriminate.
  - intros k K. assert (k = 0) by lia. subst k. exists 7, 0, 8, 1. simpl. auto 10.
Qed.

(** Of an earlier burst, the last request may be lost: if its timer's thread is late, a request that comes long after
    the delay still cancels it. *)
Theorem C42_late_refuted : exists w sc ls s, run w ls (init sc) = Some s /\ quiet s /\
  In (EStart 0 7 0) (log s) /\ In (EStart 1 8 5) (log s) /\ 0 + w < 5 /\ ~ fired 0 s.
Proof.
  exists 3, 0, (call 7 true ++ repeat Tick 5 ++ call 8 false ++ [Wake 0; Test 0] ++ repeat Tick 3 ++ fires 1).
  eexists. split; [vm_compute; reflexivity|]. split; [split; [reflexivity|]|].
  - intros [|[|i]] x H; simpl in H; [injection H as <-; reflexivity|injection H as <-; reflexivity|destruct i; discriminate].
  - simpl. split; [auto 10|]. split; [auto 10|]. split; [lia|]. intros (a & t & H). simpl in H. destruct H as [H|[H|[H|[H|[H|[H|[]]]]]]]; discriminate.
Qed.
Print Assumptions C42_late_refuted.

(** While a request is pending, the requests of the frontend are dropped (comm_manager.py:121-125). If every call
    returns before its delay is over, none is dropped when everything is at rest. *)
Theorem C42_pending_partial : forall w sc ls s,
  run w ls (init sc) = Some s -> prompt w ls (init sc) -> quiet s -> pending s = false.
Proof.
  intros w sc ls s R P (M & Q).
  assert (I : PInv s).
  { apply (PInv_run w ls (init sc)); auto.
    - apply Inv_init.
    - discriminate.
    - intros H. discriminate. }
  destruct (pending s) eqn:E; auto. destruct (I E) as (i & x & _ & N & A); [intros; congruence|].
  unfold alive in A. rewrite (Q i x N) in A. destruct A.
Qed.
Print Assumptions C42_pending_partial.
Example C42_pending_case : exists s s1, run 3 burst (init 0) = Some s /\ prompt 3 burst (init 0) /\ quiet s /\
  run 3 (call 7 true) (init 0) = Some s1 /\ pending s1 = true.
Proof.
  destruct burst_runs as (s & R & Q & _). exists s. eexists. split; auto. split; [|split; [auto|split; [vm_compute; reflexivity|reflexivity]]].
  apply promptb_ok. vm_compute. reflexivity.
Qed.
(** Otherwise they may be dropped for good: nothing is going on and [pending] is set. *)
Theorem C42_pending_refuted : exists w sc ls s, run w ls (init sc) = Some s /\ quiet s /\ pending s = true.
Proof.
  exists 3, 0, ([Call 7; Start] ++ repeat Tick 3 ++ fires 0 ++ [Return]). eexists. split; [vm_compute; reflexivity|].
  split; [split; [reflexivity|]|reflexivity]. intros [|i] x H; simpl in H; [injection H as <-; reflexivity|destruct i; discriminate].
Qed.
Print Assumptions C42_pending_refuted.
(** A request that is made while the computation for an earlier one runs is not announced as pending. *)
Theorem C42_unannounced_refuted : exists w sc ls s, run w ls (init sc) = Some s /\ prompt w ls (init sc) /\ at_ s = Idle /\ pending s = false /\
  exists x, nth_error (timers s) 1 = Some x /\ t_phase x = Waiting /\ t_fin x = false.
Proof.
  exists 3, 0, (call 7 true ++ repeat Tick 3 ++ [Wake 0; Test 0; Enter 0] ++ call 8 false ++ [Leave 0]). eexists.
  split; [vm_compute; reflexivity|]. split; [|split; [reflexivity|split; [reflexivity|eexists; repeat split]]].
  apply promptb_ok. vm_compute. reflexivity.
Qed.
Print Assumptions C42_unannounced_refuted.

(** The setting that is changed for the computation is what it was before, if no two computations run at the same time. *)
Theorem C42_setting_partial : forall w sc ls s,
  run w ls (init sc) = Some s -> separate w ls (init sc) -> quiet s -> sched s = sc.
Proof.
  intros w sc ls s R S (M & Q).
  assert (I : SInv sc s).
  { apply (SInv_run w ls sc (init sc)); auto. split; [|split; [|reflexivity]].
    - intros [|i] x b H; discriminate.
    - intros [|i] j x y H; discriminate. }
  destruct I as (_ & _ & C). apply C. intros i x N B. unfold busy in B. rewrite (Q i x N) in B. destruct B.
Qed.
Print Assumptions C42_setting_partial.
Example C42_setting_case : exists s s1, run 3 burst (init 0) = Some s /\ separate 3 burst (init 0) /\ quiet s /\
  run 3 (call 7 true ++ repeat Tick 3 ++ [Wake 0; Test 0; Enter 0]) (init 0) = Some s1 /\ sched s1 = 1.
Proof.
  destruct burst_runs as (s & R & Q & _). exists s. eexists. split; auto. split; [|split; [auto|split; [vm_compute; reflexivity|reflexivity]]].
  apply separateb_ok. vm_compute. reflexivity.
Qed.
(** If two overlap (a computation takes longer than the delay), the setting is changed for good. *)
Theorem C42_setting_refuted : exists w ls s, run w ls (init 0) = Some s /\ prompt w ls (init 0) /\ quiet s /\ sched s = 1.
Proof.
  exists 3, (call 7 true ++ repeat Tick 3 ++ [Wake 0; Test 0; Enter 0] ++ call 8 false ++ repeat Tick 3 ++
             [Wake 1; Test 1; Enter 1; Leave 0; Leave 1; SetFinished 0 true; SetFinished 1 true]). eexists.
  split; [vm_compute; reflexivity|]. split; [|split; [split; [reflexivity|]|reflexivity]].
  - apply promptb_ok. vm_compute. reflexivity.
  - intros [|[|i]] x H; simpl in H; [injection H as <-; reflexivity|injection H as <-; reflexivity|destruct i; discriminate].
Qed.
Print Assumptions C42_setting_refuted.
