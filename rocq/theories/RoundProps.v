(** Reactive rounds in the frontend: C38 and C50. *)
Require Import List Bool Arith Lia.
Import ListNotations.
Require Import Verif.Base Verif.Loops Verif.StoreModel Verif.StoreSpec Verif.StoreProofs
  Verif.RoundModel Verif.RoundSpec Verif.RoundProofs.

(** ** C38 *)

(** Batch mode with reactive execution, the standard setting: whatever the kernel answers, and
    however the notebook changes meanwhile, no cell is submitted twice, nor one that was the last
    to be executed when a message of the round arrived. *)
Theorem C38_once fuel r ms r' ls e :
  run_round fuel r ms = Ok (r', ls, e) ->
  (forall bm, In bm ms -> m_mode (snd bm) = Batch /\ m_reactive (snd bm) = true) ->
  r_deferred r = [] ->
  NoDup (concat ls) /\
  forall x, In x (concat ls) ->
    ~ In x (r_done r) /\ exists bm, In bm ms /\ known (m_store (snd bm)) x.
Proof.
  intros H M D. destruct (run_round_batch _ _ _ _ _ _ H) as (A & B & C & F & G); auto.
  { intros bm I. apply M; auto. }
  split.
  - apply apart_NoDup; auto. apply F. intros bm I. apply M; auto.
  - intros x X. apply in_concat in X. destruct X as (l & L & X). eauto.
Qed.
Print Assumptions C38_once.

(** In batch mode the round ends: with as many cells as there ever were in the notebook, no more
    than that many messages lead to a submission, and none of those is empty. *)
Theorem C38_ends fuel r ms r' ls e U :
  run_round fuel r ms = Ok (r', ls, e) ->
  (forall bm, In bm ms -> m_mode (snd bm) = Batch) -> r_deferred r = [] ->
  (forall bm x, In bm ms -> known (m_store (snd bm)) x -> In x U) ->
  length ls <= length U /\ apart ls /\ (forall l, In l ls -> l <> []) /\
  (length U < length ms -> exists a, e = Some a).
Proof.
  intros H M D K. destruct (run_round_batch _ _ _ _ _ _ H) as (A & B & C & F & G); auto.
  assert (L : length ls <= length U).
  { apply apart_length; auto. intros l x Il Ix. destruct (C l x Il Ix) as (_ & bm & I & Kn). eauto. }
  split; [auto|]. split; [auto|]. split; [auto|]. intros Q. destruct e as [a|]; [eauto|].
  specialize (G eq_refl). lia.
Qed.
Print Assumptions C38_ends.

(** Two cells, of which 2 uses 1, and 3, which uses 2. *)
Definition nb : store :=
  mkStore [(1, [2]); (2, [3])] [(1, []); (2, [1]); (3, [2])] [1; 2; 3] [] [] [] [] [] []
    [(1, true); (2, true); (3, true)] [(1, 0); (2, 1); (3, 2)] true true false.
Definition nb_widgets : list widget := [mkWidget 1 true (Some 1); mkWidget 2 true (Some 2); mkWidget 3 true (Some 3)].
Definition start : round := mkRound [] [] [] [] 0 false 0 [].
Definition message md reactive forced cascading new last :=
  mkMsg nb nb_widgets forced cascading new reactive false md false last false.

Example once_round : run_round 10 start
    [(false, message Batch true [] [] [2] (Some 1)); (true, message Batch true [] [] [3; 2] (Some 3));
     (true, message Batch true [] [] [1] (Some 3))]
  = Ok (start, [[2; 3]], Some (mkAction [] true true)).
Proof. reflexivity. Qed.

(** If the mode is lazy, cells may still be forced to run. One that is forced both plainly and in a
    cascading way is submitted twice at once; and in the kernel, every cell forced in a cascading way is
    also forced plainly (analysis/resolved_symbols.py:87-94, frontend.py:213-226). *)
Theorem C38_lazy_refuted : exists fuel r m r' a,
  clear r /\ r_deferred r = [] /\ m_mode m = Batch /\
  on_message fuel r m = Ok (r', a) /\ ~ NoDup (a_run a).
Proof.
  exists 10, start, (message Batch false [3] [3] [] (Some 1)). do 2 eexists.
  split; [repeat split|]. split; [reflexivity|]. split; [reflexivity|]. split; [vm_compute; reflexivity|].
  cbn [a_run]. intros N. inversion N; subst. apply H1. left; auto.
Qed.
Print Assumptions C38_lazy_refuted.

(** Incremental mode: no cell is submitted twice if the kernel always names the cell that was
    submitted last as the last one executed; and then the round ends. *)
Theorem C38_incremental_partial fuel r ms r' ls e U :
  run_round fuel r ms = Ok (r', ls, e) ->
  (forall bm, In bm ms -> m_mode (snd bm) = Incremental) -> r_deferred r = [] ->
  truthful None ls ms ->
  (forall bm x, In bm ms -> has_widget (snd bm) x -> In x U) ->
  NoDup (concat ls) /\ (forall x, In x (concat ls) -> ~ In x (r_done r)) /\
  length (concat ls) <= length U /\
  (length U < length ms -> exists a, e = Some a).
Proof.
  intros H M D T K. destruct (run_round_incr _ _ _ _ _ _ _ H M D T) as (A & B & C & G).
  assert (L : length (concat ls) <= length U).
  { apply NoDup_incl_length; auto. intros x X. destruct (B x X) as (_ & _ & bm & I & W). eauto. }
  split; [auto|]. split; [intros x X; apply (B x X)|]. split; [auto|].
  intros Q. destruct e as [a|]; [eauto|]. specialize (G eq_refl). lia.
Qed.
Print Assumptions C38_incremental_partial.

Example incremental_round : exists ms,
  run_round 10 start ms = Ok (start, [[2]; [3]], Some (mkAction [] true true)) /\
  (forall bm, In bm ms -> m_mode (snd bm) = Incremental) /\ truthful None [[2]; [3]] ms /\ length ms = 3.
Proof.
  exists [(false, message Incremental true [] [] [2] (Some 1)); (true, message Incremental true [] [] [3; 2] (Some 2));
     (true, message Incremental true [] [] [2] (Some 3))].
  split; [reflexivity|]. split; [|split; [|reflexivity]].
  - intros bm [<-|[<-|[<-|[]]]]; reflexivity.
  - repeat split; try discriminate; intros x [= <-]; reflexivity.
Qed.

(** Otherwise it may be submitted again and again: nothing is remembered of the submission. *)
Theorem C38_incremental_refuted : exists m, m_mode m = Incremental /\ m_reactive m = true /\
  forall n, exists r', run_round 10 start (repeat (true, m) n) = Ok (r', repeat [2] n, None).
Proof.
  exists (message Incremental true [] [] [2] (Some 1)). split; [reflexivity|]. split; [reflexivity|].
  set (m := message Incremental true [] [] [2] (Some 1)).
  assert (K : forall n, exists r', run_round 10 (mkRound [1] [2] [] [] 0 true 0 []) (repeat (true, m) n) = Ok (r', repeat [2] n, None)).
  { induction n as [|n (r' & IH)]; [eexists; reflexivity|]. cbn [repeat run_round].
    change (on_message 10 (on_finished (mkRound [1] [2] [] [] 0 true 0 [])) m)
      with (@Ok (round * action) (mkRound [1] [2] [] [] 0 true 0 [], mkAction [2] false false)).
    cbn [rbind a_closed a_run]. rewrite IH. cbn [rmap]. eauto. }
  intros [|n]; [eexists; reflexivity|]. cbn [repeat run_round].
  change (on_message 10 (on_finished start) m)
    with (@Ok (round * action) (mkRound [1] [2] [] [] 0 true 0 [], mkAction [2] false false)).
  cbn [rbind a_closed a_run]. destruct (K n) as (r' & ->). cbn [rmap]. eauto.
Qed.
Print Assumptions C38_incremental_refuted.

(** An error ends the round at once; and once it has ended, nothing is left of it. *)
Theorem C38_error_ends fuel r m : r_deferred r = [] -> m_error m = true ->
  exists r' a, on_message fuel r m = Ok (r', a) /\ a_closed a = true /\ a_run a = [].
Proof.
  intros D E. unfold on_message. change (r_deferred (absorb r m)) with (r_deferred r). rewrite D, E.
  do 2 eexists. split; [reflexivity|]. split; reflexivity.
Qed.
Print Assumptions C38_error_ends.

Theorem C38_closed_clear fuel r m r' a :
  on_message fuel r m = Ok (r', a) -> a_closed a = true -> clear r' /\ a_run a = [].
Proof. intros H C. destruct (on_message_closed _ _ _ _ _ H C) as (A & B & _). auto. Qed.
Print Assumptions C38_closed_clear.

Example error_round : exists r' a,
  on_message 10 start (mkMsg nb nb_widgets [] [] [2] true false Batch false (Some 1) true) = Ok (r', a) /\
  a_closed a = true.
Proof. do 2 eexists. split; reflexivity. Qed.

(** ** C50: the kernel is told when a round ends *)

(** In reactive mode, it always is. *)
Theorem C50_cleanup_partial fuel r m r' a :
  on_message fuel r m = Ok (r', a) -> a_closed a = true -> m_reactive m = true ->
  a_cleanup a = true.
Proof.
  intros H C R. destruct (on_message_closed _ _ _ _ _ H C) as (_ & _ & ->).
  rewrite R. apply orb_true_r.
Qed.
Print Assumptions C50_cleanup_partial.

(** In lazy mode it is not: when the cells have finished, the frontend forgets that they were
    executed reactively before it asks for the schedule (store.ts:106-108), and so the request
    does not say so either. *)
Theorem C50_lazy_refuted : exists m1 m2 r' ls a,
  m_reactive m1 = false /\ m_reactive m2 = false /\ m_reporting m2 = r_active (on_finished start) /\
  run_round 10 start [(false, m1); (true, m2)] = Ok (r', ls, Some a) /\
  ls = [[3]] /\ a_cleanup a = false.
Proof.
  exists (message Batch false [3] [] [] (Some 1)), (message Batch false [] [] [] (Some 3)).
  do 3 eexists. split; [reflexivity|]. split; [reflexivity|]. split; [reflexivity|].
  split; [reflexivity|]. split; reflexivity.
Qed.
Print Assumptions C50_lazy_refuted.
