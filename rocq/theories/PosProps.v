(** Property theorems C16. *)
Require Import List ZArith Bool Arith Lia.
Import ListNotations.
Require Import Verif.Base Verif.PosModel Verif.PosSpec Verif.PosProofs.

(** Three cells 7, 8, 9 of a notebook, reported as 8, 7, 9; 5 was in the index before. *)
Definition sample_state : pstate :=
  mkP [(5, Fin 0); (7, Fin 1)] [(Fin 1, 7)] [5; 7; 8; 9] true false.
Definition sample_report : dict pos := [(7, Fin 1); (8, Fin 0); (9, Fin 2)].

Example sample_report_good : good_report sample_report.
Proof.
  split; [|split].
  - simpl. repeat constructor; simpl; intuition discriminate.
  - simpl. repeat constructor; simpl; intuition discriminate.
  - simpl. intros i p H. repeat destruct H as [[= <- <-]|H]; try discriminate; contradiction.
Qed.

(** * After a report every reported cell is found at its position *)

Theorem C16_reported_found : forall s m i p,
  good_report m -> In (i, p) m -> In i (known s) ->
  at_position (set_positions s m) p = Ok (Some i) /\
  (p <> Fin (-1) -> position (set_positions s m) i = p).
Proof.
  intros s m i p G H K. split.
  - now apply report_found.
  - intros N. unfold position. rewrite set_positions_get.
    rewrite (proj1 (good_get m i p G) H).
    destruct (pos_eqb p (Fin (-1))) eqn:E; auto. apply pos_eqb_eq in E. contradiction.
Qed.
Print Assumptions C16_reported_found.

Example C16_reported_found_case :
  at_position (set_positions sample_state sample_report) (Fin 0) = Ok (Some 8) /\
  position (set_positions sample_state sample_report) 5 = Inf.
Proof. split; reflexivity. Qed.

(** No cell is found at a position that was not reported. *)
Theorem C16_nobody_elsewhere : forall s m z,
  good_report m -> (forall i, ~ In (i, Fin z) m) ->
  at_position (set_positions s m) (Fin z) = Ok None.
Proof. exact report_nobody. Qed.
Print Assumptions C16_nobody_elsewhere.

(** A cell that was indexed and is no longer reported is below every reported cell. *)
Theorem C16_removed_cell_is_last : forall s m i j p,
  tracked s -> good_report m -> In i (map fst (at_ s)) -> ~ In i (map fst m) ->
  In (j, p) m -> p <> Fin (-1) ->
  above (position (set_positions s m) j) (position (set_positions s m) i).
Proof.
  intros s m i j p [T1 T2] G Hi Hm Hj Np.
  assert (E : position (set_positions s m) i = Inf).
  { unfold position. rewrite set_positions_get.
    apply dget_None in Hm. rewrite Hm, T1, T2. simpl.
    apply memb_In in Hi. unfold dkeys. rewrite Hi. reflexivity. }
  assert (E2 : position (set_positions s m) j = p).
  { unfold position. rewrite set_positions_get.
    rewrite (proj1 (good_get m j p G) Hj).
    destruct (pos_eqb p (Fin (-1))) eqn:E2; auto. apply pos_eqb_eq in E2. contradiction. }
  rewrite E, E2. destruct p; simpl; auto.
  destruct G as (_ & _ & F). exact (F _ _ Hj eq_refl).
Qed.
Print Assumptions C16_removed_cell_is_last.

(** A cell that is not reported, and is not kept as removed by an in-order session in a notebook, has no place
    (-1); in an in-order IPython session, which reports nothing, it has the place of its number. *)
Theorem C16_unreported : forall s m i,
  ~ In i (map fst m) -> (~ tracked s \/ ~ In i (map fst (at_ s))) ->
  (in_order s = true -> ipython s = true -> position (set_positions s m) i = Fin (Z.of_nat i)) /\
  ((in_order s = false \/ ipython s = false) -> position (set_positions s m) i = Fin (-1)).
Proof.
  intros s m i Hm Hi.
  assert (E : dget (at_ (set_positions s m)) i = None).
  { rewrite set_positions_get. apply dget_None in Hm. rewrite Hm.
    destruct (in_order s && negb (ipython s))%bool eqn:B; cbn [andb]; auto.
    apply andb_prop in B. destruct B as [B1 B2]. apply negb_true_iff in B2.
    destruct Hi as [Hi|Hi]; [exfalso; apply Hi; split; auto|].
    destruct (memb i (dkeys (at_ s))) eqn:K; auto. apply memb_In in K. exfalso. apply Hi, K. }
  destruct (set_positions_known s m) as (_ & F & I).
  unfold position. rewrite E. simpl. rewrite F, I.
  split; [intros -> ->; auto|]. intros [-> | ->]; rewrite ?andb_false_r; auto.
Qed.
Print Assumptions C16_unreported.

Example C16_unreported_case :
  ~ In 4 (map fst sample_report) /\ ~ In 4 (map fst (at_ sample_state)) /\
  position (set_positions sample_state sample_report) 4 = Fin (-1).
Proof. simpl. repeat split; try lia; auto. Qed.

(** [cell_above] / [cell_below] / [cell_at_offset] find the neighbour. *)
Theorem C16_neighbour : forall s m i j z d,
  good_report m -> In (i, Fin z) m -> In (j, Fin (z + d)) m -> z <> (-1)%Z ->
  In i (known s) -> In j (known s) ->
  cell_at_offset (set_positions s m) i d = Ok (Some j).
Proof.
  intros s m i j z d G Hi Hj N Ki Kj. unfold cell_at_offset, p_from_id.
  destruct (set_positions_known s m) as (-> & _).
  pose proof (proj2 (memb_In i (known s)) Ki) as ->. simpl.
  destruct (C16_reported_found s m i (Fin z) G Hi Ki) as [_ ->].
  - simpl. now apply C16_reported_found.
  - congruence.
Qed.
Print Assumptions C16_neighbour.

Example C16_neighbour_case :
  cell_at_offset (set_positions sample_state sample_report) 7 1 = Ok (Some 9) /\
  cell_at_offset (set_positions sample_state sample_report) 7 (-1) = Ok (Some 8).
Proof. split; reflexivity. Qed.

(** * Iterating in position order *)

(** The full claim is that the iteration after a report visits exactly the reported cells.
    What holds is that it visits, in notebook order and once each, exactly the reported
    cells that were indexed before. *)
Theorem C16_iteration_partial : forall s m,
  tracked s -> NoDup (map fst (at_ s)) -> good_report m ->
  (forall i, In i (map fst m) -> In i (known s)) ->
  exists l, iterate (set_positions s m) = Ok l /\
    (forall i, In i l <-> In i (map fst m) /\ In i (map fst (at_ s))) /\
    in_notebook_order (where_of (set_positions s m)) l.
Proof.
  intros s m T W G K. destruct (report_rev s m T W G) as [N R].
  destruct (set_positions_known s m) as (K1 & _).
  apply (iterate_spec (set_positions s m)
           (fun i => In i (map fst m) /\ In i (map fst (at_ s)))); auto.
  - intros p i. rewrite R, set_positions_get. split.
    + intros [A B]. split; [split; auto; eapply dget_Some_key; eauto|]. now rewrite B.
    + intros [[A B] C]. split; auto. apply key_dget in A. destruct A as [q Hq].
      rewrite Hq in *. auto.
  - intros i [A B]. apply key_dget in A. destruct A as [q Hq].
    apply (dget_Some_key _ _ q). now rewrite set_positions_get, Hq.
  - intros i [A B]. rewrite K1. auto.
Qed.
Print Assumptions C16_iteration_partial.

(** After a later symbol check has entered and left the override, and if no cell was
    removed, the iteration visits exactly the reported cells. *)
Theorem C16_iteration_after_check : forall s m p s' o r,
  tracked s -> NoDup (map fst (at_ s)) -> good_report m ->
  (forall i, In i (map fst (at_ s)) -> In i (map fst m)) ->
  (forall i, In i (map fst m) -> In i (known s)) ->
  steady p ->
  prun (PSeq (PReport m) (POverride p)) s = (s', o, r) ->
  exists l, iterate s' = Ok l /\ (forall i, In i l <-> In i (map fst m)) /\
            in_notebook_order (where_of s') l /\ at_ s' = m.
Proof. exact report_then_override. Qed.
Print Assumptions C16_iteration_after_check.

Definition no_removal : pstate := mkP [(7, Fin 0)] [] [5; 7; 8; 9] true false.

Example C16_iteration_case :
  iterate (set_positions no_removal sample_report) = Ok [7] /\
  iterate (fst (fst (prun (PSeq (PReport sample_report) (POverride PRaise)) no_removal)))
  = Ok [8; 7; 9].
Proof. split; reflexivity. Qed.

(** The claim itself is false in three ways: the first report leaves the reverse index
    empty; a removed cell is visited after the next check; with any-order flow the
    reverse index is never refreshed. *)
Theorem C16_iteration_refuted :
  (exists s m, tracked s /\ good_report m /\ (forall i, In i (map fst m) -> In i (known s)) /\
     m <> [] /\ iterate (set_positions s m) = Ok []) /\
  (exists s m i l, tracked s /\ good_report m /\ ~ In i (map fst m) /\
     iterate (fst (fst (prun (PSeq (PReport m) (POverride PSkip)) s))) = Ok l /\ In i l) /\
  (exists s m i l, in_order s = false /\ good_report m /\ ~ In i (map fst m) /\
     iterate (set_positions s m) = Ok l /\ In i l).
Proof.
  split; [|split].
  - exists (mkP [] [] [7; 8; 9] true false), sample_report.
    split; [split; auto|]. split; [apply sample_report_good|].
    split; [simpl; tauto|]. split; [discriminate|reflexivity].
  - exists sample_state, sample_report, 5, [8; 7; 9; 5].
    split; [split; auto|]. split; [apply sample_report_good|].
    split; [simpl; intuition discriminate|]. split; [reflexivity|simpl; auto].
  - exists (mkP [(5, Fin 0)] [(Fin 0, 5)] [5; 7; 8; 9] false false), sample_report, 5, [5].
    split; auto. split; [apply sample_report_good|].
    split; [simpl; intuition discriminate|]. split; [reflexivity|simpl; auto].
Qed.
Print Assumptions C16_iteration_refuted.

(** * The temporary override *)

(** Whatever the code inside does (short of reporting a new order), including raising,
    nesting overrides and changing the flow direction, the index is as before. *)
Theorem C16_override_restores : forall p s s' o r,
  quiet p -> prun (POverride p) s = (s', o, r) -> at_ s' = at_ s.
Proof.
  intros p s s' o r Q E. exact (proj1 (quiet_run _ (QOverride p Q) _ _ _ _ E)).
Qed.
Print Assumptions C16_override_restores.

(** Inside, positions are hidden with any-order flow and visible with in-order flow. *)
Theorem C16_override_effect : forall p s s' o r,
  steady p -> prun (POverride p) s = (s', o, r) ->
  forall d, In d o -> d = if in_order s then at_ s else [].
Proof. intros p s s' o r H E. exact (override_sees p H s s' o r E). Qed.
Print Assumptions C16_override_effect.

Example C16_override_case :
  let s := mkP [(5, Fin 0)] [] [5] false false in
  prun (POverride (PSeq PSee (PSeq (POverride PSee) PRaise))) s
  = (s, [[]; []], true).
Proof. reflexivity. Qed.
