(** C17-C22 and C48: the frontend checker. *)
Require Import List ZArith Bool Arith Lia.
Import ListNotations.
Require Import Verif.Base Verif.Loops Verif.TimestampModel Verif.SessionModel Verif.PosModel
  Verif.PosSpec Verif.FrontModel Verif.FrontSpec Verif.FrontDag Verif.FrontLinks
  Verif.FrontMain Verif.FrontLatest Verif.FrontReady Verif.FrontPipe Verif.FrontTotal
  Verif.FrontExact.
Local Open Scope nat_scope.

(** ** A concrete notebook

    Cell 1 ran last (counter 5) and rewrote symbol 7, which cell 2 read at counter 2; cell 3
    read symbol 8 of cell 2 at counter 3. *)
Definition ex_chk : chk := mkChk [] false true [] 0 0 0.
Definition ex_sym (s : nat) : symi :=
  match s with
  | 7 => mkSymi (mkTs 5 0) None [1%Z; 5%Z] false
  | 8 => mkSymi (mkTs 2 0) None [2%Z] false
  | _ => mkSymi (mkTs 0 0) None [] false
  end.
Definition ex_cell (p : pos) (c : Z) (par : edges) : fcell :=
  mkF p c (fun x => match x with Dynamic => par | Static => [] end) [] (Some ex_chk) [] None.
Definition ex_cells : dict fcell :=
  [(1, ex_cell (Fin 0) 5 []); (2, ex_cell (Fin 1) 2 [(1, [7])]);
   (3, ex_cell (Fin 2) 3 [(2, [8])])].
Definition ex_env (io : bool) (s : schedule) : fenv :=
  mkFenv ex_cells ex_sym 0 [Dynamic; Static] io s false (-1) 5 0 0 true.

Lemma ex_registered io s : registered (ex_env io s).
Proof.
  intros i c x j sy H H'. unfold cell_is, ex_env, e_cells, ex_cells in *. simpl in H.
  repeat match type of H with
  | (if ?b then _ else _) = _ => destruct b;
      [injection H as <-; destruct x; simpl in H'; repeat destruct H' as [[= <- <-]|H'];
       try destruct H'; simpl; eauto|]
  end. discriminate.
Qed.

Lemma ex_distinct io s : distinct_positions (ex_env io s).
Proof.
  intros i j j' p p' (x & sy & c & C & _ & H & _) (x' & sy' & c' & C' & _ & H' & _) _ _ _.
  unfold cell_is, ex_env, e_cells, ex_cells in *. simpl in C, C'. rewrite C in C'.
  injection C' as <-.
  repeat match type of C with
  | (if ?b then _ else _) = _ => destruct b;
      [injection C as <-; destruct x, x'; simpl in H, H';
       repeat destruct H as [[= <- <-]|H]; repeat destruct H' as [[= <- <-]|H'];
       try destruct H; try destruct H'; reflexivity|]
  end. discriminate.
Qed.

(** ** C17 *)

(** DAG schedules: the waiting cells are the least set containing every checked cell with a
    parent that needs to run or waits; the ready cells are the others that need to run. *)
Theorem C17_waiting_least e tc last tagged flags p :
  compute e tc last tagged flags = Ok p ->
  registered e -> (e_in_order e = true -> distinct_positions e) ->
  e_schedule e <> LivenessBased ->
  exists needs, (forall i, In i needs <-> In i tc /\ needs_run e i) /\
    (forall i, In i (p_waiting p) <-> must_wait e tc needs [] i) /\
    (forall i, In i (p_ready p) <-> In i needs /\ ~ In i (p_waiting p)).
Proof.
  intros E R D S. destruct (report_exact _ _ _ _ _ _ E R D) as (n & A & B & _ & C). eauto.
Qed.
Print Assumptions C17_waiting_least.

(** In terms of the report alone: without cycles, a cell waits exactly when a chain of parents
    through checked cells leads to a cell reported ready. *)
Theorem C17_waiting_iff_behind_ready e tc last tagged flags p :
  compute e tc last tagged flags = Ok p ->
  acyclic e -> e_schedule e <> LivenessBased ->
  forall i, In i (p_waiting p) <-> must_wait e tc (p_ready p) [] i.
Proof.
  intros E A S. destruct (report_dag _ _ _ _ _ _ E S) as (n & _ & B & C).
  exact (behind_ready e tc n _ _ A B C).
Qed.
Print Assumptions C17_waiting_iff_behind_ready.

(** The order (and repetition) of the cells to check is irrelevant. *)
Theorem C17_order_irrelevant e tc tc' last last' tagged tagged' flags flags' p p' :
  compute e tc last tagged flags = Ok p -> compute e tc' last' tagged' flags' = Ok p' ->
  (forall i, In i tc <-> In i tc') ->
  (forall i, In i (p_waiting p) <-> In i (p_waiting p')) /\
  (forall i, In i (p_ready p) <-> In i (p_ready p')).
Proof.
  intros E E' S.
  assert (X : e_schedule e <> LivenessBased \/ e_schedule e = LivenessBased).
  { destruct (e_schedule e); auto; left; discriminate. }
  destruct X as [X|X].
  - destruct (report_dag _ _ _ _ _ _ E X) as (n & A & B & C).
    destruct (report_dag _ _ _ _ _ _ E' X) as (n' & A' & B' & C').
    assert (NN : forall i, In i n <-> In i n') by (intros i; rewrite A, A', S; tauto).
    assert (W : forall i, In i (p_waiting p) <-> In i (p_waiting p')).
    { intros i. rewrite B, B'. split; intros H.
      - apply must_wait_perm with tc; auto. apply must_wait_ready with n; auto.
      - apply must_wait_perm with tc'; [intros; rewrite S; tauto|].
        apply must_wait_ready with n'; auto. intros; rewrite NN; tauto. }
    split; auto. intros i. rewrite C, C', NN, W. tauto.
  - destruct (report_live _ _ _ _ _ _ E X) as (A & B).
    destruct (report_live _ _ _ _ _ _ E' X) as (A' & B').
    split; intros i; [rewrite A, A', S|rewrite B, B', S]; tauto.
Qed.
Print Assumptions C17_order_irrelevant.

(** The computation ends without an exception on every registry. *)
Theorem C17_terminates e tc last tagged flags :
  registered e -> (forall i, In i tc -> exists c, cell_is e i c) ->
  (forall l, last = Some l -> exists c, cell_is e l c) ->
  exists p, compute e tc last tagged flags = Ok p.
Proof. intros R. now apply compute_total. Qed.
Print Assumptions C17_terminates.

Example C17_example :
  (exists p, compute (ex_env true DagBased) [3; 1; 2] (Some 1) [] [] = Ok p /\
     p_ready p = [2] /\ p_waiting p = [3]) /\
  registered (ex_env true DagBased) /\ distinct_positions (ex_env true DagBased) /\
  acyclic (ex_env true DagBased).
Proof.
  split; [eexists; split; [vm_compute; reflexivity|split; reflexivity]|].
  split; [apply ex_registered|]. split; [apply ex_distinct|]. now apply in_order_acyclic.
Qed.

(** ** C18 *)

Theorem C18_progress e tc last tagged flags p i :
  compute e tc last tagged flags = Ok p ->
  registered e -> (e_in_order e = true -> distinct_positions e) ->
  e_schedule e <> LivenessBased -> acyclic e ->
  In i tc -> needs_run e i -> exists r, In r (p_ready p).
Proof.
  intros E R D S A Hi N. destruct (C17_waiting_least _ _ _ _ _ _ E R D S) as (n & B & W & C).
  destruct (in_dec Nat.eq_dec i (p_waiting p)) as [H|H].
  - destruct (waiting_has_ready _ _ _ _ _ A W C i H) as (r & Hr & _). eauto.
  - exists i. apply C. split; auto. now apply B.
Qed.
Print Assumptions C18_progress.

(** More precisely, every waiting cell has a ready ancestor. *)
Theorem C18_waiting_cell_has_ready_ancestor e tc last tagged flags p i :
  compute e tc last tagged flags = Ok p ->
  e_schedule e <> LivenessBased -> acyclic e -> In i (p_waiting p) ->
  exists r, In r (p_ready p) /\ ancestor e i r.
Proof.
  intros E S A Hi. destruct (report_dag _ _ _ _ _ _ E S) as (n & _ & B & C).
  exact (waiting_has_ready _ _ _ _ _ A B C i Hi).
Qed.
Print Assumptions C18_waiting_cell_has_ready_ancestor.

Theorem C18_in_order_never_cyclic e : e_in_order e = true -> acyclic e.
Proof. apply in_order_acyclic. Qed.
Print Assumptions C18_in_order_never_cyclic.

Example C18_example :
  needs_run (ex_env true DagBased) 2 /\ acyclic (ex_env true DagBased).
Proof.
  split; [|now apply in_order_acyclic].
  exists (ex_cell (Fin 1) 2 [(1, [7])]), ex_chk. split; [split; reflexivity|].
  split; [intros [H _]; discriminate|]. left. split; [discriminate|].
  exists Dynamic, 1, [7], (ex_cell (Fin 0) 5 []). split.
  - exists (ex_cell (Fin 1) 2 [(1, [7])]). split; [reflexivity|]. split; [left; reflexivity|].
    split; [left; reflexivity|]. intros _. exists (ex_cell (Fin 0) 5 []). split; [reflexivity|].
    simpl. lia.
  - split; [reflexivity|]. right. split.
    + left. simpl. split; [lia|]. split; [lia|]. right. exists 7.
      split; [split; simpl; auto|]. reflexivity.
    + intros _. split; [|discriminate]. right. exists 7. split; [split; simpl; auto|].
      intros s' j' p p' (x & raw & c & (c0 & C0 & _ & H & _) & _ & U & _) _ _ P P'.
      unfold cell_is in *. simpl in C0, P. injection C0 as <-. injection P as <-.
      destruct x; simpl in H; [|destruct H]. destruct H as [[= <- <-]|[]].
      simpl in P'. injection P' as <-. simpl. lia.
Qed.

(** Without the condition the schedule can deadlock: two cells that are each other's parents
    (each ran before the other's update) are both waiting and nothing is ready. *)
Definition cyc_env : fenv :=
  mkFenv [(1, ex_cell (Fin 0) 5 [(2, [8])]); (2, ex_cell (Fin 1) 6 [(1, [7])])]
    (fun s => match s with
     | 7 => mkSymi (mkTs 5 0) None [5%Z] false
     | _ => mkSymi (mkTs 6 0) None [6%Z] false
     end) 0 [Dynamic] false DagBased false (-1) 6 0 0 true.

Theorem C18_cycle_deadlocks :
  exists e tc p i, compute e tc None [] [] = Ok p /\ registered e /\
    e_schedule e <> LivenessBased /\ In i tc /\ needs_run e i /\ p_ready p = [].
Proof.
  exists cyc_env, [1; 2].
  eexists. exists 1. split; [vm_compute; reflexivity|]. split.
  { intros i c x j sy H H'. unfold cell_is, cyc_env in *. simpl in H.
    repeat match type of H with
    | (if ?b then _ else _) = _ => destruct b;
      [injection H as <-; destruct x; simpl in H'; repeat destruct H' as [[= <- <-]|H'];
       try destruct H'; simpl; eauto|]
    end. discriminate. }
  split; [discriminate|]. split; [left; reflexivity|]. split; [|reflexivity].
  exists (ex_cell (Fin 0) 5 [(2, [8])]), ex_chk. split; [split; reflexivity|].
  split; [intros [H _]; discriminate|]. left. split; [discriminate|].
  exists Dynamic, 2, [8], (ex_cell (Fin 1) 6 [(1, [7])]). split.
  - exists (ex_cell (Fin 0) 5 [(2, [8])]). split; [reflexivity|]. split; [left; reflexivity|].
    split; [left; reflexivity|]. discriminate.
  - split; [reflexivity|]. right. split; [|discriminate].
    left. simpl. split; [lia|]. split; [lia|]. right. exists 8.
    split; [split; simpl; auto|]. reflexivity.
Qed.
Print Assumptions C18_cycle_deadlocks.

(** ** C19 *)

Theorem C19_sets_consistent_partial e tc last tagged flags p :
  compute e tc last tagged flags = Ok p ->
  (forall i, In i (p_ready p) -> ~ In i (p_waiting p)) /\
  (forall i, In i (p_new_ready p) -> In i (p_ready p)) /\
  (forall i, In i (p_cascading p) -> In i (p_ready p)) /\
  (forall i, In i (p_forced p) -> In i (p_ready p) \/ In i tagged) /\
  (forall i, In i (p_ready p) -> In i tc) /\
  (forall i, In i (p_waiting p) -> In i tc) /\
  (e_allow_new e = false -> json_new_ready e p = []) /\
  (forall i, In i (json_waiting p) <-> In i (p_waiting p) \/
     In i tc /\ exists c k, checked_with e i c k /\ k_typechecks k = false) /\
  (forall i, In i (p_waiting p) -> dget (p_flags p) i <> Some true) /\
  (forall i c k, In i tc -> checked_with e i c k ->
     (dget (p_flags p) i = Some true <-> In i (p_ready p))).
Proof.
  intros E. destruct (report_sets _ _ _ _ _ _ E) as (A1 & A2 & A3 & A4 & A5 & A6 & A7).
  destruct (report_forced _ _ _ _ _ _ E) as (B1 & B2 & _).
  split; [exact A1|]. split; [exact A2|]. split; [exact B2|]. split; [exact B1|].
  split; [intros i H; apply A3 in H; tauto|]. split; [exact A4|].
  split; [intros H; unfold json_new_ready; now rewrite H|].
  split; [intros i; unfold json_waiting; now rewrite In_supd, A5|]. split; [exact A7|exact A6].
Qed.
Print Assumptions C19_sets_consistent_partial.

(** The cells sent as waiting may also be sent as ready: a cell that fails the type check is
    not taken out of the ready cells. *)
Definition tc_env : fenv :=
  mkFenv [(1, ex_cell (Fin 0) 5 []);
          (2, mkF (Fin 1) 2 (fun _ => [(1, [7])]) [] (Some (mkChk [] false false [] 0 0 0)) [] None)]
    ex_sym 0 [Dynamic; Static] true DagBased false (-1) 5 0 0 true.

Theorem C19_sent_ready_and_waiting_refuted :
  exists e tc last tagged flags p i, compute e tc last tagged flags = Ok p /\
    In i (p_ready p) /\ In i (json_waiting p).
Proof.
  exists tc_env, [1; 2], (Some 1), [], []. eexists. exists 2.
  split; [vm_compute; reflexivity|]. split; left; reflexivity.
Qed.
Print Assumptions C19_sent_ready_and_waiting_refuted.

(** Exactly which ready cells are reported as new: with in-order flow only cells below the last
    executed one; either the change is new, or the cell ran before, was not ready before this
    check, and nothing postpones new readiness. *)
Theorem C19_new_ready_exact e tc last tagged flags p :
  compute e tc last tagged flags = Ok p ->
  registered e -> (e_in_order e = true -> distinct_positions e) -> NoDup tc ->
  forall i, In i (p_new_ready p) <->
    In i tc /\ ~ In i (p_waiting p) /\ exists c k, checked_with e i c k /\
      (e_in_order e = true -> forall l cl, last = Some l -> cell_is e l cl ->
         above (f_pos cl) (f_pos c)) /\
      (newly_stale e i c k \/
       ((0 < f_ctr c)%Z /\ dget flags i <> Some true /\ needs_run e i /\
        (e_min_new e <= e_counter e)%Z /\ (e_min_ts e <= e_counter e)%Z)).
Proof. intros E R D N. exact (report_new_exact _ _ _ _ _ _ E R D N). Qed.
Print Assumptions C19_new_ready_exact.

(** The cells forced to re-run after the last executed cell. *)
Theorem C19_forced_exact e tc l cl tagged flags p i :
  compute e tc (Some l) tagged flags = Ok p -> cell_is e l cl ->
  (In i (p_forced p) <->
     In i tagged \/ (In i (p_ready p) /\ exists c k, checked_with e i c k /\
       (e_in_order e = true -> ~ above (f_pos c) (f_pos cl)) /\
       (f_ctr c < k_max_reactive k)%Z /\ (e_min_forced e < k_max_reactive k)%Z /\
       (e_min_ts e < k_max_reactive k)%Z)) /\
  (In i (p_cascading p) <->
     (In i (p_ready p) /\ exists c k, checked_with e i c k /\
       (e_in_order e = true -> ~ above (f_pos c) (f_pos cl)) /\
       (f_ctr c < k_max_cascading k)%Z /\ (e_min_forced e < k_max_cascading k)%Z /\
       (e_min_ts e < k_max_cascading k)%Z)).
Proof.
  intros E C. destruct (report_forced _ _ _ _ _ _ E) as (_ & _ & A & B).
  split; [now apply (A l cl i)|now apply (B l cl i)].
Qed.
Print Assumptions C19_forced_exact.

Example C19_example :
  exists p, compute (ex_env true DagBased) [1; 2; 3] (Some 1) [3] [] = Ok p /\
    p_new_ready p = [2] /\ p_forced p = [3] /\ json_waiting p = [3] /\
    json_new_ready (ex_env true DagBased) p = [2] /\ NoDup [1; 2; 3].
Proof.
  eexists. split; [vm_compute; reflexivity|]. repeat (split; [reflexivity|]).
  repeat constructor; simpl; intuition lia.
Qed.

(** ** C20 *)

(** The links are exact unless a waiting cell is one of its own ready-makers. *)
Theorem C20_links_exact_partial e tc last tagged flags p :
  compute e tc last tagged flags = Ok p ->
  (forall w, In w (p_waiting p) -> ~ makes_ready e tc (p_ready p) (p_waiting p) last w w) ->
  forall w r, In w (p_waiting p) ->
    (In r (lget (p_waiter_links p) w) <-> ~ In r (p_waiting p) /\
     link_path (p_waiting p) (makes_ready e tc (p_ready p) (p_waiting p) last) w r).
Proof. intros E. exact (proj1 (proj2 (report_links _ _ _ _ _ _ E))). Qed.
Print Assumptions C20_links_exact_partial.

(** With in-order flow they are always exact. *)
Theorem C20_links_exact_in_order e tc last tagged flags p :
  compute e tc last tagged flags = Ok p -> e_in_order e = true ->
  forall w r, In w (p_waiting p) ->
    (In r (lget (p_waiter_links p) w) <-> ~ In r (p_waiting p) /\
     link_path (p_waiting p) (makes_ready e tc (p_ready p) (p_waiting p) last) w r).
Proof.
  intros E O. apply (C20_links_exact_partial _ _ _ _ _ _ E).
  intros w Hw H.
  destruct (link_path_above e tc _ _ _ w w O (lp_one _ _ _ _ H)) as (c & c' & A & B & C).
  rewrite (cell_is_fun _ _ _ _ A B) in C. exact (above_irrefl _ C).
Qed.
Print Assumptions C20_links_exact_in_order.

(** They are never wrong, and the two maps are inverse to each other. *)
Theorem C20_links_sound e tc last tagged flags p :
  compute e tc last tagged flags = Ok p ->
  (forall w r, In w (p_waiting p) -> In r (lget (p_waiter_links p) w) ->
     ~ In r (p_waiting p) /\
     link_path (p_waiting p) (makes_ready e tc (p_ready p) (p_waiting p) last) w r) /\
  (forall w r, In w (lget (p_ready_makers p) r) <->
     In w (p_waiting p) /\ In r (lget (p_waiter_links p) w)).
Proof.
  intros E. destruct (report_links _ _ _ _ _ _ E) as (A & _ & B). auto.
Qed.
Print Assumptions C20_links_sound.

(** A reactive chain in which the size test ends the rounds too early: cells 1 and 2 both
    overwrite a symbol they use; cell 4 would unblock cell 1 through 2 and 3, but is not
    linked to it. *)
Definition live_cell (p : pos) (c : Z) (waits kills : list nat) : fcell :=
  mkF p c (fun _ => []) [] (Some (mkChk waits false true kills 0 0 0)) [] None.
Definition link_env : fenv :=
  mkFenv [(1, live_cell (Fin 0) 1 [11; 12] [11]); (2, live_cell (Fin 1) 2 [12; 13] [12]);
          (3, live_cell (Fin 2) 3 [14] [13]); (4, live_cell (Fin 3) 4 [] [14])]
    ex_sym 0 [Dynamic; Static] false LivenessBased false (-1) 5 0 0 true.

Theorem C20_links_refuted :
  exists e tc last tagged flags p w r, compute e tc last tagged flags = Ok p /\
    In w (p_waiting p) /\ ~ In r (p_waiting p) /\
    link_path (p_waiting p) (makes_ready e tc (p_ready p) (p_waiting p) last) w r /\
    ~ In r (lget (p_waiter_links p) w).
Proof.
  exists link_env, [1; 2; 3; 4], None, [], []. eexists. exists 1, 4.
  split; [vm_compute; reflexivity|].
  split; [left; reflexivity|]. split; [simpl; intuition discriminate|]. split.
  2: { vm_compute. tauto. }
  assert (MR : forall w m s cw cm kw km, In w [1; 2; 3; 4] -> In m [1; 2; 3; 4] ->
    checked_with link_env w cw kw -> checked_with link_env m cm km ->
    In s (k_waiting kw) -> In s (k_dead km) ->
    makes_ready link_env [1; 2; 3; 4] [] [1; 2; 3] None w m).
  { intros w m s cw cm kw km H1 H2 H3 H4 H5 H6. split; [|discriminate]. right.
    split; [reflexivity|]. split; [|discriminate]. exists s, cw, kw, cm, km. auto 10. }
  simpl p_waiting. simpl p_ready.
  apply lp_more with 2.
  - eapply (MR 1 2 12); simpl; try (split; reflexivity); simpl; tauto.
  - simpl; tauto.
  - apply lp_more with 3.
    + eapply (MR 2 3 13); simpl; try (split; reflexivity); simpl; tauto.
    + simpl; tauto.
    + apply lp_one. eapply (MR 3 4 14); simpl; try (split; reflexivity); simpl; tauto.
Qed.
Print Assumptions C20_links_refuted.

Example C20_example :
  exists p, compute (ex_env true DagBased) [1; 2; 3] None [] [] = Ok p /\
    p_waiter_links p = [(3, [2])] /\ p_ready_makers p = [(2, [3])].
Proof. eexists. split; [vm_compute; reflexivity|]. split; reflexivity. Qed.

(** ** C21 *)

Theorem C21_parents_children_inverse e tc last tagged flags p :
  compute e tc last tagged flags = Ok p ->
  (forall i j, In j (lget (p_parents p) i) <-> In i (lget (p_children p) j)) /\
  (forall i, In i tc -> In i (dkeys (p_parents p)) /\ In i (dkeys (p_children p))) /\
  (forall i, In i (dkeys (p_parents p)) -> In i tc).
Proof.
  intros E. destruct (report_parents _ _ _ _ _ _ E) as (A & B & C & _). auto.
Qed.
Print Assumptions C21_parents_children_inverse.

(** What is sent are recorded dependencies that still matter; with any-order flow, all of
    them. *)
Theorem C21_parents_are_dependencies e tc last tagged flags p :
  compute e tc last tagged flags = Ok p ->
  (forall i j, In j (lget (p_parents p) i) -> exists x raw c pj,
     par_edge e x i j raw /\ cell_is e i c /\ cell_is e j pj /\ relevant e c pj raw) /\
  (e_in_order e = false -> forall i j, In i tc ->
     (In j (lget (p_parents p) i) <-> exists x raw c pj,
        par_edge e x i j raw /\ cell_is e i c /\ cell_is e j pj /\ relevant e c pj raw)).
Proof.
  intros E. destruct (report_parents _ _ _ _ _ _ E) as (_ & _ & _ & A & B). split; auto.
  intros i j H. destruct (A i j H) as (x & raw & c & pj & H1 & H2 & H3 & H4 & _).
  exists x, raw, c, pj. auto.
Qed.
Print Assumptions C21_parents_are_dependencies.

Example C21_example :
  exists p, compute (ex_env true DagBased) [1; 2; 3] None [] [] = Ok p /\
    p_parents p = [(1, []); (2, [1]); (3, [2])] /\
    p_children p = [(1, [2]); (2, [3]); (3, [])].
Proof. eexists. split; [vm_compute; reflexivity|]. split; reflexivity. Qed.

(** ** C22 *)

Theorem C22_in_order e tc last tagged flags p :
  compute e tc last tagged flags = Ok p -> e_in_order e = true ->
  (* reported parents lie above *)
  (forall i j, In j (lget (p_parents p) i) ->
     exists ci cj, cell_is e i ci /\ cell_is e j cj /\ above (f_pos cj) (f_pos ci)) /\
  (* so do the cells that would unblock a waiting cell *)
  (forall w r, In w (p_waiting p) -> In r (lget (p_waiter_links p) w) ->
     exists cw cr, cell_is e w cw /\ cell_is e r cr /\ above (f_pos cr) (f_pos cw)) /\
  (* new-ready cells lie below the last executed one *)
  (forall l cl i c, last = Some l -> cell_is e l cl -> In i (p_new_ready p) ->
     cell_is e i c -> above (f_pos cl) (f_pos c)) /\
  (* a reported parent is the lowest source of some used symbol, or declared by the user *)
  (forall i j, In j (lget (p_parents p) i) ->
     exists x raw c, par_edge e x i j raw /\ cell_is e i c /\
       (still_used c raw (e_fake e) \/
        exists s, still_used c raw s /\ s_virtual (e_syms e s) = false /\
                  lowest_source e i s j)).
Proof.
  intros E O. destruct (report_parents _ _ _ _ _ _ E) as (_ & _ & _ & A & _).
  split; [|split; [|split]].
  - intros i j H. destruct (A i j H) as (x & raw & c & pj & (c' & C' & _ & _ & AB) & H2 & H3 & _).
    destruct (AB O) as (q & Q & X). eauto.
  - intros w r Hw Hr. destruct (C20_links_sound _ _ _ _ _ _ E) as (S & _).
    destruct (S w r Hw Hr) as (_ & LP). eapply link_path_above; eauto.
  - intros l cl i c L Cl Hi Hc. eapply report_new_ready; eauto.
  - intros i j H. destruct (A i j H) as (x & raw & c & pj & H1 & H2 & H3 & H4 & H5).
    exists x, raw, c. auto.
Qed.
Print Assumptions C22_in_order.

(** Two cells above define symbol 7 at the same time (cell 2 re-ran the definition of cell 1):
    only the lower one is a parent of cell 3. *)
Definition low_env : fenv :=
  mkFenv [(1, ex_cell (Fin 0) 5 []); (2, ex_cell (Fin 1) 5 []);
          (3, ex_cell (Fin 2) 3 [(1, [7]); (2, [7])])]
    ex_sym 0 [Dynamic; Static] true DagBased false (-1) 5 0 0 true.
Example C22_example :
  exists p, compute low_env [1; 2; 3] (Some 2) [] [] = Ok p /\
    p_parents p = [(1, []); (2, []); (3, [2])] /\ p_new_ready p = [3].
Proof. eexists. split; [vm_compute; reflexivity|]. split; reflexivity. Qed.

(** ** C48 *)

(** Exactly which cells are ready, for every schedule and flow direction. In particular the
    loop over the parents may stop early, and parents may be stored in any order, without
    effect on the answer. *)
Theorem C48_ready_exact e tc last tagged flags p :
  compute e tc last tagged flags = Ok p ->
  registered e -> (e_in_order e = true -> distinct_positions e) ->
  forall i, In i (p_ready p) <-> In i tc /\ needs_run e i /\ ~ In i (p_waiting p).
Proof.
  intros E R D i. destruct (report_exact _ _ _ _ _ _ E R D) as (n & A & _ & _ & C).
  rewrite C, A. tauto.
Qed.
Print Assumptions C48_ready_exact.

Theorem C48_liveness_waiting_exact e tc last tagged flags p :
  compute e tc last tagged flags = Ok p -> e_schedule e = LivenessBased ->
  forall i, In i (p_waiting p) <-> In i tc /\
    exists c k, checked_with e i c k /\ (k_waiting k <> [] \/ k_unresolved k = true).
Proof.
  intros E S i. destruct (report_live _ _ _ _ _ _ E S) as (A & _). rewrite A.
  unfold live_waits. tauto.
Qed.
Print Assumptions C48_liveness_waiting_exact.

Example C48_example :
  exists p, compute (ex_env false HybridDagLiveness) [1; 2; 3] None [] [] = Ok p /\
    p_ready p = [2] /\ p_waiting p = [3] /\ registered (ex_env false HybridDagLiveness).
Proof. eexists. split; [vm_compute; reflexivity|]. split; [reflexivity|]. split; [reflexivity|]. apply ex_registered. Qed.
