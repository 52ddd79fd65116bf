(** Specification vocabulary for C17-C22 and C48. *)
Require Import List ZArith.
Import ListNotations.
Require Import Verif.Base Verif.TimestampModel Verif.SessionModel Verif.PosModel
  Verif.PosSpec Verif.FrontModel.

(** [c] is the current version of cell [i]. *)
Definition cell_is (e : fenv) (i : nat) (c : fcell) : Prop := dget (e_cells e) i = Some c.

(** Cell [i] lists [j] as a parent, with symbols [syms], in the enabled context [x]; with
    in-order flow the parent must lie above. *)
Definition par_edge (e : fenv) (x : ctx) (i j : nat) (syms : list nat) : Prop :=
  exists c, cell_is e i c /\ In x (e_ctxs e) /\ In (j, syms) (f_par c x) /\
    (e_in_order e = true -> exists p, cell_is e j p /\ above (f_pos p) (f_pos c)).

Definition parent (e : fenv) (i j : nat) : Prop := exists x syms, par_edge e x i j syms.

(** The least set of waiting cells: those waiting at the start, and every checked cell one of
    whose parents needs to run or is itself waiting. *)
Inductive must_wait (e : fenv) (checked ready0 waiting0 : list nat) : nat -> Prop :=
| mw_start i : In i waiting0 -> must_wait e checked ready0 waiting0 i
| mw_ready i j : In i checked -> parent e i j -> In j ready0 ->
    must_wait e checked ready0 waiting0 i
| mw_wait i j : In i checked -> parent e i j -> must_wait e checked ready0 waiting0 j ->
    must_wait e checked ready0 waiting0 i.

(** One or more parent steps. *)
Inductive ancestor (e : fenv) : nat -> nat -> Prop :=
| anc_one i j : parent e i j -> ancestor e i j
| anc_more i j k : parent e i j -> ancestor e j k -> ancestor e i k.

Definition acyclic (e : fenv) : Prop := forall i, ~ ancestor e i i.

(** A chain of links from [w] to [r] whose inner cells are all waiting. *)
Inductive link_path (waiting : list nat) (link : nat -> nat -> Prop) : nat -> nat -> Prop :=
| lp_one w r : link w r -> link_path waiting link w r
| lp_more w m r : link w m -> In m waiting -> link_path waiting link m r ->
    link_path waiting link w r.

(** Every Python dict and set has distinct keys / elements. *)
Definition py_sets (d : dict (list nat)) : Prop :=
  NoDup (map fst d) /\ forall k l, In (k, l) d -> NoDup l.

(** ** Checking *)

Definition checked_with (e : fenv) (i : nat) (c : fcell) (k : chk) : Prop :=
  cell_is e i c /\ f_check c = Some k.

(** The liveness schedule makes a cell wait for stale or unknown symbols. *)
Definition live_waits (e : fenv) (i : nat) : Prop :=
  e_schedule e = LivenessBased /\
  exists c k, checked_with e i c k /\ (k_waiting k <> [] \/ k_unresolved k = true).

(** All parents of registered cells are registered. *)
Definition registered (e : fenv) : Prop :=
  forall i c x j s, cell_is e i c -> In (j, s) (f_par c x) -> exists p, cell_is e j p.

(** ** Why a cell is ready (DAG schedules) *)

(** The symbols of an edge that the child's text still mentions. *)
Definition still_used (c : fcell) (raw : list nat) (s : nat) : Prop :=
  In s raw /\ ~ In s (f_removed c).

(** The parent [p] ran after [c] and (unless updates are pulled) the current value of a
    used symbol is the one it wrote; or a widget-like symbol has become visible with the
    parent's run. *)
Definition changed_since (e : fenv) (c p : fcell) (raw : list nat) : Prop :=
  ((f_ctr c < f_ctr p)%Z /\ (e_min_ts e < f_ctr p)%Z /\
   (e_pull e = true \/
    exists s, still_used c raw s /\ cell_num (s_shallow (e_syms e s)) = f_ctr p)) \/
  (exists s v, still_used c raw s /\ s_visible (e_syms e s) = Some v /\
     cell_num v = f_ctr p /\ cell_num v <> cell_num (s_shallow (e_syms e s))).

(** A user-declared edge from a cell that ran to one that never did. *)
Definition declared (e : fenv) (c p : fcell) (raw : list nat) : Prop :=
  still_used c raw (e_fake e) /\ (f_ctr c < 0)%Z /\ (0 < f_ctr p)%Z.

(** ** Links *)

(** Cell [m] can make the waiting cell [w] ready. *)
Definition makes_ready (e : fenv) (to_check ready waiting : list nat) (last : option nat)
    (w m : nat) : Prop :=
  (e_schedule e <> LivenessBased /\ parent e w m /\ (In m ready \/ In m waiting) \/
   e_schedule e = LivenessBased /\
   (exists s cw kw cm km, In w to_check /\ checked_with e w cw kw /\ In s (k_waiting kw) /\
      In m to_check /\ checked_with e m cm km /\ In s (k_dead km)) /\
   (e_in_order e = true -> exists cw cm, cell_is e w cw /\ cell_is e m cm /\
      above (f_pos cm) (f_pos cw))) /\
  last <> Some m.

(** ** Which parent supplies a symbol *)

(** Cell [i] uses symbol [s] of its parent [j]. *)
Definition uses (e : fenv) (i s j : nat) : Prop :=
  exists x raw c, par_edge e x i j raw /\ cell_is e i c /\ still_used c raw s.

(** Among the parents that supply the same version of [s], none is below [j]. *)
Definition lowest_source (e : fenv) (i s j : nat) : Prop :=
  forall s' j' p p', uses e i s' j' -> s' <> e_fake e ->
    s_shallow (e_syms e s') = s_shallow (e_syms e s) ->
    cell_is e j p -> cell_is e j' p' -> ~ above (f_pos p) (f_pos p').

(** The parent matters for what the frontend shows: some symbol is still used and not
    virtual; the parent's current text still changes one of them (when that is known); the
    parent never ran or one of them was updated by its latest run. *)
Definition relevant (e : fenv) (c p : fcell) (raw : list nat) : Prop :=
  let shown s := still_used c raw s /\ s_virtual (e_syms e s) = false in
  (exists s, shown s) /\
  (forall m, f_modified p = Some m ->
     exists s, shown s /\ ((~ In s (f_writes p)) \/ In s m)) /\
  ((f_ctr p < 0)%Z \/ exists s, shown s /\ In (f_ctr p) (s_updated (e_syms e s))).

(** Cell [i] has to run again because of a parent. *)
Definition out_of_date (e : fenv) (i : nat) : Prop :=
  exists x j raw c p, par_edge e x i j raw /\ cell_is e i c /\ cell_is e j p /\
    (declared e c p raw \/ changed_since e c p raw).

(** ... and the change is recent: since the last execution the user asked for. *)
Definition newly_out_of_date (e : fenv) (i : nat) : Prop :=
  exists x j raw c p, par_edge e x i j raw /\ cell_is e i c /\ cell_is e j p /\
    (0 < f_ctr c)%Z /\ changed_since e c p raw /\
    (e_min_new e <= f_ctr p)%Z /\ (e_counter e <= f_ctr p)%Z /\ (e_min_ts e <= f_ctr p)%Z.

(** Every other parent of [i] is above [j]. *)
Definition lowest_parent (e : fenv) (i j : nat) : Prop :=
  forall j', parent e i j' -> j' <> j ->
    exists p p', cell_is e j p /\ cell_is e j' p' /\ above (f_pos p') (f_pos p).

(** ** Exactly which cells need to run *)

(** Distinct parents of a cell never share a position. *)
Definition distinct_positions (e : fenv) : Prop :=
  forall i j j' p p', parent e i j -> parent e i j' -> cell_is e j p -> cell_is e j' p' ->
    f_pos p = f_pos p' -> j = j'.

(** With in-order flow an edge counts if its parent is the lowest source of one of the used
    symbols (user-declared edges always do) and, for edges found by static analysis, no lower
    parent supplies the same symbols. *)
Definition selected (e : fenv) (x : ctx) (i j : nat) (c p : fcell) (raw : list nat) : Prop :=
  e_in_order e = true ->
  (still_used c raw (e_fake e) \/ exists s, still_used c raw s /\ lowest_source e i s j) /\
  (x = Static -> forall j' raw' p', par_edge e x i j' raw' -> cell_is e j' p' ->
     above (f_pos p) (f_pos p') ->
     ~ In (e_fake e) raw' /\ exists s, still_used c raw s /\ ~ In s raw').

Definition stale_by_parent (e : fenv) (i : nat) (c : fcell) : Prop :=
  exists x j raw p, par_edge e x i j raw /\ cell_is e j p /\
    (declared e c p raw \/ (changed_since e c p raw /\ selected e x i j c p raw)).

(** A cell that was checked ran on older values than the newest one its text uses. *)
Definition stale_by_liveness (e : fenv) (c : fcell) (k : chk) : Prop :=
  (e_schedule e = LivenessBased \/ (e_schedule e = HybridDagLiveness /\ e_in_order e = true)) /\
  (f_ctr c < k_max_ctr k)%Z /\ (e_min_ts e < k_max_ctr k)%Z.

Definition needs_run (e : fenv) (i : nat) : Prop :=
  exists c k, checked_with e i c k /\ ~ live_waits e i /\
    (e_schedule e <> LivenessBased /\ stale_by_parent e i c \/ stale_by_liveness e c k).

(** The counter is not older than the point from which readiness counts as new. *)
Definition is_new_at (e : fenv) (z : Z) : Prop :=
  (e_min_new e <= z)%Z /\ (e_counter e <= z)%Z /\ (e_min_ts e <= z)%Z.

Definition newly_stale (e : fenv) (i : nat) (c : fcell) (k : chk) : Prop :=
  (0 < f_ctr c)%Z /\
  (e_schedule e <> LivenessBased /\
   (exists x j raw p, par_edge e x i j raw /\ cell_is e j p /\
      changed_since e c p raw /\ selected e x i j c p raw /\ is_new_at e (f_ctr p)) \/
   stale_by_liveness e c k /\ is_new_at e (k_max_ctr k)).
