(** Model of a reactive round in the frontend: the handler of [compute_exec_schedule]
    messages, frontend/labextension/src/index.ts:804-1003. *)
Require Import List Bool Arith.
Import ListNotations.
Require Import Verif.Base Verif.StoreModel.

Inductive mode := Batch | Incremental | OtherMode.

(** A cell as [notebook.widgets] shows it: its id, whether it is a code cell, and its
    [executionCount]. *)
Record widget := mkWidget { w_id : nat; w_code : bool; w_count : option nat }.

(** One message. [m_store] stands for all that is copied from it into the state and read by the
    closure computations (index.ts:805-860), with the notebook's cells at the time.
    [m_reactive]: the execution mode is 'reactive'. It is sent twice, as [exec_mode] and within
    [settings] (comm_manager.py:197-208), from the same variable; here it is one.
    [m_strict]: [flow_order === 'in_order' || exec_schedule === 'strict'].
    [m_last]: [last_executed_cell_id], null if nothing ran. *)
Record msg := mkMsg {
  m_store : store;
  m_widgets : list widget;
  m_forced : list nat;
  m_cascading : list nat;
  m_new : list nat;
  m_reactive : bool;
  m_reporting : bool;
  m_mode : mode;
  m_strict : bool;
  m_last : option nat;
  m_error : bool
}.

(** The part of [IpyflowSessionState] that belongs to the round, store.ts:46-54, and
    [deferredCells], index.ts:252. [r_done]: [executedReactiveReadyCells]; [r_active]:
    [isReactivelyExecuting]. *)
Record round := mkRound {
  r_done : list nat;
  r_new : list nat;
  r_forced : list nat;
  r_cascading : list nat;
  r_bumps : nat;
  r_active : bool;
  r_alts : nat;
  r_deferred : list nat
}.

(** What the handler does besides changing the state: the cells given to [executeCells], and, if
    the round ends, whether [reactivity_cleanup] is sent. *)
Record action := mkAction { a_run : list nat; a_closed : bool; a_cleanup : bool }.

(** index.ts:827-873: what is merged into the state before anything else is decided. *)
Definition absorb (r : round) (m : msg) : round :=
  mkRound
    (match m_last m with Some x => sadd x (r_done r) | None => r_done r end)
    (if m_reactive m then supd (r_new r) (m_new m) else [])
    (if Nat.eqb (r_bumps r) 0 then supd (r_forced r) (m_forced m) else [])
    (if Nat.eqb (r_bumps r) 0 then supd (r_cascading r) (m_cascading m) else [])
    (r_bumps r)
    (r_active r || m_reporting m || m_reactive m)%bool
    (r_alts r)
    (r_deferred r).

(** [.filter((id) => !done.has(id))] *)
Definition fresh (done l : list nat) : list nat := filter (fun x => negb (memb x done)) l.

(** index.ts:889-923: the cells to run in batch mode. *)
Definition batch_cells (fuel : nat) (r : round) (m : msg) : res (list nat) :=
  let S := m_store m in
  rbind (closure_cells S fuel (fresh (r_done r) (r_cascading r)) true false) (fun cascade =>
    if m_reactive m then
      rmap (fresh (r_done r))
        (closure_cells S fuel (fresh (r_done r) (r_new r ++ r_forced r ++ cascade)) true false)
    else
      Ok (sort_by (dget (s_order S))
            (filter (fun x => negb (memb x (r_done r)) && dhas (s_cells S) x && dhas (s_order S) x)%bool
               (r_forced r ++ cascade)))).

(** index.ts:937-975: the cell to run in incremental mode. [seen]: [lastExecutedCellIdSeen];
    [pending]: [cellPendingExecution]. Comparing with a null count is comparing with 0. The
    second result says whether the loop is left ([break]). *)
Definition one_widget (r : round) (m : msg) (pending : option widget) (w : widget)
    : option widget * bool :=
  if (negb (w_code w) || memb (w_id w) (r_done r))%bool then (pending, false)
  else if (negb (memb (w_id w) (r_forced r)) &&
           (negb (memb (w_id w) (r_new r)) || negb (m_reactive m)))%bool then (pending, false)
  else match pending with
       | None => (Some w, m_strict m)
       | Some p =>
           match w_count w with
           | None => (pending, false)
           | Some n => (if Nat.ltb n (match w_count p with Some k => k | None => 0 end)
                        then Some w else pending, false)
           end
       end.

Fixpoint pick (r : round) (m : msg) (seen : bool) (pending : option widget) (ws : list widget)
    : option widget :=
  match ws with
  | [] => pending
  | w :: ws =>
      let seen' := (seen || match m_last m with Some x => Nat.eqb (w_id w) x | None => false end)%bool in
      if (negb seen && m_strict m)%bool then pick r m seen' pending ws
      else let '(p, stop) := one_widget r m pending w in
           if stop then p else pick r m seen' p ws
  end.

(** index.ts:981-1001. [numAltModeExecutes] counts down; the toggling of the mode and the
    highlighting of the cells that ran are left out. *)
Definition close (r : round) : round * action :=
  (mkRound [] [] [] [] (r_bumps r - 1) false (r_alts r - 1) (r_deferred r),
   mkAction [] true (r_active r)).

(** index.ts:874-1003. In the deferred branch, [executeClosure] and [executeCells] differ in
    the mode: store.ts:115-122; index.ts:874-882. *)
Definition on_message (fuel : nat) (r0 : round) (m : msg) : res (round * action) :=
  let r := absorb r0 m in
  match r_deferred r with
  | _ :: _ =>
      rmap (fun l => (mkRound (r_done r) (r_new r) (r_forced r) (r_cascading r) (r_bumps r)
                        (r_active r) (r_alts r) [], mkAction l false false))
        (match m_reactive m, m_mode m with
         | true, Batch => closure_cells (m_store m) fuel (r_deferred r) true false
         | _, _ => Ok (r_deferred r)
         end)
  | [] =>
      if m_error m then Ok (close r)
      else match m_mode m with
           | Batch =>
               rmap (fun l =>
                 if is_nil l then close r
                 else (mkRound (supd (r_done r) l) (r_new r) (r_forced r) (r_cascading r) (r_bumps r)
                         true (r_alts r) [], mkAction l false false))
                 (batch_cells fuel r m)
           | Incremental =>
               Ok (match pick r m false None (m_widgets m) with
                   | None => close r
                   | Some w => (mkRound (r_done r) (r_new r) (r_forced r) (r_cascading r) (r_bumps r)
                                  true (r_alts r) [], mkAction [w_id w] false false)
                   end)
           | OtherMode => Ok (r, mkAction [] false false)
           end
  end.

(** store.ts:104-110: all cells given to [executeCells] have finished. *)
Definition on_finished (r : round) : round :=
  mkRound (r_done r) (r_new r) (r_forced r) (r_cascading r) (r_bumps r) false (r_alts r) (r_deferred r).

(** A round: messages until one closes it; before each message but the first, the cells that were
    submitted have finished, or not yet ([bool]). The lists that were submitted, and the end. *)
Fixpoint run_round (fuel : nat) (r : round) (ms : list (bool * msg))
    : res (round * list (list nat) * option action) :=
  match ms with
  | [] => Ok (r, [], None)
  | (finished, m) :: ms =>
      rbind (on_message fuel (if finished then on_finished r else r) m) (fun x =>
        let '(r', a) := x in
        if a_closed a then Ok (r', [], Some a)
        else rmap (fun y => let '(r'', ls, e) := y in (r'', a_run a :: ls, e))
               (run_round fuel r' ms))
  end.
