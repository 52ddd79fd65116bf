(** Debounced requests for a schedule: calls on the main thread, timers on threads of their own. *)
Require Import List Arith Bool.
Import ListNotations.
Require Import Verif.Base.

(** Where the thread of a [threading.Timer] is (Python's [Timer.run]: wait for the interval or for [finished]; if it
    is not [finished], call the function; set [finished]).
    [Running]: the function symbol.py:64-83 was called; it has read the setting once there is a value.
    [Leaving]: the function has left its [finally], and [finished] is not set yet. *)
Inductive phase := Waiting | Woken | Running (saved : option nat) | Leaving | Over.
Record timer := mkT { t_arg : nat; t_deadline : nat; t_phase : phase; t_fin : bool }.

(** Where the main thread is in [debounced] (utils/misc_utils.py:33-43) and its caller (symbol.py:1223-1227). *)
Inductive main := Idle | Asked (ret : bool) (a : nat) | Ready (ret : bool) (a : nat) | Started (ret : bool).

(** What happened, with the time. Not part of the program. *)
Inductive event := EStart (i a time : nat) | ECancel (i time : nat) | EFire (i a time : nat) | EReturn (i : nat) (ret : bool).

(** [current] is [debounced.t]; [pending] is comm_manager.py:39; [sched] is the setting [exec_schedule]
    (0: DAG_BASED, 1: HYBRID_DAG_LIVENESS_BASED, others: other schedules). *)
Record st := mkSt { now : nat; timers : list timer; current : option nat; at_ : main; pending : bool; sched : nat; log : list event }.

(** Steps of the two kinds of threads, in any order; and time. *)
Inductive label :=
| Tick
| Call (a : nat) | Cancel | Start | Return
| Wake (i : nat) | Test (i : nat) | Enter (i : nat) | Leave (i : nat) | SetFinished (i : nat) (ok : bool).

Definition set_timer (i : nat) (x : timer) (s : st) : st :=
  mkSt (now s) (lset (timers s) i x) (current s) (at_ s) (pending s) (sched s) (log s).
Definition with_phase (p : phase) (x : timer) : timer := mkT (t_arg x) (t_deadline x) p (t_fin x).
Definition with_fin (x : timer) : timer := mkT (t_arg x) (t_deadline x) (t_phase x) true.
Definition with_main (m : main) (s : st) : st := mkSt (now s) (timers s) (current s) m (pending s) (sched s) (log s).
Definition with_log (e : event) (s : st) : st := mkSt (now s) (timers s) (current s) (at_ s) (pending s) (sched s) (log s ++ [e]).

(** None: the step is not possible in that state. [w]: the delay. *)
Definition step (w : nat) (l : label) (s : st) : option st :=
  match l with
  | Tick => Some (mkSt (S (now s)) (timers s) (current s) (at_ s) (pending s) (sched s) (log s))
  | Call a => (* misc_utils.py:36-40 up to the call of cancel; no attribute [t] yet: AttributeError *)
      match at_ s, current s with
      | Idle, None => Some (with_main (Ready true a) s)
      | Idle, Some i => match nth_error (timers s) i with
                        | Some x => Some (with_main (Asked (t_fin x) a) s)
                        | None => None end
      | _, _ => None
      end
  | Cancel => (* misc_utils.py:38 *)
      match at_ s, current s with
      | Asked ret a, Some i => match nth_error (timers s) i with
                               | Some x => Some (with_log (ECancel i (now s)) (with_main (Ready ret a) (set_timer i (with_fin x) s)))
                               | None => None end
      | _, _ => None
      end
  | Start => (* misc_utils.py:41-42 *)
      match at_ s with
      | Ready ret a =>
          Some (mkSt (now s) (timers s ++ [mkT a (now s + w) Waiting false]) (Some (length (timers s))) (Started ret)
                     (pending s) (sched s) (log s ++ [EStart (length (timers s)) a (now s)]))
      | _ => None
      end
  | Return => (* misc_utils.py:43, symbol.py:1224-1227 *)
      match at_ s with
      | Started ret => Some (mkSt (now s) (timers s) (current s) Idle (if ret then true else pending s) (sched s)
                                  (log s ++ [EReturn (length (timers s) - 1) ret]))
      | _ => None
      end
  | Wake i =>
      match nth_error (timers s) i with
      | Some x => match t_phase x with
                  | Waiting => if t_fin x || (t_deadline x <=? now s) then Some (set_timer i (with_phase Woken x) s) else None
                  | _ => None end
      | None => None
      end
  | Test i =>
      match nth_error (timers s) i with
      | Some x => match t_phase x with
                  | Woken => if t_fin x then Some (set_timer i (with_phase Over x) s)
                             else Some (with_log (EFire i (t_arg x) (now s)) (set_timer i (with_phase (Running None) x) s))
                  | _ => None end
      | None => None
      end
  | Enter i => (* symbol.py:66-71 *)
      match nth_error (timers s) i with
      | Some x => match t_phase x with
                  | Running None =>
                      let s' := set_timer i (with_phase (Running (Some (sched s))) x) s in
                      Some (mkSt (now s') (timers s') (current s') (at_ s') (pending s')
                                 (if sched s =? 0 then 1 else sched s) (log s'))
                  | _ => None end
      | None => None
      end
  | Leave i => (* symbol.py:81-83, however the computation (72-80) ended *)
      match nth_error (timers s) i with
      | Some x => match t_phase x with
                  | Running (Some b) =>
                      let s' := set_timer i (with_phase Leaving x) s in
                      Some (mkSt (now s') (timers s') (current s') (at_ s') false b (log s'))
                  | _ => None end
      | None => None
      end
  | SetFinished i ok => (* [ok]: the function did not raise *)
      match nth_error (timers s) i with
      | Some x => match t_phase x with
                  | Leaving => Some (set_timer i (mkT (t_arg x) (t_deadline x) Over (ok || t_fin x)) s)
                  | _ => None end
      | None => None
      end
  end.

Definition init (sc : nat) : st := mkSt 0 [] None Idle false sc [].
Fixpoint run (w : nat) (ls : list label) (s : st) : option st :=
  match ls with [] => Some s | l :: ls => match step w l s with Some s' => run w ls s' | None => None end end.
