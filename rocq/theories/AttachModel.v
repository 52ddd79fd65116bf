(** Turning the capture of dataflow off and on: by the debugger, kernel/kernel.py:120-135, by [%flow on] and
    [%flow off] in a cell, line_magics.py:196-209, and what this does to the runs of cells,
    shell/interactiveshell.py:394-459, 535-620 and 676-702, and to requests for a schedule,
    comm_manager.py:136-146. The edges between cells are those of SessionModel.v. *)
Require Import List ZArith Bool Arith.
Import ListNotations.
Require Import Verif.Base Verif.SessionModel.

(** What the frontend is told: a schedule, or ["dataflow not enabled"], comm_manager.py:145-146. *)
Inductive answer := Schedule | Refused.

(** [on]: [mut_settings.dataflow_enabled]. [said]: the answers, the latest one first; a comm is open. *)
Record st := mkSt { on : bool; ss : sess; said : list answer }.
Definition start : st := mkSt true sess_init [].

Definition turn (b : bool) (t : st) : st := mkSt b (ss t) (said t).
Definition with_sess (t : st) (s : sess) : st := mkSt (on t) s (said t).

(** [handle_compute_exec_schedule], comm_manager.py:136-146. What it computes is left out. *)
Definition ask (t : st) : st := mkSt (on t) (ss t) ((if on t then Schedule else Refused) :: said t).

(** What a cell does, in this order: [Uses x pu sym]: it uses a symbol of the version [pu] of another cell;
    the checks before the run are counted among these. [Turn b]: [%flow on] or [%flow off]. *)
Inductive item := Uses (x : ctx) (pu sym : nat) | Turn (b : bool).

(** The run itself, interactiveshell.py:413-433: it is traced or not as was decided before it started, 410. *)
Definition do_item (traced : bool) (t : st) (i : item) : res st :=
  match i with
  | Uses x pu sym =>
      if traced
      then rbind (at_counter (ss t) (counter (ss t))) (fun u =>
           rmap (with_sess t) (step (ss t) (EUse x u pu sym)))
      else Ok t
  | Turn b => Ok (turn b t)
  end.

(** After the run, interactiveshell.py:448-453; [after_run_cell], 676-702, looks at the setting again, 680-681. The
    check at its end, 699-702, is left out, as are the symbols it finds dangling. *)
Definition finish (traced : bool) (t : st) : res st :=
  if traced
  then if on t then rmap (with_sess t) (step (ss t) (EFinish [])) else Ok t
  else rmap (with_sess t) (step (ss t) EUntraced).

(** [_ipyflow_run_cell], interactiveshell.py:394-459, of the cell with id [i]. *)
Definition run (i : nat) (body : list item) (t : st) : res st :=
  rbind (step (ss t) (EExec i None false)) (fun s =>
  let t := with_sess t s in
  let traced := on t in
  rbind (rfold (do_item traced) body t) (finish traced)).

(** [Attach] and [Detach]: the requests ["attach"] and ["disconnect"] of the debugger, kernel.py:123-134. *)
Inductive action := Attach | Detach | Ask | Run (i : nat) (body : list item).
Definition act (t : st) (a : action) : res st :=
  match a with
  | Attach => Ok (turn false (ask t))
  | Detach => Ok (ask (turn true t))
  | Ask => Ok (ask t)
  | Run i body => run i body t
  end.
Definition acts (l : list action) (t : st) : res st := rfold act l t.
