(** Model of running cells under the tracker: what a cell does to variables, and the
    dependency edges that are recorded meanwhile. *)
Require Import List ZArith Bool Arith.
Import ListNotations.
Require Import Verif.Base Verif.SessionModel.

(** The code of a cell (or of a statement), as far as variables are concerned: it reads a
    variable and goes on depending on the value ([None]: the variable is undefined), or
    writes one. Deterministic. Simplification: variables hold plain values, so there is no
    aliasing and no mutation through a reference. *)
Inductive prog :=
| Ret
| Rd (x : nat) (k : option Z -> prog)
| Wr (x : nat) (v : Z) (p : prog).

Inductive act := ARd (x : nat) (v : option Z) | AWr (x : nat) (v : Z).

Definition store := nat -> option Z.
Definition empty : store := fun _ => None.
Definition upd (st : store) (x : nat) (v : Z) : store :=
  fun y => if Nat.eqb y x then Some v else st y.

(** Plain Python execution, without the tracker. *)
Fixpoint eval (st : store) (p : prog) : store * list act :=
  match p with
  | Ret => (st, [])
  | Rd x k => let r := eval st (k (st x)) in (fst r, ARd x (st x) :: snd r)
  | Wr x v p => let r := eval (upd st x v) p in (fst r, AWr x v :: snd r)
  end.

(** The tracker's state: the session (SessionModel.v), the variables, and for every
    variable the execution of its latest update ([max(sym.updated_timestamps)],
    symbol.py:225-230, 1353-1354, as a cell execution). *)
Record tstate := mkT { t_sess : sess; t_store : store; t_last : nat -> option nat }.

Definition t_init : tstate := mkT sess_init empty (fun _ => None).

(** A load event: symbol.py:1282-1297, [update_usage_info] with [is_static=False], takes
    the latest update (the loop stops after the first initialized timestamp) and calls
    [add_data_dep] (symbol.py:1240-1257). Simplification: within one cell
    [updated_time < used_time] is taken to hold, i.e. every access is its own statement. *)
Definition load (t : tstate) (u x : nat) : res tstate :=
  match t_last t x with
  | None => Ok t
  | Some w => rmap (fun s => mkT s (t_store t) (t_last t)) (step (t_sess t) (EUse Dynamic u w x))
  end.

(** A store event: symbol.py:1343-1356, [refresh]. *)
Definition save (t : tstate) (u x : nat) (v : Z) : tstate :=
  mkT (t_sess t) (upd (t_store t) x v)
      (fun y => if Nat.eqb y x then Some u else t_last t y).

Fixpoint exec (t : tstate) (u : nat) (p : prog) : res (tstate * list act) :=
  match p with
  | Ret => Ok (t, [])
  | Rd x k =>
      rbind (load t u x) (fun t' =>
        rmap (fun r => (fst r, ARd x (t_store t x) :: snd r)) (exec t' u (k (t_store t x))))
  | Wr x v p =>
      rmap (fun r => (fst r, AWr x v :: snd r)) (exec (save t u x v) u p)
  end.

(** interactiveshell.py:535-700 for one traced run: create the version, run the code,
    remove stale edges. *)
Definition exec_cell (t : tstate) (c : nat * prog) : res (tstate * list act) :=
  rbind (step (t_sess t) (EExec (fst c) None false)) (fun s =>
  rbind (at_counter s (counter s)) (fun u =>
  rbind (exec (mkT s (t_store t) (t_last t)) u (snd c)) (fun r =>
  rbind (step (t_sess (fst r)) (EFinish [])) (fun s' =>
    Ok (mkT s' (t_store (fst r)) (t_last (fst r)), snd r))))).

(** A notebook session: cells in the order of execution, each with the code that it had. *)
Fixpoint exec_cells (t : tstate) (l : list (nat * prog)) : res (tstate * list (list act)) :=
  match l with
  | [] => Ok (t, [])
  | c :: l' =>
      rbind (exec_cell t c) (fun r =>
        rmap (fun q => (fst q, snd r :: snd q)) (exec_cells (fst r) l'))
  end.

Definition session_of (l : list (nat * prog)) : res sess :=
  rmap (fun r => t_sess (fst r)) (exec_cells t_init l).
