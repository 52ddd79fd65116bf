(** Watchpoints: the list that a symbol has, which of its members pass, and when the debugger is entered. *)
Require Import List Arith Bool.
Import ListNotations.
Require Import Verif.Base.

(** tracing/watchpoint.py:5-10. A predicate is the number of a Python function. *)
Record wp := mkWp { w_name : option nat; w_pred : option nat }.

(** The arguments of a predicate, tracing/watchpoint.py:12-14. *)
Record call := mkCall { k_obj : nat; k_position : nat * nat; k_symbol : nat }.

(** What a predicate does: it returns something true or false, or raises; and it may change the list of
    watchpoints that it is in. *)
Definition behaviour : Type := nat -> call -> list wp -> res bool * list wp.

(** tracing/watchpoint.py:12-19 *)
Definition ask (b : behaviour) (w : wp) (k : call) (l : list wp) : res bool * list wp :=
  match w_pred w with None => (Ok true, l) | Some p => b p k l end.

(** tracing/watchpoint.py:53-60; Python's iterator over a list keeps an index and looks at the list anew in
    each step. [fuel]: a predicate can make the loop endless. *)
Fixpoint passing (b : behaviour) (k : call) (fuel i : nat) (l acc : list wp) : res (list wp) * list wp :=
  match fuel with
  | 0 => (Err OutOfFuel, l)
  | S f =>
      match nth_error l i with
      | None => (Ok acc, l)
      | Some w =>
          match ask b w k l with
          | (Err e, l') => (Err e, l')
          | (Ok true, l') => passing b k f (S i) l' (acc ++ [w])
          | (Ok false, l') => passing b k f (S i) l' acc
          end
      end
  end.

(** What can be done to the list: [Watchpoints] (tracing/watchpoint.py:34-51) and what it inherits from [list].
    An anonymous [wp] in an operation stands for whatever object is put into the list. *)
Inductive act :=
| Add (pred name : option nat)
| Append (w : wp) | Extend (ws : list wp) | Plus (ws : list wp) | IPlus (ws : list wp) | RPlus (ws : list wp)
| Insert (i : nat) (w : wp) | IMul (n : nat) | SetItem (i : nat) (w : wp) | SetSlice (i j : nat) (ws : list wp)
| Pop (i : nat) | Wipe | Reverse.

(** None: NotImplementedError is raised. For the inherited methods Python's semantics for indices within the list;
    an index outside leaves the list unchanged here (Python raises, or clips it). *)
Definition perform (a : act) (l : list wp) : option (list wp) :=
  match a with
  | Add pred name => Some (l ++ [mkWp name pred])
  | Append _ | Extend _ | Plus _ | IPlus _ | RPlus _ => None
  | Insert i w => Some (firstn i l ++ w :: skipn i l)
  | IMul n => Some (concat (repeat l n))
  | SetItem i w => Some (lset l i w)
  | SetSlice i j ws => Some (firstn i l ++ ws ++ skipn (max i j) l)
  | Pop i => Some (firstn i l ++ skipn (S i) l)
  | Wipe => Some []
  | Reverse => Some (rev l)
  end.

(** * When the debugger is entered *)

(** Watchpoints of each symbol; flow.py:198; the statements that are finished (statement.py:712-715). *)
Record st := mkSt { watch : dict (list wp); active : list (list wp * nat); finished : list nat }.

(** A statement that is done: its identity, line, and the symbols that it updated, with their objects and names. *)
Record done := mkDone { d_stmt : nat; d_position : nat * nat; d_updated : list (nat * nat * nat) }.

Definition watch_of (y : nat) (s : st) : list wp := match dget (watch s) y with Some l => l | None => [] end.

(** One step of statement.py:722-732. *)
Definition check (b : behaviour) (fuel : nat) (pos : nat * nat) (s : st) (u : nat * nat * nat) : res unit * st :=
  let '(y, obj, nm) := u in
  match passing b (mkCall obj pos nm) fuel 0 (watch_of y s) [] with
  | (Ok ws, l) =>
      (Ok tt, mkSt (dset (watch s) y l) (active s ++ match ws with [] => [] | _ => [(ws, y)] end) (finished s))
  | (Err e, l) => (Err e, mkSt (dset (watch s) y l) (active s) (finished s))
  end.
Fixpoint checks (b : behaviour) (fuel : nat) (pos : nat * nat) (us : list (nat * nat * nat)) (s : st) : res unit * st :=
  match us with
  | [] => (Ok tt, s)
  | u :: us => match check b fuel pos s u with (Ok _, s') => checks b fuel pos us s' | (Err e, s') => (Err e, s') end
  end.

(** statement.py:717-733 as it is reached from tracing/ipyflow_tracer.py:1501-1527: a finished statement is not looked
    at again; otherwise, the watchpoints are checked, and the debugger is entered if there are active ones, with what
    is then active. None: it is not entered. Dependencies (720) are handled in other parts of the model. *)
Definition after_stmt (b : behaviour) (fuel : nat) (d : done) (s : st) : res (option (list (list wp * nat))) * st :=
  if memb (d_stmt d) (finished s) then (Ok None, s)
  else
    match checks b fuel (d_position d) (d_updated d) s with
    | (Err e, s') => (Err e, s')
    | (Ok _, s') =>
        let s' := mkSt (watch s') (active s') (sadd (d_stmt d) (finished s')) in
        match active s' with
        | [] => (Ok None, s')
        | a => (Ok (Some a), mkSt (watch s') [] (finished s'))
        end
    end.
