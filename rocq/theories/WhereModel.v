(** Which cell last updated a symbol: [handle_get_last_updated_cell_id], comm_manager.py:408-421, and telling the
    kernel that a variable was set, [handle_upsert_symbol], comm_manager.py:376-396. Cells are those of
    SessionModel.v; names and objects are numbers. *)
Require Import List ZArith Bool Arith.
Import ListNotations.
Require Import Verif.Base Verif.SessionModel.

(** [globals]: [shell().user_global_ns]. [syms]: the symbols of [flow.global_scope], each with its object and the cell
    number of its timestamp, data_model/symbol.py:316-321; that of a symbol with a namespace is the latest one of its
    members, so an update of a member counts as one of the symbol. *)
Record st := mkSt { ss : sess; globals : dict nat; syms : dict (nat * Z) }.
Definition start : st := mkSt sess_init [] [].

(** [Timestamp.current().cell_num], timestamp.py:41-50, while the offset of cells is zero, as in
    [handle_upsert_symbol], which only moves that of statements, comm_manager.py:392. *)
Definition now (t : st) : Z := counter (ss t).

(** [handle_upsert_symbol], comm_manager.py:376-396: the dependencies are left out. [false] is
    [{"success": False}]. *)
Definition upsert (t : st) (x : nat) : st * bool :=
  match dget (globals t) x with
  | None => (t, false)
  | Some o =>
      let put := (mkSt (ss t) (globals t) (dset (syms t) x (o, now t)), true) in
      match dget (syms t) x with
      | Some (o', _) => if Nat.eqb o' o then (t, false) else put
      | None => put
      end
  end.

(** [handle_get_last_updated_cell_id], comm_manager.py:408-421: [None] is [{"success": False}]. [at_timestamp] of cells
    takes the cell number, cell.py:509-516. *)
Definition last_updated (t : st) (x : nat) : option nat :=
  match dget (syms t) x with
  | None => None
  | Some (_, k) =>
      match rbind (at_counter (ss t) k) (obj (ss t)) with
      | Ok c => Some (c_id c)
      | Err _ => None
      end
  end.

(** [Event e]: of the session. [Assign x o], [Del x]: a traced statement assigns or deletes a global variable.
    [Put x o]: it is set by code that is not traced. [Upsert x]: the request. *)
Inductive op := Event (e : event) | Assign (x o : nat) | Del (x : nat) | Put (x o : nat) | Upsert (x : nat).

Definition does (t : st) (a : op) : res st :=
  match a with
  | Event e => rmap (fun s => mkSt s (globals t) (syms t)) (step (ss t) e)
  | Assign x o => Ok (mkSt (ss t) (dset (globals t) x o) (dset (syms t) x (o, now t)))
  | Del x => Ok (mkSt (ss t) (ddel (globals t) x) (ddel (syms t) x))
  | Put x o => Ok (mkSt (ss t) (dset (globals t) x o) (syms t))
  | Upsert x => Ok (fst (upsert t x))
  end.
