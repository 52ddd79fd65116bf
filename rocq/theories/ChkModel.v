(** Type checking of cells: the cached verdict of a cell, core/ipyflow/data_model/cell.py
    877-931, and what discards it, core/ipyflow/data_model/symbol.py 711-735.

    Modelled with [mark_typecheck_failures_unsafe] set; without it the verdict is
    [True] from the start (cell.py 128-130) and nothing is checked.  The type
    checker is a function of the program it is given.  What is live in a cell is
    given with each check. *)

From Coq Require Import List Bool Arith.
From Verif Require Import Base.
Import ListNotations.

(** What the outside supplies: [type(obj)], the annotation string made for a value
    (symbol.py 597-601), the top level symbol a symbol belongs to
    ([get_top_level]; [None] if there is none), and the verdict of [mypy] on
    declarations and cell contents (cell.py 917). *)
Record outside := mkOutside {
  kind : nat -> nat;
  text : nat -> nat;
  top : nat -> option nat;
  mypy : list (nat * nat) -> list nat -> bool }.

(** cell.py 95-130: what of a [Cell] matters here: id, contents, the cached
    verdict, and whether [override_live_refs] is set. *)
Record cell := mkCell { cid : nat; content : nat; verdict : option bool; override : bool }.

(** symbol.py 133, 178-179, 238: the object, the type cached with it, and the
    cells the symbol is live in (by counter; deep and shallow ones together). *)
Record sym := mkSym { obj : nat; ckind : option nat; where_live : list nat }.

Record state := mkState {
  cells : dict cell;           (* by counter *)
  current : dict nat;          (* counter of the current cell of an id *)
  syms : dict sym }.

(** cell.py 927-928: [invalidate_typecheck_result]. *)
Definition invalidate (cs : dict cell) (ctr : nat) : dict cell :=
  match dget cs ctr with
  | Some c => dset cs ctr (mkCell (cid c) (content c) None (override c))
  | None => cs
  end.

(** symbol.py 711-735, 758-759, 812-817: [update_obj_ref], the part that concerns
    cells, and [_refresh_cached_obj]. *)
Definition update_obj_ref (O : outside) (x : nat) (v : nat) (refresh : bool) (S : state)
  : res state :=
  match dget (syms S) x with
  | None => Err KeyError
  | Some s =>
      let same := match ckind s with Some k => k =? kind O v | None => false end in
      let cs := if same then cells S else fold_left invalidate (where_live s) (cells S) in
      let k := if refresh then Some (kind O v) else ckind s in
      Ok (mkState cs (current S) (dset (syms S) x (mkSym v k [])))
  end.

(** cell.py 363-417: a run of a cell makes a new [Cell]; its verdict is open. *)
Definition run_cell (ctr id txt : nat) (S : state) : state :=
  mkState (dset (cells S) ctr (mkCell id txt None false)) (dset (current S) id ctr) (syms S).

(** comm_manager.py 250: the contents of the current cell of an id are replaced. *)
Definition edit (id txt : nat) (S : state) : res state :=
  match dget (current S) id with
  | None => Ok S
  | Some ctr =>
      match dget (cells S) ctr with
      | None => Err KeyError
      | Some c =>
          Ok (mkState (dset (cells S) ctr (mkCell (cid c) txt (verdict c) (override c)))
                (current S) (syms S))
      end
  end.

(** [sorted] on counters (cell.py 886). *)
Fixpoint insert (n : nat) (l : list nat) : list nat :=
  match l with
  | [] => [n]
  | m :: r => if n <? m then n :: l else if n =? m then l else m :: insert n r
  end.

(** cell.py 687-690: [is_current_for_id]. *)
Definition is_current (S : state) (ctr : nat) : res bool :=
  match dget (cells S) ctr with
  | None => Err KeyError
  | Some c => Ok (match dget (current S) (cid c) with Some n => n =? ctr | None => false end)
  end.

(** cell.py 882-886: the counters of the cells that are put together. *)
Definition slice_ctrs (S : state) (ctr : nat) (live_ctrs : list nat) : res (list nat) :=
  rfold (fun acc n => rmap (fun b : bool => if b then insert n acc else acc) (is_current S n))
    live_ctrs [ctr].

(** cell.py 887-896: the top level symbols of what is live, each once, with the
    strings of their types. *)
Fixpoint tops (O : outside) (live : list nat) : list nat :=
  match live with
  | [] => []
  | x :: r =>
      match top O x with Some t => sadd t (tops O r) | None => tops O r end
  end.

Definition declare (O : outside) (S : state) (x : nat) : res (nat * nat) :=
  rmap (fun s => (x, text O (obj s))) (of_option KeyError (dget (syms S) x)).

(** [map] of a function that may raise. *)
Fixpoint rmapm {A B} (f : A -> res B) (l : list A) : res (list B) :=
  match l with
  | [] => Ok []
  | x :: r => rbind (f x) (fun y => rmap (cons y) (rmapm f r))
  end.

(** cell.py 877-900: [_build_typecheck_slice], in two parts: the declarations and
    the contents of the cells. *)
Definition build (O : outside) (S : state) (ctr : nat) (live live_ctrs : list nat)
  : res (list (nat * nat) * list nat) :=
  rbind (rmapm (declare O S) (tops O live)) (fun decls =>
  rbind (slice_ctrs S ctr live_ctrs) (fun ctrs =>
  rmap (fun cs => (decls, cs))
    (rmapm (fun n => rmap content (of_option KeyError (dget (cells S) n))) ctrs))).

(** cell.py 902-921: [_typechecks]: the verdict and the state with it cached. *)
Definition typechecks (O : outside) (ctr : nat) (live live_ctrs : list nat) (S : state)
  : res (bool * state) :=
  match dget (cells S) ctr with
  | None => Err KeyError
  | Some c =>
      match verdict c with
      | Some b => Ok (b, S)
      | None =>
          if override c then Ok (true, S)
          else rmap (fun '(decls, cs) =>
                 let b := mypy O decls cs in
                 (b, mkState (dset (cells S) ctr (mkCell (cid c) (content c) (Some b) false))
                       (current S) (syms S)))
                 (build O S ctr live live_ctrs)
      end
  end.

(** cell.py 850-855: the cell is noted with everything live in it. *)
Definition note_live (ctr : nat) (S : state) (x : nat) : res state :=
  match dget (syms S) x with
  | None => Err KeyError
  | Some s =>
      Ok (mkState (cells S) (current S)
            (dset (syms S) x (mkSym (obj s) (ckind s) (sadd ctr (where_live s)))))
  end.

(** cell.py 811-865: [check_and_resolve_symbols], as far as types go. *)
Definition check (O : outside) (ctr : nat) (live live_ctrs : list nat) (S : state)
  : res (bool * state) :=
  rbind (rfold (note_live ctr) live S) (typechecks O ctr live live_ctrs).

(** What may happen between two checks of a cell. *)
Inductive event :=
| ERun (ctr id txt : nat)
| EEdit (id txt : nat)
| EUpdate (x v : nat) (refresh : bool)
| ECheck (ctr : nat) (live live_ctrs : list nat).

Definition step (O : outside) (S : state) (e : event) : res state :=
  match e with
  | ERun ctr id txt => Ok (run_cell ctr id txt S)
  | EEdit id txt => edit id txt S
  | EUpdate x v refresh => update_obj_ref O x v refresh S
  | ECheck ctr live live_ctrs => rmap snd (check O ctr live live_ctrs S)
  end.

Definition history (O : outside) (es : list event) (S : state) : res state := rfold (step O) es S.
