(** Model of what is made up for when tracing was disabled in parts of a
    statement: [core/ipyflow/tracing/ipyflow_tracer.py] lines 1534-1557 and 1579
    ([_handle_skipped_sub_statements], [after_module_stmt]), 298-313
    ([after_stmt_reset_hook]) and 389-398; [core/ipyflow/data_model/symbol.py]
    lines 1404-1444 ([resync_if_necessary]);
    [core/ipyflow/shell/interactiveshell.py] lines 675-693 and
    [core/ipyflow/flow.py] lines 592-594 (the end of a cell).

    Names and objects are numbers.  Timestamps are numbers of cells.  Left out:
    dependencies, propagation, namespaces, the symbol [_], symbols of other
    scopes except the elements of lists. *)
From Coq Require Import List Arith Bool.
From Verif Require Import Base.
Import ListNotations.

(** A symbol of a global variable: its object (also the cached one), the cached
    length ([None]: no length), and the cell that updated it. *)
Record sym := mkSym { obj : nat; clen : option nat; ts : nat }.

Record st := mkSt {
  env : nat -> option nat;             (* the user's variables *)
  items : nat -> option (list nat);    (* the lists and what is in them *)
  syms : dict sym;                     (* the symbols of the global scope *)
  elems : list (nat * nat);            (* symbols of elements: list and object *)
  upd : list nat;                      (* [this_stmt_updated_symbols] *)
  off : bool                           (* [tracing_disabled_since_last_module_stmt] *)
}.

Definition with_env (s : st) e := mkSt e (items s) (syms s) (elems s) (upd s) (off s).
Definition with_items (s : st) l := mkSt (env s) l (syms s) (elems s) (upd s) (off s).
Definition with_syms (s : st) d := mkSt (env s) (items s) d (elems s) (upd s) (off s).
Definition with_elems (s : st) l := mkSt (env s) (items s) (syms s) l (upd s) (off s).
Definition with_upd (s : st) u := mkSt (env s) (items s) (syms s) (elems s) u (off s).
Definition with_off (s : st) b := mkSt (env s) (items s) (syms s) (elems s) (upd s) b.

(** symbol.py 561-568: [obj_len]. *)
Definition len (s : st) (o : nat) : option nat := option_map (@length nat) (items s o).

(** [upsert_symbol_for_name] in cell [now], as far as object, cached length and
    timestamp go. *)
Definition upsert (now : nat) (s : st) (x o : nat) : st :=
  with_syms s (dset (syms s) x (mkSym o (len s o) now)).

(** symbol.py 1414: some symbol has the object. *)
Definition aliased (s : st) (o : nat) : bool :=
  existsb (fun kv => obj (snd kv) =? o) (syms s) || existsb (fun e => snd e =? o) (elems s).

(** symbol.py 1420-1434: elements of lists with the old object are moved to the
    end of the list if it ends in the new one. [containing_obj[-1]] of an empty
    list raises. *)
Fixpoint move (s : st) (old new : nat) (es : list (nat * nat)) : res (list (nat * nat)) :=
  match es with
  | [] => Ok []
  | (c, o) :: es =>
      rbind (if o =? old then
               match items s c with
               | None => Ok (c, o)
               | Some [] => Err IndexError
               | Some l => if last l 0 =? new then Ok (c, new) else Ok (c, o)
               end
             else Ok (c, o)) (fun e =>
      rmap (cons e) (move s old new es))
  end.

(** symbol.py 1404-1444. *)
Definition resync (now : nat) (refresh : bool) (s : st) (x : nat) : res st :=
  match dget (syms s) x, env s x with
  | Some y, Some o =>
      let t := if refresh then now else ts y in
      if obj y =? o then
        if match len s o, clen y with
           | Some a, Some b => a =? b
           | None, None => true
           | _, _ => false
           end
        then Ok s
        else Ok (with_syms s (dset (syms s) x (mkSym o (len s o) t)))
      else
        rbind (if aliased s o then Ok (elems s) else move s (obj y) o (elems s)) (fun es =>
        Ok (with_syms (with_elems s es) (dset (syms s) x (mkSym o (len s o) t))))
  | _, _ => Ok s
  end.

(** ipyflow_tracer.py 1534-1553.  [live] and [dead]: the names the static analysis
    finds; longer chains are left out, they resolve to symbols that
    [resync_if_necessary] does not treat, or to the variable at their start. *)
Definition catch_up (now : nat) (live dead : list nat) (s : st) : res st :=
  rbind (rfold (fun s x => if memb x (upd s) then Ok s else resync now true s x)
               (live ++ dead) s) (fun s =>
  Ok (fold_left (fun s x =>
        match dget (syms s) x, env s x with
        | None, Some o => upsert now s x o
        | _, _ => s
        end) dead s)).

(** What happens in a statement.  [traced]: tracing is enabled. *)
Inductive event :=
| Assign (traced : bool) (x o : nat)
| Del (traced : bool) (x : nat)
| Fill (c : nat) (l : list nat)     (* a list's contents change *)
| Mutated (x : nat)                 (* and this is seen for a variable *)
| Track (c o : nat)                 (* an element gets a symbol *)
| EndStmt.                          (* a traced inner statement ends *)

(** Untraced events come after [_tracked_disable_tracing], lines 389-393. *)
Definition step (now : nat) (s : st) (e : event) : st :=
  match e with
  | Assign true x o =>
      let s := with_env s (fun y => if y =? x then Some o else env s y) in
      let s := upsert now s x o in with_upd s (x :: upd s)
  | Assign false x o =>
      with_off (with_env s (fun y => if y =? x then Some o else env s y)) true
  | Del true x =>
      with_syms (with_env s (fun y => if y =? x then None else env s y)) (ddel (syms s) x)
  | Del false x => with_off (with_env s (fun y => if y =? x then None else env s y)) true
  | Fill c l => with_items s (fun b => if b =? c then Some l else items s b)
  | Mutated x =>
      match dget (syms s) x with
      | None => s
      | Some y =>
          with_upd (with_syms s (dset (syms s) x (mkSym (obj y) (len s (obj y)) now))) (x :: upd s)
      end
  | Track c o => with_elems s ((c, o) :: elems s)
  | EndStmt => with_upd s []
  end.

(** A statement of the cell: the names in its text, and what happens. *)
Record stmt := mkStmt { live : list nat; dead : list nat; happens : list event }.

(** ipyflow_tracer.py 1555-1579. *)
Definition run_stmt (now : nat) (s : st) (t : stmt) : res st :=
  let s := fold_left (step now) (happens t) s in
  rmap (fun s => with_off s false) (if off s then catch_up now (live t) (dead t) s else Ok s).

(** interactiveshell.py 681-693. *)
Definition finish (now : nat) (s : st) : res st :=
  rfold (resync now false) (map fst (filter (fun kv => ts (snd kv) =? now) (syms s))) s.

(** Cell number [now]; if a statement raises, [rest] is what happened in it, and
    [after_module_stmt] is not called for it. *)
Definition run_cell (now : nat) (ts : list stmt) (rest : list event) (s : st) : res st :=
  rbind (rfold (run_stmt now) ts s) (fun s => finish now (fold_left (step now) rest s)).
