(** Model of the kind of a symbol and of the function body that is followed when
    it is called: [core/ipyflow/data_model/scope.py] lines 194-229
    ([_resolve_symbol_type]), 284-330 and 369-453 ([upsert_symbol_for_name],
    [_upsert_symbol_for_name_inner], [delete_symbol_for_name]),
    [core/ipyflow/data_model/symbol.py] lines 137-141, 796-811
    ([update_stmt_node]), 1032-1035, 1048 and 1119-1122 (in [update_deps]), and
    [core/ipyflow/tracing/ipyflow_tracer.py] lines 1424-1446 ([after_lambda]).

    Names (with whether they are subscripts), objects and function definitions are
    numbers; one scope.  Left out:
    dependencies as edges, timestamps, namespaces, class instances. *)
From Coq Require Import List Arith Bool.
From Verif Require Import Base.
Import ListNotations.

(** symbol.py 86-93. *)
Inductive kind := Default | Subscript | Function | Class | Import | Module | Anonymous.

Definition kind_eqb (a b : kind) : bool :=
  match a, b with
  | Default, Default | Subscript, Subscript | Function, Function | Class, Class
  | Import, Import | Module, Module | Anonymous, Anonymous => true
  | _, _ => false
  end.

(** [body]: the definition or lambda that [func_def_stmt] is; [None] also if it
    is another statement, as it is not followed then (live_refs.py 594-598).
    [scoped]: there is a [call_scope]. *)
Record sym := mkSym { knd : kind; obj : nat; body : option nat; scoped : bool }.

Definition st : Type := dict sym.

(** symbol.py 796-811: [update_stmt_node] for a statement that defines [d], or
    another one. *)
Definition update_stmt_node (d : option nat) (y : sym) : sym :=
  match knd y with
  | Function => mkSym (knd y) (obj y) d true
  | _ => y
  end.

(** symbol.py 1119-1122: the body of a dependency with the same object. *)
Definition take (s : st) (x : nat) (deps : list nat) (y : sym) : sym :=
  fold_left (fun y z =>
    if z =? x then y   (* 1048: [new_deps.discard(self)] *)
    else match dget s z with
         | Some q => if (obj q =? obj y) && scoped q then mkSym (knd y) (obj y) (body q) true else y
         | None => y
         end) deps y.

(** scope.py 284-330, 369-443.  [k]: the kind asked for. *)
Definition upsert (s : st) (x : nat) (k : kind) (o : nat) (d : option nat) (deps : list nat) : st :=
  match dget s x with
  | Some p =>
      let k1 := if kind_eqb (knd p) Module || kind_eqb k Import then knd p else k in
      let y := update_stmt_node d (mkSym k1 o (body p) (scoped p)) in
      dset s x (if kind_eqb k1 Import && (obj p =? o) then y else take s x deps y)
  | None => dset s x (take s x deps (update_stmt_node d (mkSym k o None false)))
  end.

(** What a program does.  [Def]: a function definition, or a lambda with its own
    name for the symbol. *)
Inductive event :=
| Def (x d o : nat) (deps : list nat)
| DefClass (x o : nat)
| ImportName (x o : nat)
| MakeModule (x o : nat)
| Assign (sub : bool) (x o : nat) (deps : list nat)
| Del (x : nat).

(** scope.py 194-229, and the calls in statement.py 640-660 and ipyflow_tracer.py
    748-762.  [modobj]: the object is a module. *)
Definition kind_of (modobj : nat -> bool) (e : event) : option (nat * kind) :=
  match e with
  | Def x _ _ _ => Some (x, Function)
  | DefClass x _ => Some (x, Class)
  | ImportName x _ => Some (x, Import)
  | MakeModule x _ => Some (x, Module)
  | Assign sub x o _ =>
      Some (x, if sub then Subscript else if modobj o then Module else Default)
  | Del _ => None
  end.

Definition step (modobj : nat -> bool) (s : st) (e : event) : st :=
  match kind_of modobj e, e with
  | Some (_, k), Def x d o deps => upsert s x k o (Some d) deps
  | Some (_, k), DefClass x o => upsert s x k o None []
  | Some (_, k), ImportName x o => upsert s x k o None []
  | Some (_, k), MakeModule x o => upsert s x k o None []
  | Some (_, k), Assign _ x o deps => upsert s x k o None deps
  | None, Del x => ddel s x
  | _, _ => s
  end.

Definition run (modobj : nat -> bool) (h : list event) : st := fold_left (step modobj) h [].

(** live_refs.py 592-606: the body whose names count as used when [x] is
    called. *)
Definition followed (s : st) (x : nat) : option nat :=
  match dget s x with Some y => body y | None => None end.
