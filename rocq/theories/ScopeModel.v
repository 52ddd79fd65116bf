(** Scopes and namespaces, looking names up in them, resolving references, and where stores go. *)
Require Import List Arith ZArith Bool.
Import ListNotations.
Require Import Verif.Base Verif.RefModel.
Local Open Scope nat_scope.

(** Python's [symtable] of a block of code, as far as tracing/ipyflow_tracer.py:516-536 and data_model/scope.py:101-114 ask:
    what it says of names, and the blocks (functions and classes) directly inside by name, in order. *)
Inductive decl := DLocal | DGlobal | DNonlocal.
Inductive table := Tab (decls : dict decl) (blocks : list (nat * table)).
Definition decls (t : table) : dict decl := let 'Tab d _ := t in d.
Definition blocks (t : table) : list (nat * table) := let 'Tab _ b := t in b.

(** A scope (data_model/scope.py:45-55) or a namespace (data_model/namespace.py:42-88). [parent]: [parent_scope], None for the
    global scope. [is_ns]: [is_namespace_scope]. [names]: [_symbol_by_name]; [subs]: [_subscript_symbol_by_name].
    [cloned]: [cloned_from]. [attrs]: the names in the [__dict__] of the object. [size]: the length of the object if it is a
    [Sequence]. [symtab]: the symbol table, if there is one. Names are numbers, as in the strings of RefModel. *)
Record scp := mkScope {
  parent : option nat; is_ns : bool; names : dict nat; subs : list (value * nat); cloned : option nat; attrs : list nat;
  size : option nat; symtab : option table }.
(** A symbol: the object it refers to. *)
Record symbol := mkSym { obj : nat }.
(** [namespaces]: [flow().namespaces], from object ids to namespaces. *)
Record state := mkSt { scopes : dict scp; symbols : dict symbol; namespaces : dict nat }.

Definition scope_of (st : state) (s : nat) : res scp := of_option KeyError (dget (scopes st) s).

(** non_namespace_parent_scope, data_model/scope.py:91-99. Python's bound on recursion is the fuel. *)
Fixpoint non_namespace_parent (fuel : nat) (st : state) (s : nat) : res (option nat) :=
  match fuel with
  | 0 => Err OutOfFuel
  | S fuel => rbind (scope_of st s) (fun sc =>
      match parent sc with
      | None => Ok None
      | Some p => rbind (scope_of st p) (fun pc => if is_ns pc then non_namespace_parent fuel st p else Ok (Some p))
      end)
  end.

(** [d.get(key)] *)
Fixpoint vget (d : list (value * nat)) (k : value) : option nat :=
  match d with [] => None | (k', v) :: d => if value_eqb k k' then Some v else vget d k end.
Definition int_of (v : value) : option Z :=
  match v with VOne (CInt z) => Some z | VOne (CBool b) => Some (if b then 1 else 0)%Z | _ => None end.
(** data_model/namespace.py:240-250 *)
Definition lookup_subscript (sc : scp) (v : value) : option nat :=
  match vget (subs sc) v with
  | Some y => Some y
  | None =>
      match size sc, int_of v with
      | Some n, Some z => if (z <? 0)%Z then vget (subs sc) (VOne (CInt (Z.of_nat n + z))) else None
      | _, _ => None
      end
  end.
Definition lookup_name (sc : scp) (v : value) : option nat := match v with VOne (CStr n) => dget (names sc) n | _ => None end.

(** lookup_symbol_by_name_this_indentation, data_model/scope.py:120-123 and data_model/namespace.py:252-280 with
    [is_subscript] as given ([skip_cloned_lookup] is False). *)
Fixpoint lookup_here (fuel : nat) (st : state) (s : nat) (v : value) (is_subscript : option bool) : res (option nat) :=
  match fuel with
  | 0 => Err OutOfFuel
  | S fuel => rbind (scope_of st s) (fun sc =>
      if negb (is_ns sc) then Ok (lookup_name sc v)
      else
        let ret := match is_subscript with
                   | None => match lookup_name sc v with Some y => Some y | None => lookup_subscript sc v end
                   | Some true => lookup_subscript sc v
                   | Some false => lookup_name sc v
                   end in
        match ret, cloned sc, v with
        | None, Some c, VOne (CStr n) =>
            if match is_subscript with Some true => true | _ => false end then Ok None
            else if memb n (attrs sc) then Ok None
            else lookup_here fuel st c v is_subscript
        | _, _, _ => Ok ret
        end)
  end.

(** lookup_symbol_by_name, data_model/scope.py:128-134 and data_model/namespace.py:282-285 *)
Fixpoint lookup (fuel : nat) (st : state) (s : nat) (v : value) : res (option nat) :=
  match fuel with
  | 0 => Err OutOfFuel
  | S fuel => rbind (scope_of st s) (fun sc =>
      rbind (lookup_here fuel st s v None) (fun r =>
        match r with
        | Some y => Ok (Some y)
        | None =>
            if is_ns sc then Ok None
            else rbind (non_namespace_parent fuel st s) (fun p => match p with None => Ok None | Some p => lookup fuel st p v end)
        end))
  end.

(** gen_symbols_for_attrsub_chain, data_model/scope.py:151-175: the symbols, each with the rest of the chain. *)
Fixpoint resolve (fuel : nat) (st : state) (s : nat) (ch : list atom) : res (list (nat * list atom)) :=
  match ch with
  | [] => Ok []
  | a :: ch =>
      rbind (lookup fuel st s (a_value a)) (fun r =>
        match r with
        | None => Ok []
        | Some y =>
            if a_call a then Ok [(y, ch)]
            else rbind (of_option KeyError (dget (symbols st) y)) (fun sy =>
                   match dget (namespaces st) (obj sy) with
                   | None => Ok [(y, ch)]
                   | Some ns => rmap (cons (y, ch)) (resolve fuel st ns ch)
                   end)
        end)
  end.
(** try_fully_resolve_attrsub_chain, data_model/scope.py:188-192 *)
Definition fully_resolve (fuel : nat) (st : state) (s : nat) (ch : list atom) : res (option nat) :=
  rmap (fun l => match rev l with (y, []) :: _ => Some y | _ => None end) (resolve fuel st s ch).

(** Expressions as the visitor of references tells them apart (analysis/symbol_ref.py:163-319). [EOther]: what it gives up
    on (generic_visit), such as [a or b] or [a + b], with a number for which one it is. *)
Inductive expr :=
| EName (x : nat)
| EAttr (e : expr) (a : nat)
| ESub (e s : expr)
| ECall (f : expr)
| EConst (v : value)  (* a literal or a tuple of literals *)
| ENeg (e : expr)
| EOther (n : nat).

(** resolve_slice_to_constant, analysis/symbol_ref.py:32-84: nothing (also for the constant None), a constant, or a name. *)
Inductive slice := NoSlice | Constant (v : value) | SliceName (x : nat).
Definition negate (v : value) : value := match int_of v with Some z => VOne (CInt (- z)) | None => v end.
Definition slice_of (s : expr) : slice :=
  match s with
  | EConst (VOne CNone) => NoSlice
  | EConst v => Constant v
  | EName x => SliceName x
  | ENeg (EName x) => SliceName x
  | ENeg (EConst (VOne CNone)) => NoSlice
  | ENeg (EConst (VOne c)) => Constant (negate (VOne c))
  | _ => NoSlice
  end.

Definition plain_atom (v : value) (call sub : bool) : atom := mkAtom v call sub false false false.
(** Python's [str(v)] of the index of a call ([x[0]()]); which string does not matter: the number is given by [str_of]. *)
Section visitor.
Variable str_of : value -> nat.
(** The object of a symbol as an index, if it can be one: [isinstance(sym.obj, SubscriptIndices.types)]. *)
Variable index_of : nat -> option value.
(** SymbolRefVisitor, analysis/symbol_ref.py:218-275: the atoms, last one first; None: the ValueError for a literal. Marks for
    reactivity are left out. [look]: the lookup of a name in the scope of the reference, if it has one. *)
Fixpoint visit (look : option (nat -> res (option nat))) (e : expr) : res (option (list atom)) :=
  match e with
  | EName x => Ok (Some [plain_atom (VOne (CStr x)) false false])
  | EAttr b a => rmap (option_map (cons (plain_atom (VOne (CStr a)) false false))) (visit look b)
  | ESub b s =>
      rbind (match slice_of s with
             | NoSlice => Ok []
             | Constant v => Ok [plain_atom v false true]
             | SliceName x =>
                 match look with
                 | None => Ok []
                 | Some look => rmap (fun r => match r with
                                               | None => []
                                               | Some y => match index_of y with Some v => [plain_atom v false true] | None => [] end
                                               end) (look x)
                 end
             end) (fun l => rmap (option_map (app l)) (visit look b))
  | ECall f =>
      match f with
      | EAttr b a => rmap (option_map (cons (plain_atom (VOne (CStr a)) true false))) (visit look b)
      | ESub b s => rmap (option_map (app (match s with EConst (VOne c) => [plain_atom (VOne (CStr (str_of (VOne c)))) true true] | _ => [] end))) (visit look b)
      | EName x => Ok (Some [plain_atom (VOne (CStr x)) true false])
      | _ => Ok (Some [])
      end
  | EConst _ => Ok None
  | ENeg _ | EOther _ => Ok (Some [])
  end.
(** SymbolRef(e, scope).chain, analysis/symbol_ref.py:183-195: a literal makes it empty. *)
Definition chain_of (look : option (nat -> res (option nat))) (e : expr) : res (list atom) :=
  rmap (fun o => match o with None => [] | Some l => rev l end) (visit look e).
End visitor.

(** _resolve_store_data_for_simple_target, tracing/ipyflow_tracer.py:510-542: the scope a store of a plain name goes to.
    [glob]: the global scope; [local]: whether the name is in [frame.f_locals], [global_]: in [frame.f_globals]. *)
Definition store_scope (st : state) (glob s x : nat) (local global_ : bool) : res nat :=
  rbind (scope_of st s) (fun sc =>
    let '(target, found) :=
      match symtab sc with
      | None => (s, local)
      | Some tab =>
          match dget (decls tab) x with
          | Some DNonlocal => (match parent sc with None => glob | Some p => p end, local)
          | Some DGlobal => (glob, global_)
          | _ => (s, local)
          end
      end in
    if found then Ok target else if global_ then Ok glob else Err KeyError).

(** [symtab.lookup(name)], [is_namespace] and [get_namespace] with the exceptions that data_model/scope.py:101-114 catches: the
    only block with that name. Name mangling is left out. *)
Definition block_named (t : table) (x : nat) : option table :=
  if dhas (decls t) x then match filter (fun b => fst b =? x) (blocks t) with [(_, b)] => Some b | _ => None end else None.
(** make_child_scope, data_model/scope.py:101-114. [cell]: the table of the cell that is run ([cur_cell_symtab]). *)
Definition make_child_scope (st : state) (cell : option table) (s x : nat) : res scp :=
  rmap (fun sc => let t := match parent sc with None => cell | Some _ => symtab sc end in
                  mkScope (Some s) false [] [] None [] None (match t with None => None | Some t => block_named t x end)) (scope_of st s).
(** Namespace.make_child_namespace, data_model/namespace.py:217-219: no table is passed. *)
Definition make_child_namespace (s : nat) : scp := mkScope (Some s) true [] [] None [] None None.
(** The new scope for a call, data_model/statement.py:290-300. [prev]: the previous [call_scope] of the function called [x]. *)
Definition call_scope (st : state) (cell : option table) (prev x : nat) : res scp :=
  rbind (scope_of st prev) (fun pc =>
    rbind (of_option AttributeError (parent pc)) (fun p =>
      rmap (fun sc => match symtab pc with
                      | None => sc
                      | Some t => mkScope (parent sc) (is_ns sc) (names sc) (subs sc) (cloned sc) (attrs sc) (size sc) (Some t)
                      end) (make_child_scope st cell p x))).
