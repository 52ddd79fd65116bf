(** Which symbols hold an object, and the collection of those that are gone. *)
Require Import List Arith ZArith Bool.
Import ListNotations.
Require Import Verif.Base.
Local Open Scope nat_scope.

(** A symbol as far as it is read here (data_model/symbol.py:124-154). Objects are given by their id; 0 is the id of None.
    [y_sub]: [is_subscript]; [y_anon]: the type is ANONYMOUS; [y_def]: [defined_cell_num]. *)
Record sym := mkY { y_name : nat; y_sub : bool; y_scope : nat; y_obj : nat; y_cached : option nat; y_tomb : bool; y_anon : bool; y_def : Z }.
(** A scope or namespace (data_model/scope.py:45-55, data_model/namespace.py:56-90). Only namespaces carry subscripts. [s_path]:
    [full_namespace_path], which Python computes from the names of the enclosing scopes; it is stored here. [s_array]: the object is a
    numpy array. *)
Record scp := mkS { s_names : dict nat; s_subs : dict nat; s_ns : bool; s_obj : nat; s_tomb : bool; s_anon : bool; s_array : bool; s_path : list nat }.
(** [aliases] and [namespaces] of flow.py:181-182. [next]: an id not used so far, for symbols and scopes. The global scope is 0. *)
Record state := mkSt { syms : dict sym; scopes : dict scp; aliases : dict (list nat); spaces : dict nat; next : nat }.

Definition set_obj (y : sym) (o : nat) : sym := mkY (y_name y) (y_sub y) (y_scope y) o (y_cached y) (y_tomb y) (y_anon y) (y_def y).
Definition set_cached (y : sym) (c : option nat) : sym := mkY (y_name y) (y_sub y) (y_scope y) (y_obj y) c (y_tomb y) (y_anon y) (y_def y).
Definition set_tomb (y : sym) (b : bool) : sym := mkY (y_name y) (y_sub y) (y_scope y) (y_obj y) (y_cached y) b (y_anon y) (y_def y).
Definition set_place (y : sym) (sc n : nat) : sym := mkY n (y_sub y) sc (y_obj y) (y_cached y) (y_tomb y) (y_anon y) (y_def y).
Definition set_anon (y : sym) (b : bool) : sym := mkY (y_name y) (y_sub y) (y_scope y) (y_obj y) (y_cached y) (y_tomb y) b (y_def y).
Definition with_sym (st : state) (s : nat) (y : sym) : state := mkSt (dset (syms st) s y) (scopes st) (aliases st) (spaces st) (next st).
Definition with_scope (st : state) (n : nat) (c : scp) : state := mkSt (syms st) (dset (scopes st) n c) (aliases st) (spaces st) (next st).
Definition with_aliases (st : state) (a : dict (list nat)) : state := mkSt (syms st) (scopes st) a (spaces st) (next st).
Definition sym_of (st : state) (s : nat) : res sym := of_option AttributeError (dget (syms st) s).
Definition scope_of (st : state) (n : nat) : res scp := of_option AttributeError (dget (scopes st) n).
(** [d.pop(k, None)] *)
Definition dpop {V} (d : dict V) (k : nat) : dict V := filter (fun r => negb (fst r =? k)) d.
(** symbol_by_name, data_model/namespace.py:203-207 *)
Definition table (c : scp) (sub : bool) : dict nat := if sub then s_subs c else s_names c.
Definition set_table (c : scp) (sub : bool) (d : dict nat) : scp :=
  if sub then mkS (s_names c) d (s_ns c) (s_obj c) (s_tomb c) (s_anon c) (s_array c) (s_path c)
  else mkS d (s_subs c) (s_ns c) (s_obj c) (s_tomb c) (s_anon c) (s_array c) (s_path c).
Definition set_stomb (c : scp) (b : bool) : scp := mkS (s_names c) (s_subs c) (s_ns c) (s_obj c) b (s_anon c) (s_array c) (s_path c).
(** put, data_model/namespace.py:348-355, and its opposite. *)
Definition put (st : state) (n : nat) (sub : bool) (k s : nat) : res state :=
  rmap (fun c => with_scope st n (set_table c sub (dset (table c sub) k s))) (scope_of st n).
Definition unput (st : state) (n : nat) (sub : bool) (k : nat) : res state :=
  rmap (fun c => with_scope st n (set_table c sub (dpop (table c sub) k))) (scope_of st n).

(** [flow().aliases.get(o, [])] *)
Definition held (a : dict (list nat)) (o : nat) : list nat := match dget a o with Some l => l | None => [] end.
(** cleanup_discard, utils/misc_utils.py:12-16 *)
Definition discard (a : dict (list nat)) (o s : nat) : dict (list nat) :=
  let l := sdiff (held a o) [s] in if is_nil l then dpop a o else dset a o l.
(** [aliases.setdefault(o, set()).add(s)] *)
Definition add (a : dict (list nat)) (o s : nat) : dict (list nat) := dset a o (sadd s (held a o)).

(** mark_garbage of symbols and namespaces, data_model/symbol.py:674-680, data_model/namespace.py:162-167. The fuel is Python's stack.
    [all] stops early, which makes no difference. *)
Definition all_garbage (st : state) (l : list nat) : res bool := rfold (fun b t => rmap (fun y => b && y_tomb y) (sym_of st t)) l true.
Definition members (c : scp) : list nat := dvals (s_names c) ++ dvals (s_subs c).
Fixpoint mark_sym (fuel : nat) (st : state) (s : nat) : res state :=
  match fuel with
  | 0 => Err OutOfFuel
  | S fuel =>
    rbind (sym_of st s) (fun y =>
      if y_tomb y then Ok st
      else
        let st := with_sym st s (set_tomb y true) in
        match dget (spaces st) (y_obj y) with
        | None => Ok st
        | Some n => rbind (all_garbage st (held (aliases st) (y_obj y))) (fun b => if b then mark_ns fuel st n else Ok st)
        end)
  end
with mark_ns (fuel : nat) (st : state) (n : nat) : res state :=
  match fuel with
  | 0 => Err OutOfFuel
  | S fuel =>
    rbind (scope_of st n) (fun c =>
      if s_tomb c then Ok st else rfold (mark_sym fuel) (members c) (with_scope st n (set_stomb c true)))
  end.

(** _refresh_cached_obj, data_model/symbol.py:812-817 *)
Definition refresh_cached (st : state) (s : nat) : res state := rmap (fun y => with_sym st s (set_cached y (Some (y_obj y)))) (sym_of st s).
(** _handle_aliases, data_model/symbol.py:792-794 *)
Definition handle_aliases (st : state) (s : nat) : res state :=
  rmap (fun y => with_aliases st (add (match y_cached y with Some c => discard (aliases st) c s | None => aliases st end) (y_obj y) s)) (sym_of st s).

(** What retrieve_namespace_attr_or_sub (flow.py:650-672) does: the object; AttributeError, IndexError or KeyError; TypeError. *)
Inductive got := Found (o : nat) | Missing | Stop.
(** The two loops of transfer_symbols_to, data_model/namespace.py:391-423: [update] is update_obj_ref. *)
Fixpoint move (update : state -> nat -> nat -> res state) (look : nat -> bool -> got) (old new : nat) (sub : bool) (l : list nat) (st : state) : res state :=
  match l with
  | [] => Ok st
  | t :: l =>
    rbind (sym_of st t) (fun y =>
      match look (y_name y) sub with
      | Missing => move update look old new sub l st
      | Stop => Ok st
      | Found o =>
        rbind (update st t o) (fun st =>
        rbind (sym_of st t) (fun y =>
        rbind (unput st old sub (y_name y)) (fun st =>
        rbind (put st new sub (y_name y) t) (fun st =>
          move update look old new sub l (with_sym st t (set_place y new (y_name y)))))))
      end)
  end.
(** fresh_copy, data_model/namespace.py:221-227 with 56-90. Whether the new object is an array as well is read off the old one. *)
Definition fresh_copy (st : state) (c : scp) (o : nat) (array : bool) : state :=
  mkSt (syms st) (dset (scopes st) (next st) (mkS [] [] true o false (s_anon c) array (s_path c))) (aliases st) (dset (spaces st) o (next st)) (S (next st)).
Fixpoint path_eqb (a b : list nat) : bool := match a, b with [], [] => true | x :: a, y :: b => (x =? y) && path_eqb a b | _, _ => false end.

(** update_obj_ref, data_model/symbol.py:710-758. [look] is what the new objects have as attributes and items. Where the object already
    has a namespace Python gives it the name and the parent of the old one; this is left to the operation [Repath]. Left out
    are widgets and the results of type checks. *)
Fixpoint update_obj_ref (fuel : nat) (look : nat -> nat -> bool -> got) (refresh : bool) (st : state) (s o : nat) : res state :=
  match fuel with
  | 0 => Err OutOfFuel
  | S fuel =>
    rbind (sym_of st s) (fun y =>
    rbind (scope_of st (y_scope y)) (fun sc =>
      let st := with_sym st s (set_tomb (set_obj y o) false) in
      rbind
        match y_cached y with
        | None => Ok st
        | Some c =>
          if c =? o then Ok st
          else
            let old := dget (spaces st) c in
            rbind
              match old with
              | None => Ok st
              | Some n =>
                rbind (scope_of st n) (fun nc =>
                  if negb (path_eqb (s_path nc) (s_path sc ++ [y_name y])) then Ok st
                  else
                    match dget (spaces st) o with
                    | Some _ => Ok st
                    | None =>
                      let new := next st in
                      rbind (move (update_obj_ref fuel look true) (look o) n new false (dvals (s_names nc)) (fresh_copy st nc o (s_array nc))) (fun st =>
                      rbind (scope_of st n) (fun nc => move (update_obj_ref fuel look true) (look o) n new true (dvals (s_subs nc)) st))
                    end)
              end (fun st =>
            rbind (handle_aliases st s) (fun st =>
            rbind (sym_of st s) (fun y =>
              match old with
              | None => Ok st
              | Some n => if is_nil (match y_cached y with Some c => held (aliases st) c | None => [] end) then mark_ns fuel st n else Ok st
              end)))
        end (fun st => if refresh then refresh_cached st s else Ok st)))
  end.

(** A store: _upsert_symbol_for_name_inner (data_model/scope.py:367-440) and of update_deps (data_model/symbol.py:1019-1133) that it
    refreshes the cached object when it gets there; [fails]: it raises before. A name that is found under another key
    (negative positions) gives a new symbol, as one not found does. The type of imports and modules is not treated apart. *)
Definition store (fuel : nat) (look : nat -> nat -> bool -> got) (fails : bool) (st : state) (n : nat) (sub : bool) (k : nat) (anon : bool) (d : Z) (o : nat) : res state :=
  rbind (scope_of st n) (fun c =>
    if sub && negb (s_ns c) then Err ValueError
    else
      match dget (table c sub) k with
      | Some s =>
        rbind (sym_of st s) (fun y =>
        rbind (update_obj_ref fuel look false (with_sym st s (set_anon y anon)) s o) (fun st => if fails then Ok st else refresh_cached st s))
      | None =>
        let s := next st in
        let st := mkSt (dset (syms st) s (mkY k sub n o None false anon d)) (scopes st) (add (aliases st) o s) (spaces st) (S s) in
        rbind (put st n sub k s) (fun st => if fails then Ok st else refresh_cached st s)
      end).
(** delete_symbol_for_name, data_model/scope.py:442-449; data_model/namespace.py:313-328, where the positions are shuffled by [rename]. *)
Definition delete (fuel : nat) (st : state) (n : nat) (k : nat) : res state :=
  rbind (scope_of st n) (fun c =>
    match dget (s_names c) k with
    | None => Ok st
    | Some s => rbind (unput st n false k) (fun st => rbind (refresh_cached st s) (fun st => mark_sym fuel st s))
    end).
Definition delete_sub (st : state) (n : nat) (k : nat) : res state :=
  rbind (scope_of st n) (fun c =>
    match dget (s_subs c) k with
    | None => Ok st
    | Some s => rbind (unput st n true k) (fun st => refresh_cached st s)
    end).
(** _remap_sym, data_model/namespace.py:287-301: the cached object is forgotten and refreshed. *)
Definition rename (st : state) (n : nat) (a b : nat) : res state :=
  rbind (scope_of st n) (fun c =>
    match dget (s_subs c) a with
    | None => Ok st
    | Some s =>
      rbind (unput st n true a) (fun st =>
      rbind (sym_of st s) (fun y =>
      rbind (refresh_cached (with_sym st s (set_cached (set_place y (y_scope y) b) None)) s) (fun st => put st n true b s)))
    end).
(** resync_if_necessary, data_model/symbol.py:1404-1444, for a variable whose object is now [o]. [last]: for the symbol of an item of a
    list that ends in [o], the last position of the list; None for others. *)
Definition resync (fuel : nat) (look : nat -> nat -> bool -> got) (last : nat -> option nat) (st : state) (s o : nat) : res state :=
  rbind (sym_of st s) (fun y =>
    if negb (y_scope y =? 0) then Ok st
    else if y_obj y =? o then refresh_cached st s
    else
      let check := if is_nil (held (aliases st) o) then supd (match y_cached y with Some c => held (aliases st) c | None => [] end) (held (aliases st) (y_obj y)) else [] in
      rbind
        (rfold (fun st t =>
          rbind (sym_of st t) (fun yt =>
          rbind (scope_of st (y_scope yt)) (fun c =>
            match (if s_ns c && y_sub yt then last t else None) with
            | None => Ok st
            | Some k =>
              rbind (unput st (y_scope yt) true (y_name yt)) (fun st =>
              rbind (update_obj_ref fuel look true (with_sym st t (set_place yt (y_scope yt) k)) t o) (fun st => put st (y_scope yt) true k t))
            end))) check st) (fun st =>
      rbind (sym_of st s) (fun y =>
      let a := match y_cached y with Some c => discard (aliases st) c s | None => aliases st end in
      update_obj_ref fuel look true (with_aliases st (add (discard a (y_obj y) s) o s)) s o))).

(** collect_self_garbage of symbols, data_model/symbol.py:682-698: the symbol is no longer kept. A second time there is nothing to do.
    Its edges are in SymModel.v. *)
Definition collect (st : state) (s : nat) : res state :=
  match dget (syms st) s with
  | None => Ok st
  | Some y =>
    rbind (scope_of st (y_scope y)) (fun c =>
      let st := with_aliases st (discard (aliases st) (y_obj y) s) in
      rmap (fun st => mkSt (dpop (syms st) s) (scopes st) (aliases st) (spaces st) (next st))
        (if y_sub y then if s_ns c then unput st (y_scope y) true (y_name y) else Ok st
         else unput st (y_scope y) false (y_name y)))
  end.
(** all_symbols, flow.py:616-618 *)
Definition all_symbols (st : state) : list nat := flat_map snd (aliases st).
(** is_anonymous and is_new_garbage, data_model/symbol.py:540-546, 633-649 *)
Definition anonymous (y : sym) (c : scp) : bool := y_anon y || (s_ns c && s_anon c).
Definition new_garbage (y : sym) (c : scp) : bool := negb (y_tomb y) && (s_ns c && s_array c && s_tomb c).
(** gc, flow.py:630-648. [prev]: the counter of the previous run of the cell, or -1. *)
Definition gc_mark (fuel : nat) (prev : Z) (st : state) : res state :=
  if (0 <? prev)%Z then
    rfold (fun st s =>
      rbind (sym_of st s) (fun y =>
      rbind (scope_of st (y_scope y)) (fun c =>
        if negb (y_def y =? prev)%Z then Ok st else if anonymous y c || new_garbage y c then mark_sym fuel st s else Ok st))) (all_symbols st) st
  else Ok st.
Definition gc_garbage (st : state) : res (list nat) :=
  rfold (fun acc s => rmap (fun y => if y_tomb y then acc ++ [s] else acc) (sym_of st s)) (all_symbols st) [].
Definition gc_spaces (st : state) : res state :=
  rbind (rfold (fun acc n => rmap (fun c => if s_tomb c then acc ++ [n] else acc) (scope_of st n)) (dvals (spaces st)) []) (fun l =>
  rfold (fun st n =>
    rmap (fun c =>
      if is_nil (members c) then mkSt (syms st) (scopes st) (aliases st) (dpop (spaces st) (s_obj c)) (next st)
      else with_scope st n (set_stomb c false)) (scope_of st n)) l st).
Definition gc (fuel : nat) (prev : Z) (st : state) : res state :=
  rbind (gc_mark fuel prev st) (fun st =>
  rbind (gc_garbage st) (fun l =>
  rbind (rfold collect l st) gc_spaces)).

(** What happens to the tables. *)
Inductive op :=
| Store (n : nat) (sub : bool) (k : nat) (anon : bool) (d : Z) (o : nat) (look : nat -> nat -> bool -> got)
| StoreFails (n : nat) (sub : bool) (k : nat) (anon : bool) (d : Z) (o : nat) (look : nat -> nat -> bool -> got)
(** tracing/ipyflow_tracer.py:814-815, shell/interactiveshell.py:524-527; symbols that were collected before are not treated. *)
| Refer (s o : nat) (look : nat -> nat -> bool -> got)
| Resync (s o : nat) (look : nat -> nat -> bool -> got) (last : nat -> option nat)
| Delete (n k : nat)
| DeleteSub (n k : nat)
| Rename (n a b : nat)
(** Namespace.__init__, data_model/namespace.py:44-90; for a class whose object is not there yet [Forget] follows. *)
| MakeSpace (o : nat) (anon array : bool) (p : list nat)
(** The scope of a function, data_model/scope.py:45-55 *)
| MakeScope (p : list nat)
(** Namespace.update_obj_ref, data_model/namespace.py:196-201 *)
| Respace (n o : nat)
(** [namespaces.pop], tracing/ipyflow_tracer.py:1570 *)
| Forget (o : nat)
(** Names and parents of scopes change, e.g. data_model/symbol.py:749-750. *)
| Repath (n : nat) (p : list nat)
(** [directly_updated_symbols |= ...], data_model/utils/update_protocol.py:40-43, of a mutated symbol: the set is that of the table. *)
| Mutate (s : nat) (dup : list nat)
| Gc (prev : Z).

Definition step (fuel : nat) (st : state) (e : op) : res state :=
  match e with
  | Store n sub k anon d o look => store fuel look false st n sub k anon d o
  | StoreFails n sub k anon d o look => store fuel look true st n sub k anon d o
  | Refer s o look => update_obj_ref fuel look true st s o
  | Resync s o look last => resync fuel look last st s o
  | Delete n k => delete fuel st n k
  | DeleteSub n k => delete_sub st n k
  | Rename n a b => rename st n a b
  | MakeSpace o anon array p =>
      Ok (mkSt (syms st) (dset (scopes st) (next st) (mkS [] [] true o false anon array p)) (aliases st) (dset (spaces st) o (next st)) (S (next st)))
  | MakeScope p => Ok (mkSt (syms st) (dset (scopes st) (next st) (mkS [] [] false 0 false false false p)) (aliases st) (spaces st) (S (next st)))
  | Respace n o =>
      rbind (scope_of st n) (fun c =>
        if negb (s_ns c) then Err AttributeError
        else Ok (mkSt (syms st) (dset (scopes st) n (mkS (s_names c) (s_subs c) true o false (s_anon c) (s_array c) (s_path c))) (aliases st)
                  (dset (dpop (spaces st) (s_obj c)) o n) (next st)))
  | Forget o => Ok (mkSt (syms st) (scopes st) (aliases st) (dpop (spaces st) o) (next st))
  | Repath n p => rmap (fun c => with_scope st n (mkS (s_names c) (s_subs c) (s_ns c) (s_obj c) (s_tomb c) (s_anon c) (s_array c) p)) (scope_of st n)
  | Mutate s dup =>
      rbind (sym_of st s) (fun y =>
      rbind (of_option KeyError (dget (aliases st) (y_obj y))) (fun l => Ok (with_aliases st (dset (aliases st) (y_obj y) (supd l dup)))))
  | Gc prev => gc fuel prev st
  end.
(** At first there is the global scope. *)
Definition start : state := mkSt [] [(0, mkS [] [] false 0 false false false [])] [] [] 1.
Definition run (fuel : nat) (l : list op) : res state := rfold (step fuel) l start.
