(** The metadata about cells that [%flow make_dag] exports. *)
Require Import List Arith Bool.
Import ListNotations.
Require Import Verif.Base.

(** Names are numbers; this is the name "_" (experimental/dag.py:27). *)
Definition n_underscore := 0.

(** An import statement: [ast.Import] with its aliases, or [ast.ImportFrom] with module and aliases. An alias is a name
    and the name after [as], if any. [import a.b] makes no symbol (data_model/statement.py:634-636). *)
Inductive import_stmt :=
| SImport (names : list (nat * option nat))
| SFrom (module : option nat) (names : list (nat * option nat)).

(** What a symbol is, as far as it matters here (data_model/symbol.py:445-451). *)
Inductive kind := KImport (stmt : option import_stmt) | KModule | KOther.

(** A symbol (data_model/symbol.py:130-236). [s_ns]: the object id of the containing namespace if the containing scope is
    one. [s_accessible]: [is_globally_accessible] (symbol.py:652). [s_anon]: [is_anonymous] (symbol.py:540). [s_used],
    [s_live]: the items of [timestamp_by_used_time] and [timestamp_by_liveness_time], [s_updated]: [updated_timestamps];
    only the cell numbers of the timestamps are looked at. They are shifted by one: 0 is the -1 of an uninitialised
    timestamp. [s_type] stands for the annotation string of its type. *)
Record symbol := mkSym {
  s_name : nat; s_obj : nat; s_ns : option nat; s_accessible : bool; s_anon : bool; s_kind : kind; s_type : nat;
  s_used : list (nat * nat); s_live : list (nat * nat); s_updated : list nat }.

Definition is_import (s : symbol) : bool := match s_kind s with KImport _ => true | _ => false end.
Definition is_module (s : symbol) : bool := match s_kind s with KModule => true | _ => false end.

(** [flow().aliases]: for each object id the symbols that refer to it, in the order of iteration. Symbols are named by
    numbers. *)
Record state := mkSt { symbols : dict symbol; aliases : dict (list nat) }.

Definition sym (st : state) (i : nat) : res symbol := of_option KeyError (dget (symbols st) i).
Definition aliases_of (st : state) (o : nat) : list nat := match dget (aliases st) o with Some l => l | None => [] end.
(** flow.py:616-618 *)
Definition all_symbols (st : state) : list nat := concat (dvals (aliases st)).

(** data_model/symbol.py:507-515. Python's bound on recursion is the fuel. *)
Fixpoint first_accessible (st : state) (l : list nat) : res (option nat) :=
  match l with
  | [] => Ok None
  | i :: l => rbind (sym st i) (fun s => if s_accessible s then Ok (Some i) else first_accessible st l)
  end.
Fixpoint top_level (fuel : nat) (st : state) (i : nat) : res (option nat) :=
  match fuel with
  | 0 => Err OutOfFuel
  | S fuel =>
      rbind (sym st i) (fun s =>
        match s_ns s with
        | None => Ok (Some i)
        | Some o => rbind (first_accessible st (aliases_of st o)) (fun a =>
                      match a with None => Ok None | Some j => top_level fuel st j end)
        end)
  end.

(** experimental/dag.py:31-37 *)
Fixpoint covered (st : state) (name : nat) (l : list nat) : res bool :=
  match l with
  | [] => Ok false
  | i :: l => rbind (sym st i) (fun s => if is_import s && (s_name s =? name) then Ok true else covered st name l)
  end.

(** experimental/dag.py:22-37: whether the symbol is looked at. *)
Definition looked_at (st : state) (t : symbol) : res bool :=
  if negb (s_accessible t) || s_anon t || (s_name t =? n_underscore) then Ok false
  else if is_module t then rmap negb (covered st (s_name t) (aliases_of st (s_obj t)))
  else Ok true.

(** The five tables, experimental/dag.py:14-18 *)
Record tables := mkTab { t_imports : dict (list nat); t_inputs : dict (list nat); t_outputs : dict (list nat);
                         t_parents : dict (list nat); t_children : dict (list nat) }.
(** [defaultdict(set)]: reading, and [d[k].add(v)] *)
Definition get (d : dict (list nat)) (k : nat) : list nat := match dget d k with Some l => l | None => [] end.
Definition add (d : dict (list nat)) (k v : nat) : dict (list nat) := dset d k (sadd v (get d k)).

(** experimental/dag.py:44-54 *)
Definition on_use (imp : bool) (t : nat) (b : tables) (u : nat * nat) : tables :=
  let '(used, at_) := u in
  if imp then mkTab (add (t_imports b) used t) (t_inputs b) (t_outputs b) (t_parents b) (t_children b)
  else if negb (used =? at_) then
    mkTab (t_imports b) (add (t_inputs b) used t) (add (t_outputs b) at_ t) (add (t_parents b) used at_) (add (t_children b) at_ used)
  else b.
(** experimental/dag.py:56-58 *)
Definition on_update (t : nat) (b : tables) (c : nat) : tables :=
  mkTab (t_imports b) (t_inputs b) (add (t_outputs b) c t) (t_parents b) (t_children b).

(** experimental/dag.py:20-58 *)
Definition on_symbol (fuel : nat) (st : state) (b : tables) (i : nat) : res tables :=
  rbind (sym st i) (fun s =>
  rbind (top_level fuel st i) (fun top =>
    match top with
    | None => Ok b
    | Some t =>
        rbind (sym st t) (fun ts =>
        rbind (looked_at st ts) (fun look =>
          if look : bool then
            let b := fold_left (on_use (is_import ts) t) (s_used s ++ s_live s) b in
            Ok (if is_import ts then b else fold_left (on_update t) (s_updated s) b)
          else Ok b))
    end)).

(** The import that [get_import_string] writes: [import m], [import m as x], [from m import y], [from m import y as x];
    data_model/symbol.py:453-502, 517-537. *)
Inductive import_string := IImport (m : nat) (as_ : option nat) | IFrom (m y : nat) (as_ : option nat).
Definition bound_name (a : nat * option nat) : nat := match snd a with Some x => x | None => fst a end.
Definition original (names : list (nat * option nat)) (x : nat) : res nat :=
  of_option ValueError (match find (fun a => bound_name a =? x) names with Some a => Some (fst a) | None => None end).
Definition import_of (s : symbol) : res import_string :=
  match s_kind s with
  | KImport (Some (SImport names)) =>
      rmap (fun m => IImport m (if m =? s_name s then None else Some (s_name s))) (original names (s_name s))
  | KImport (Some (SFrom None names)) => Err AssertionError
  | KImport (Some (SFrom (Some m) names)) =>
      rmap (fun y => IFrom m y (if y =? s_name s then None else Some (s_name s))) (original names (s_name s))
  | KImport None => Err TypeError
  | _ => Err ValueError
  end.

(** One entry of the result, experimental/dag.py:71-88. The dictionaries of symbols map names to types. *)
Record metadata := mkMeta { m_imports : list import_string; m_inputs : dict nat; m_outputs : dict nat;
                            m_parents : list nat; m_children : list nat }.
(** experimental/dag.py:74-81 *)
Definition describe (st : state) (l : list nat) : res (dict nat) :=
  rfold (fun d i => rmap (fun s => dset d (s_name s) (s_type s)) (sym st i)) l [].
Definition entry (st : state) (b : tables) (c : nat) : res metadata :=
  rbind (rfold (fun acc i => rbind (sym st i) (fun s => rmap (fun x => acc ++ [x]) (import_of s))) (get (t_imports b) c) []) (fun imports =>
  rbind (describe st (get (t_inputs b) c)) (fun inputs =>
  rbind (describe st (get (t_outputs b) c)) (fun outputs =>
    Ok (mkMeta imports inputs outputs (get (t_parents b) c) (get (t_children b) c))))).

(** experimental/dag.py:63-69 *)
Definition relevant (b : tables) : list nat :=
  supd (supd (supd (supd (dkeys (t_imports b)) (dkeys (t_inputs b))) (dkeys (t_outputs b))) (dkeys (t_parents b))) (dkeys (t_children b)).

(** create_dag_metadata, experimental/dag.py:10-89 *)
Definition create_dag_metadata (fuel : nat) (st : state) : res (dict metadata) :=
  rbind (rfold (on_symbol fuel st) (all_symbols st) (mkTab [] [] [] [] [])) (fun b =>
    rfold (fun md c => rmap (dset md c) (entry st b c)) (relevant b) []).
