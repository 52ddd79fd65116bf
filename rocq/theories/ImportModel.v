(** Model of the symbols made for import statements:
    [core/ipyflow/tracing/ipyflow_tracer.py] lines 705-775
    ([create_if_not_exists_module_symbol]),
    [core/ipyflow/data_model/statement.py] lines 598-668 (the import part of
    [_make_lval_symbols_old]) and [core/ipyflow/analysis/symbol_edges.py] lines
    108-113.

    Names and objects are numbers, a dotted name is a list of names.  Left out:
    dependencies, timestamps, usage, whether a symbol is implicit, starred
    imports' set of modules, global and nonlocal declarations. *)
From Coq Require Import List Arith Bool.
From Verif Require Import Base.
Import ListNotations.

(** A symbol is known by its scope (the frame's, or the namespace of an object)
    and its name; [Angle]: a name in angle brackets. *)
Inductive scope := Frame | Ns (o : nat).
Inductive name := Bare (n : nat) | Angle (n : nat).
Definition key : Type := scope * name.

Definition scope_eqb (a b : scope) : bool :=
  match a, b with Frame, Frame => true | Ns x, Ns y => x =? y | _, _ => false end.
Definition name_eqb (a b : name) : bool :=
  match a, b with Bare x, Bare y => x =? y | Angle x, Angle y => x =? y | _, _ => false end.
Definition key_eqb (a b : key) : bool := scope_eqb (fst a) (fst b) && name_eqb (snd a) (snd b).

(** The symbols with their objects. *)
Definition st : Type := list (key * nat).

Fixpoint get (s : st) (k : key) : option nat :=
  match s with
  | [] => None
  | (k0, o) :: s => if key_eqb k0 k then Some o else get s k
  end.

(** [upsert_symbol_for_name], as far as the object of the symbol goes. *)
Fixpoint put (s : st) (k : key) (o : nat) : st :=
  match s with
  | [] => [(k, o)]
  | (k0, o0) :: s => if key_eqb k0 k then (k, o) :: s else (k0, o0) :: put s k o
  end.

(** [next(iter(flow().aliases.get(id(module))))]: a symbol with that object.
    Which one is arbitrary in Python; here the first. *)
Fixpoint alias (s : st) (o : nat) : option key :=
  match s with
  | [] => None
  | (k, o0) :: s => if o0 =? o then Some k else alias s o
  end.

(** [sys.modules] by dotted name, [__name__] of a module, and whether a module is
    [builtins] or [__main__]. *)
Record world := mkW {
  sysmods : list nat -> option nat;
  name_of : nat -> list nat;
  special : nat -> bool
}.

(** Lines 734-770: the components of the name.  [past]: those before;
    [cur]: the scope to make the next symbol in. *)
Fixpoint walk (w : world) (named first : bool) (cur : scope) (past rest : list nat)
    (last : option key) (s : st) : st * option key :=
  match rest with
  | [] => (s, last)
  | c :: rest =>
      match sysmods w (past ++ [c]) with
      | None => (s, None)
      | Some m =>
          let k := (cur, if first && negb named then Angle c else Bare c) in
          match alias s m with
          | None => walk w named false (Ns m) (past ++ [c]) rest (Some k) (put s k m)
          | Some k1 => walk w named false (Ns m) (past ++ [c]) rest (Some k1) s
          end
      end
  end.

(** Lines 705-775 for a module, without what is loaded. *)
Definition create (w : world) (named : bool) (m : nat) (s : st) : st * option key :=
  if special w m then (s, None) else walk w named true Frame [] (name_of w m) None s.

(** One name of an import statement: [import p] and [import p as a];
    [from p import n] and [from p import n as a]. *)
Inductive stmt :=
| Import (p : list nat) (a : option nat)
| From (p : list nat) (n : nat) (a : option nat).

(** statement.py 615-626: the module a name is about. *)
Definition module_of (w : world) (i : stmt) : option nat :=
  match i with
  | Import p _ => sysmods w p
  | From p n _ =>
      match sysmods w (p ++ [n]) with Some m => Some m | None => sysmods w p end
  end.

Definition as_name (i : stmt) : option nat :=
  match i with Import _ a => a | From _ _ a => a end.

(** symbol_edges.py 108-113 and statement.py 636-638: the target; none if it has
    a dot. *)
Definition target (i : stmt) : option nat :=
  match as_name i with
  | Some a => Some a
  | None => match i with
            | Import [n] _ => Some n
            | Import _ _ => None
            | From _ n _ => Some n
            end
  end.

(** statement.py 610-668 for one name.  [env]: the frame's variables after the
    statement; a target that is not there raises [KeyError], which is caught. *)
Definition trace (w : world) (env : nat -> option nat) (i : stmt) (s : st) : st :=
  let s1 :=
    match module_of w i with
    | None => s
    | Some m =>
        fst (create w (match as_name i with None => true | Some _ => false end) m s)
    end in
  match target i with
  | None => s1
  | Some t => match env t with Some o => put s1 (Frame, Bare t) o | None => s1 end
  end.
