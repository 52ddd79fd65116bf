(** Model of making an uninstrumented copy of a function,
    core/ipyflow/tracing/uninstrument.py:1-105. It is used for lambda expressions that are passed to
    functions outside the notebook (tracing/ipyflow_tracer.py:1171-1175), for user-defined functions
    of Spark (patches/pyspark_patch.py:11-22) and when functions are pickled
    (patches/cloudpickle_patch.py:11-24). *)
Require Import List Bool Arith.
Import ListNotations.
Require Import Verif.Base.

(** ** Objects

    A function. [instr]: whether running it runs instrumented code. [code]: what it does, given
    its variables. [ns]: [__globals__]. [co]: [__code__.co_names]. [cells]: [co_freevars] with
    [__closure__]. *)
Record fn := mkFn { instr : bool; code : nat; ns : nat; co : list nat; cells : list (nat * nat) }.

(** [fns]: the objects that are functions. [nss]: the dictionaries of global variables. [cts]: the
    contents of closure cells; empty ones have none. The other fields: numbers not used yet. *)
Record heap := mkH { fns : dict fn; nss : dict (dict nat); cts : dict nat;
                     nobj : nat; nns : nat; ncell : nat }.

Definition ns_of (h : heap) (s : nat) : dict nat :=
  match dget (nss h) s with Some d => d | None => [] end.

(** What is known of the source of an object: for a decorator that is being applied
    ([deco_metadata_by_obj_id], 66-73 and tracing/ipyflow_tracer.py:1450-1472), and for each of its
    symbols that is that of a function or a lambda expression with a definition (93-98), in order.
    The flag says whether running the text of the definition succeeds and gives a function
    (55-64). *)
Record source := mkSrc { deco : option bool; alts : list bool }.

Inductive outcome := Raised | Nothing | Made (o : nat).

Section Strip.
Variable src : nat -> source.

(** [names_loop]: uninstrument.py:34-41, with the overrides so far. [None]: out of fuel. *)
Fixpoint names_loop (rec : heap -> list nat -> nat -> option (outcome * heap * list nat))
    (globals : dict nat) (names : list nat) (acc : list (nat * nat)) (h : heap) (seen : list nat)
    : option (option (list (nat * nat)) * heap * list nat) :=
  match names with
  | [] => Some (Some acc, h, seen)
  | x :: names =>
      match dget globals x with
      | None => names_loop rec globals names acc h seen
      | Some g =>
          match rec h seen g with
          | None => None
          | Some (Raised, h, seen) => Some (None, h, seen)
          | Some (Nothing, h, seen) => names_loop rec globals names acc h seen
          | Some (Made g', h, seen) => names_loop rec globals names (acc ++ [(x, g')]) h seen
          end
      end
  end.

(** uninstrument.py:31-33: the contents of the cells. *)
Fixpoint contents (h : heap) (cs : list (nat * nat)) : option (list (nat * nat)) :=
  match cs with
  | [] => Some []
  | (x, c) :: cs =>
      match dget (cts h) c with
      | None => None
      | Some v => match contents h cs with Some r => Some ((x, v) :: r) | None => None end
      end
  end.

(** The cells that calling [..._make_closure] makes, 42-48. *)
Fixpoint new_cells (h : heap) (kw : list (nat * nat)) : heap * list (nat * nat) :=
  match kw with
  | [] => (h, [])
  | (x, v) :: kw =>
      let c := ncell h in
      let h1 := mkH (fns h) (nss h) (dset (cts h) c v) (nobj h) (nns h) (S c) in
      let '(h2, cs) := new_cells h1 kw in (h2, (x, c) :: cs)
  end.

(** uninstrument.py:49-53: the globals of the new function. *)
Definition new_ns (h : heap) (f : fn) (over : list (nat * nat)) : heap * nat :=
  match over with
  | [] => (h, ns f)
  | _ =>
      let s := nns h in
      let d := fold_left (fun d p => dset d (fst p) (snd p)) over (ns_of h (ns f)) in
      (mkH (fns h) (dset (nss h) s d) (cts h) (nobj h) (S s) (ncell h), s)
  end.

(** [_make_uninstrumented_function], uninstrument.py:19-64. An object that is no function has no
    [__closure__]; an empty cell has no contents. Simplified: default values of parameters and
    decorators, which are evaluated again, and attributes of functions, which are lost, are left
    out. *)
Definition make (rec : heap -> list nat -> nat -> option (outcome * heap * list nat))
    (h : heap) (seen : list nat) (o : nat) (runs : bool) : option (outcome * heap * list nat) :=
  match dget (fns h) o with
  | None => Some (Raised, h, seen)
  | Some f =>
      match contents h (cells f) with
      | None => Some (Raised, h, seen)
      | Some kw =>
          match names_loop rec (ns_of h (ns f)) (co f) [] h seen with
          | None => None
          | Some (None, h, seen) => Some (Raised, h, seen)
          | Some (Some over, h, seen) =>
              let '(h1, s) := new_ns h f over in
              if runs then
                let '(h2, cs) := new_cells h1 kw in
                let o' := nobj h2 in
                let f' := mkFn false (code f) s (co f) cs in
                Some (Made o', mkH (dset (fns h2) o' f') (nss h2) (cts h2) (S o') (nns h2) (ncell h2), seen)
              else Some (Nothing, h1, seen)
          end
      end
  end.

(** uninstrument.py:91-104: the symbols, until one works. *)
Fixpoint try_alts (rec : heap -> list nat -> nat -> option (outcome * heap * list nat))
    (o : nat) (l : list bool) (h : heap) (seen : list nat) : option (outcome * heap * list nat) :=
  match l with
  | [] => Some (Nothing, h, seen)
  | runs :: l =>
      match make rec h seen o runs with
      | None => None
      | Some (Nothing, h, seen) => try_alts rec o l h seen
      | r => r
      end
  end.

(** [uninstrument], uninstrument.py:77-105. [seen]: the set of ids, which is passed on; [n]: the
    depth of the recursion that is left. *)
Fixpoint uninstrument (n : nat) (h : heap) (seen : list nat) (o : nat)
    : option (outcome * heap * list nat) :=
  match n with
  | 0 => None
  | S n =>
      if memb o seen then Some (Nothing, h, seen) else
      let seen := o :: seen in
      let first :=
        match deco (src o) with
        | None => Some (Nothing, h, seen)
        | Some runs => make (uninstrument n) h seen o runs
        end in
      match first with
      | None => None
      | Some (Made o', h, seen) => Some (Made o', h, seen)
      | Some (_, h, seen) => try_alts (uninstrument n) o (alts (src o)) h seen
      end
  end.
End Strip.

(** ** What else happens to the variables *)

(** Assigning to a global variable, or to a variable of a closure. *)
Inductive change := Glob (s x v : nat) | Cell (c v : nat).
Definition apply (h : heap) (c : change) : heap :=
  match c with
  | Glob s x v => mkH (fns h) (dset (nss h) s (dset (ns_of h s) x v)) (cts h) (nobj h) (nns h) (ncell h)
  | Cell c v => mkH (fns h) (nss h) (dset (cts h) c v) (nobj h) (nns h) (ncell h)
  end.
