(** The exception types that are substituted for those of an [except] clause while an interrupt is handled. *)
Require Import List Arith Bool.
Import ListNotations.
Require Import Verif.Base.

(** Python types are numbers; these are fixed. *)
Definition BaseExc := 0.
Definition KeyInt := 1.
Definition SysExit := 2.
Definition Placeholder := 3. (* tracing/interrupt_tracer.py:9-10 *)

(** A member of what the user wrote in the clause: a type, or something else. *)
Inductive item := Ty (t : nat) | Other.

(** What the interpreter knows about the types: which are subclasses of BaseException, and
    [BaseException.__subclasses__()]. *)
Record env := mkEnv { is_exc : nat -> bool; direct : list nat }.

(** tracing/interrupt_tracer.py:41-44; a single type and a tuple of one type are the same to this code. *)
Definition valid (E : env) (ts : list item) : bool :=
  forallb (fun i => match i with Ty t => is_exc E t | Other => false end) ts.
Definition types_of (ts : list item) : list nat := flat_map (fun i => match i with Ty t => [t] | Other => [] end) ts.

(** tracing/interrupt_tracer.py:21-28 *)
Definition threshold (set : list nat) : nat := if memb KeyInt set then 2 else 1.

(** tracing/interrupt_tracer.py:36-59. [exc]: the type of the exception that is being handled. [num]:
    [num_interrupts_by_node_id]. None: nothing is substituted. *)
Definition handle (E : env) (exc node : nat) (ts : list item) (num : dict nat) : option (list nat) * dict nat :=
  if negb (exc =? KeyInt) then (None, num)
  else if negb (valid E ts) then (None, num)
  else
    let n := (match dget num node with Some k => k | None => 0 end) + 1 in
    let num := dset num node n in
    let set := supd [] (types_of ts) in
    if n <? threshold set then (None, num)
    else
      let set := if memb BaseExc set then supd (sdiff set [BaseExc]) (direct E) else set in
      let set := sdiff set [KeyInt] in
      let set := sdiff set [SysExit] in
      let set := match set with [] => sadd Placeholder set | _ => set end in
      (Some set, num).
