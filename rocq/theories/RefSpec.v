(** C45: what the laws are about. *)
Require Import List Arith ZArith Bool.
Import ListNotations.
Require Import Verif.Base Verif.RefModel.

(** A hash function on values that fits Python's equality, as that of Python does. *)
Definition fits (hv : value -> Z) : Prop := forall a b, value_eqb a b = true -> hv a = hv b.

(** The same path: the same names and indices in the same way, up to 1 = True and 0 = False. *)
Inductive same_scalar : scalar -> scalar -> Prop :=
| same_refl : forall c, same_scalar c c
| same_true1 : same_scalar (CInt 1) (CBool true)
| same_true2 : same_scalar (CBool true) (CInt 1)
| same_false1 : same_scalar (CInt 0) (CBool false)
| same_false2 : same_scalar (CBool false) (CInt 0).
Inductive same_value : value -> value -> Prop :=
| same_one : forall a b, same_scalar a b -> same_value (VOne a) (VOne b)
| same_tuple : forall l m, Forall2 same_scalar l m -> same_value (VTuple l) (VTuple m).
Definition same_atom (a b : atom) : Prop :=
  same_value (a_value a) (a_value b) /\ a_call a = a_call b /\ a_sub a = a_sub b /\
  a_reactive a = a_reactive b /\ a_cascading a = a_cascading b /\ a_blocking a = a_blocking b.
Definition same_path (a b : ref) : Prop := Forall2 same_atom (chain a) (chain b).

(** A place (scope or range) that is not given fits any. *)
Definition compatible (a b : option nat) : Prop := forall x y, a = Some x -> b = Some y -> x = y.

Definition located (r : ref) : Prop := scope r <> None /\ range r <> None.
Definition unlocated (r : ref) : Prop := scope r = None /\ range r = None.
Definition plain (r : ref) : Prop := Forall (fun a => a_reactive a = false /\ a_cascading a = false) (chain r).
