(** What it means for tags to be kept correctly, in terms of cells and what [from_tag] returns. *)
Require Import List.
Require Import Verif.Base Verif.TagModel.

(** The object is the current version of its cell. *)
Definition current (s : st) (o : nat) : Prop :=
  exists c, nth_error (objs s) o = Some c /\ dget (cur s) (c_id c) = Some o.
(** [t in cell.tags] *)
Definition carries (s : st) (o t : nat) : Prop :=
  exists c, nth_error (objs s) o = Some c /\ In t (c_tags c).
(** [t in cell.reactive_tags] *)
Definition marked (s : st) (o t : nat) : Prop :=
  exists c, nth_error (objs s) o = Some c /\ In t (c_rtags c).

(** [from_tag] returns exactly the current cells that carry the tag, each once. *)
Definition exact (s : st) : Prop :=
  forall t, NoDup (from_tag t s) /\ forall o, In o (from_tag t s) <-> current s o /\ carries s o t.

(** Counters grow: the kernel's counter never takes the counter of cells back. *)
Definition grows (s : st) (x : op) : Prop :=
  match x with Exec _ _ (Some n) => counter s < n | _ => True end.
(** A cell is never given the id of another cell. *)
Definition fresh (s : st) (x : op) : Prop :=
  match x with Rename _ new => dget (cur s) new = None | _ => True end.
(** Tags are only added, to current cells, and cells that get a new id have none. *)
Definition plain (s : st) (x : op) : Prop :=
  match x with
  | Tag t true cell => forall o, target cell s = Ok o -> ~ carries s o t
  | Tag t false cell => forall o, target cell s = Ok o -> current s o
  | Rename old _ => forall o t, dget (cur s) old = Some o -> ~ carries s o t
  | _ => True
  end.

(** A condition on every operation of a history, in the state in which it is performed. *)
Fixpoint always (P : st -> op -> Prop) hash (xs : list op) (s : st) : Prop :=
  match xs with
  | nil => True
  | x :: xs => P s x /\ forall s', do hash x s = Ok s' -> always P hash xs s'
  end.
