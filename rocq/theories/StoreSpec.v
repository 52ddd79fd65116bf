(** Specification of the cells to execute. *)
Require Import List Bool Arith.
Import ListNotations.
Require Import Verif.Base Verif.StoreModel.

Definition child (S : store) (a b : nat) : Prop :=
  exists l, dget (s_children S) a = Some l /\ In b l.
Definition parent (S : store) (a b : nat) : Prop :=
  exists l, dget (s_parents S) a = Some l /\ In b l.

(** A cell that should run again for its own sake. *)
Definition needs_run (S : store) (x : nat) : Prop :=
  ~ In x (s_executed S) \/ In x (s_ready S) \/ In x (s_waiting S) \/ In x (s_dirty S).

(** [p] is a parent of [x] whose value is out of date for [x]: always, or once [e] has run. *)
Definition stale_for (S : store) (x p : nat) : Prop :=
  exists l, dget (s_stale S) x = Some l /\ In p l.
Definition stale_once_a (S : store) (x e p : nat) : Prop :=
  exists d l, dget (s_by_exec S) x = Some d /\ In (e, l) d /\ In p l.
Definition stale_once_b (S : store) (x e p : nat) : Prop :=
  exists d l, dget (s_by_child S) e = Some d /\ In (x, l) d /\ In p l.

(** The two maps say the same. *)
Definition maps_agree (S : store) : Prop :=
  forall x e p, stale_once_a S x e p <-> stale_once_b S x e p.

(** No circular parents. *)
Definition no_circles (S : store) : Prop := forall x, ~ reach1 (parent S) x x.

(** Every cell that occurs as a parent has its own list of parents. *)
Definition parents_listed (S : store) : Prop :=
  forall a b, parent S a b -> exists l, dget (s_parents S) b = Some l.

(** [a] comes before [b] in the list. *)
Definition precedes (l : list nat) (a b : nat) : Prop :=
  exists l1 l2 l3, l = l1 ++ a :: l2 ++ b :: l3.

Definition known (S : store) (x : nat) : Prop :=
  (exists b, dget (s_cells S) x = Some b) /\ (exists i, dget (s_order S) x = Some i).

(** A child edge between two code cells of the notebook. *)
Definition code_child (S : store) (a b : nat) : Prop :=
  child S a b /\ dget (s_cells S) a = Some true /\ dget (s_cells S) b = Some true.
