(** What C105 means. *)
From Coq Require Import List Arith Bool.
From Verif Require Import Base SkipModel.
Import ListNotations.

(** All symbols of variables have their objects. *)
Definition in_sync (s : st) : Prop :=
  forall x y, dget (syms s) x = Some y -> env s x = Some (obj y).

(** Between cells. *)
Definition at_rest (s : st) : Prop := in_sync s /\ dwf (syms s) /\ upd s = [] /\ off s = false.

(** What is done without tracing is visible in the text: nothing is deleted, and
    what is assigned is among the assigned names. *)
Definition visible (names : list nat) (e : event) : Prop :=
  match e with
  | Assign false x _ => In x names
  | Del false _ => False
  | _ => True
  end.

Definition textual (t : stmt) : Prop := Forall (visible (dead t)) (happens t).

(** In what a statement did before it raised, everything was traced. *)
Definition seen (e : event) : Prop :=
  match e with Assign b _ _ => b = true | Del b _ => b = true | _ => True end.

(** The events of a cell. *)
Definition events (l : list stmt) (rest : list event) : list event :=
  flat_map happens l ++ rest.

(** Nothing happens to a variable and the list it is. *)
Definition spares (x : nat) (o : nat) (e : event) : Prop :=
  match e with
  | Assign _ z _ => z <> x
  | Del _ z => z <> x
  | Fill c _ => c <> o
  | Mutated z => z <> x
  | _ => True
  end.

(** No list is ever empty. *)
Definition no_empty_lists (s : st) (es : list event) : Prop :=
  (forall c, items s c <> Some []) /\
  Forall (fun e => match e with Fill _ l => l <> [] | _ => True end) es.
