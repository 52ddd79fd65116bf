(** Python's exception matching, and what it means that a clause swallows an interrupt. *)
Require Import List Bool.
Import ListNotations.
Require Import Verif.Base Verif.IntrModel.

(** [issubclass], from the bases that each type is declared with. *)
Inductive sub (bases : nat -> list nat) : nat -> nat -> Prop :=
| sub_refl t : sub bases t t
| sub_step t b u : In b (bases t) -> sub bases b u -> sub bases t u.

(** What is true of Python's types. *)
Record python (bases : nat -> list nat) (E : env) : Prop := mkPython {
  p_exc : forall t, is_exc E t = true <-> sub bases t BaseExc;
  p_direct : forall t, In t (direct E) <-> In BaseExc (bases t);
  p_key : bases KeyInt = [BaseExc];
  p_place : bases Placeholder = [BaseExc];
  p_root : forall t, sub bases BaseExc t -> is_exc E t = true -> t = BaseExc;
  p_top : ~ In BaseExc (bases BaseExc) }.

(** An exception of type [x] is caught by a clause with these types. *)
Definition catches (bases : nat -> list nat) (ts : list nat) (x : nat) : Prop := exists t, In t ts /\ sub bases x t.

(** One evaluation of an [except] clause. *)
Record event := mkEvent { e_exc : nat; e_node : nat; e_types : list item }.
(** The clause swallows an interrupt: an interrupt is handled, what the user wrote is legal, and what is used
    instead of it, or else what the user wrote, catches the interrupt. *)
Definition swallows bases E (e : event) (num : dict nat) : Prop :=
  e_exc e = KeyInt /\ valid E (e_types e) = true /\
  catches bases (match fst (handle E (e_exc e) (e_node e) (e_types e) num) with
                 | Some ts => ts | None => types_of (e_types e) end) KeyInt.
(** How often the clause at a node swallows an interrupt in a history. *)
Inductive swallowed bases E (node : nat) : list event -> dict nat -> nat -> Prop :=
| sw_nil num : swallowed bases E node [] num 0
| sw_yes e es num n : e_node e = node -> swallows bases E e num ->
    swallowed bases E node es (snd (handle E (e_exc e) (e_node e) (e_types e) num)) n ->
    swallowed bases E node (e :: es) num (S n)
| sw_no e es num n : (e_node e <> node \/ ~ swallows bases E e num) ->
    swallowed bases E node es (snd (handle E (e_exc e) (e_node e) (e_types e) num)) n ->
    swallowed bases E node (e :: es) num n.
