(** What C102 means. *)
From Coq Require Import List Arith Bool.
From Verif Require Import Base WroteModel.
Import ListNotations.

(** What the cell is taken to write once its statements are done
    (frontend.py 300-303 without the check of the text). *)
Definition recorded (c : cell) (y : nat) : Prop := In y (stat c) \/ In y (dyn c).

(** The symbol was assigned in the run. *)
Definition written (es : list event) (y : nat) : Prop :=
  exists w b, In (Write w y b) es.

(** The symbol is an element of one that was assigned statically. *)
Definition element (es : list event) (y : nat) : Prop :=
  exists w s n, In (Write w s true) es /\ space w s = Some n /\ inside w y = Some n.

(** Throughout the run the symbol is a plain variable: it has no elements and
    is no element. *)
Definition plain (es : list event) (y : nat) : Prop :=
  forall w s b, In (Write w s b) es -> space w y = None /\ inside w y = None.

(** In some statement the last assignment to the symbol was not static.
    [last]: the last one of the present statement. *)
Fixpoint moving (y : nat) (last : option bool) (es : list event) : Prop :=
  match es with
  | [] => last = Some false
  | Done :: r => last = Some false \/ moving y None r
  | Write _ s b :: r => moving y (if s =? y then Some b else last) r
  end.
