(** Python's calling convention. *)
Require Import List Arith ZArith Bool.
Import ListNotations.
Require Import Verif.Base Verif.AnnoModel.

Definition params (sg : signature) : list nat := posonly sg ++ regular sg.

(** A legal signature. *)
Definition legal_sig (sg : signature) : Prop := NoDup (posonly sg ++ regular sg ++ kwonly sg).

(** The positional arguments that the function itself receives. [implicit]: the object is put in front (a method that
    is called through an object). It is no expression of the call: it has no symbols here. *)
Definition received (implicit : bool) (c : calls) : list (option argument) :=
  (if implicit then [None] else []) ++ map Some (positional c).

(** Parameter [p] is bound to [a] (None: the implicit object). *)
Inductive binds (implicit : bool) (sg : signature) (c : calls) (p : nat) : option argument -> Prop :=
| by_position i a : nth_error (params sg) i = Some p -> nth_error (received implicit c) i = Some a -> binds implicit sg c p a
| by_keyword a : In p (regular sg ++ kwonly sg) -> dget (keywords c) p = Some a -> binds implicit sg c p (Some a).

(** A call that Python accepts: no parameter gets two values. (What else Python demands is not needed.) *)
Definition legal_call (implicit : bool) (sg : signature) (c : calls) : Prop :=
  forall i p, nth_error (params sg) i = Some p -> In p (regular sg) -> i < length (received implicit c) -> dget (keywords c) p = None.

(** What has to be updated for an argument: its symbol, if it has one. *)
Definition updates_of (overwrite : bool) (a : option argument) : list update :=
  match a with Some (Some s :: _) => [(TSymbol s, overwrite)] | _ => [] end.

(** What a call has to do for a parameter that is declared as mutated: update the symbol of the argument that is bound
    to it, and nothing if it is not supplied. *)
Definition effect (implicit : bool) (sg : signature) (c : calls) (overwrite : bool) (p : nat) (u : list update) : Prop :=
  (exists a, binds implicit sg c p a /\ u = updates_of overwrite a) \/ ((forall a, ~ binds implicit sg c p a) /\ u = []).

(** A parameter that can be declared: it is no starred one. *)
Definition declarable (implicit : bool) (sg : signature) (p : nat) : Prop :=
  p <> n_module /\ p <> n_self /\ In p (posonly sg ++ regular sg ++ kwonly sg) /\ (implicit = true -> nth_error (params sg) 0 <> Some p).
