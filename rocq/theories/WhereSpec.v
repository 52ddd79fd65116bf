(** What it means for a run to be the last one that updated a variable. *)
Require Import List ZArith Bool Arith.
Import ListNotations.
Require Import Verif.Base Verif.SessionModel Verif.SessionSpec Verif.WhereModel.

(** [hist ok l t r]: [l] leads from the start to [t], where [r] is executing; the events of the session are as in
    SessionSpec.v, the other operations may happen at any time. *)
Inductive hist (ok : sess -> option nat -> event -> Prop) : list op -> st -> option nat -> Prop :=
| W_init : hist ok [] start None
| W_event l t r e t' r' : hist ok l t r -> bracketed r e r' -> ok (ss t) r e -> does t (Event e) = Ok t' ->
    hist ok (l ++ [Event e]) t' r'
| W_other l t r a t' : hist ok l t r -> (forall e, a <> Event e) -> does t a = Ok t' -> hist ok (l ++ [a]) t' r.

(** Not a run. *)
Definition not_run (a : op) : Prop := forall i f p, a <> Event (EExec i f p).

(** The id by which a cell that was called [i] is known after [l]. *)
Fixpoint known_as (l : list op) (i : nat) : nat :=
  match l with
  | [] => i
  | Event (ERename _ _ old new) :: l' => known_as l' (if Nat.eqb i old then new else i)
  | _ :: l' => known_as l' i
  end.

(** [x] is not assigned, deleted or set; the kernel may be told about it. *)
Definition quiet (x : nat) (a : op) : Prop :=
  match a with Assign y _ | Del y | Put y _ => y <> x | Event _ | Upsert _ => True end.

(** [x] is not assigned or deleted, and the kernel is not told about it; it may be set behind its back. *)
Definition unseen (x : nat) (a : op) : Prop :=
  match a with Assign y _ | Del y | Upsert y => y <> x | Event _ | Put _ _ => True end.

(** Nothing makes the kernel know [x]. *)
Definition unknown (x : nat) (a : op) : Prop :=
  match a with Assign y _ | Upsert y => y <> x | Event _ | Put _ _ | Del _ => True end.

(** [x] is not set, traced or not. *)
Definition unset (x : nat) (a : op) : Prop :=
  match a with Assign y _ | Put y _ => y <> x | Event _ | Upsert _ | Del _ => True end.
