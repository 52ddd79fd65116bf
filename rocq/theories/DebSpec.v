(** What debouncing means, in terms of what happened. *)
Require Import List Arith Bool.
Import ListNotations.
Require Import Verif.Base Verif.DebModel.

(** Nothing is going on: no call, and every timer's thread is over. *)
Definition quiet (s : st) : Prop := at_ s = Idle /\ forall i x, nth_error (timers s) i = Some x -> t_phase x = Over.

(** The computation of call [i] was started. *)
Definition fired (i : nat) (s : st) : Prop := exists a t, In (EFire i a t) (log s).
Definition started (i : nat) (s : st) : Prop := exists a t, In (EStart i a t) (log s).

Definition fire_of (e : event) : list nat := match e with EFire i _ _ => [i] | _ => [] end.

(** Every call came back before the delay of its timer was over: whenever the main thread returns in the run, the
    time is before the last timer's deadline. *)
Fixpoint prompt (w : nat) (ls : list label) (s : st) : Prop :=
  match ls with
  | [] => True
  | l :: ls =>
      match step w l s with
      | Some s' =>
          (l = Return -> forall i x, current s = Some i -> nth_error (timers s) i = Some x -> now s < t_deadline x) /\
          prompt w ls s'
      | None => True
      end
  end.

Definition busy (x : timer) : Prop := match t_phase x with Running (Some _) => True | _ => False end.
(** No two computations run at the same time: a computation is entered only when no other one has been. *)
Fixpoint separate (w : nat) (ls : list label) (s : st) : Prop :=
  match ls with
  | [] => True
  | l :: ls =>
      match step w l s with
      | Some s' =>
          (forall i, l = Enter i -> forall j x, nth_error (timers s) j = Some x -> ~ busy x) /\ separate w ls s'
      | None => True
      end
  end.
