(** What the debugger should do to the capture of dataflow. *)
Require Import List ZArith Bool Arith.
Import ListNotations.
Require Import Verif.Base Verif.SessionModel Verif.SessionSpec Verif.AttachModel.

(** What happens while the debugger is attached, if no cell asks for the capture. *)
Definition debugging (a : action) : Prop :=
  match a with
  | Attach | Ask => True
  | Detach => False
  | Run _ body => ~ In (Turn true) body
  end.

(** The same parents and children are reported for each cell. *)
Definition same_edges (s s' : sess) : Prop :=
  (forall x c p sym, lists_parent s' x c p sym <-> lists_parent s x c p sym) /\
  (forall x p c sym, lists_child s' x p c sym <-> lists_child s x p c sym).

(** Whether the capture is on after some text, and after some actions. *)
Fixpoint on_after (b : bool) (body : list item) : bool :=
  match body with
  | [] => b
  | Turn b' :: body => on_after b' body
  | Uses _ _ _ :: body => on_after b body
  end.
Definition on_next (b : bool) (a : action) : bool :=
  match a with Attach => false | Detach => true | Ask => b | Run _ body => on_after b body end.

(** No run during which the capture is turned off, for good. *)
Fixpoint whole_runs (b : bool) (l : list action) : Prop :=
  match l with
  | [] => True
  | a :: l =>
      match a with Run _ body => b = true -> on_after true body = true | _ => True end /\
      whole_runs (on_next b a) l
  end.
