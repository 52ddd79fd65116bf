(** What watchpoints promise. *)
Require Import List.
Import ListNotations.
Require Import Verif.Base Verif.WatchModel.

(** What the predicates say, for those that neither raise nor change the list. *)
Definition says (b : behaviour) (v : nat -> call -> bool) : Prop :=
  forall p k l, b p k l = (Ok (v p k), l).
(** A watchpoint holds if it has no predicate, or its predicate is true for the new value. *)
Definition holds (v : nat -> call -> bool) (k : call) (w : wp) : Prop :=
  match w_pred w with None => True | Some p => v p k = true end.

(** The members of the first list for which [P] holds, in order. *)
Inductive selects {A} (P : A -> Prop) : list A -> list A -> Prop :=
| sel_nil : selects P [] []
| sel_take a l r : P a -> selects P l r -> selects P (a :: l) (a :: r)
| sel_skip a l r : ~ P a -> selects P l r -> selects P (a :: l) r.

(** Operations that [Watchpoints] defines or that do not lengthen a list. *)
Definition inherited_growth (a : act) : Prop :=
  match a with Insert _ _ | IMul _ | SetSlice _ _ _ => True | _ => False end.
