(** What is to be shown of a traceback, and which outputs are to be kept. *)
From Coq Require Import List Arith Bool String.
From Verif Require Import Base ShownModel.
Import ListNotations.
Local Open Scope nat_scope.
Local Open Scope list_scope.

(** The traceback that starts at [tb] consists of the objects [l]. *)
Inductive chain (h : tbs) : option nat -> list (nat * frame) -> Prop :=
| chain_nil : chain h None []
| chain_cons r f next l : dget h r = Some (f, next) -> chain h next l -> chain h (Some r) ((r, f) :: l).

(** What is left of a traceback. *)
Definition visible (k : names) (l : list (nat * frame)) : list (nat * frame) :=
  match l with
  | [] => []
  | x :: r => x :: filter (fun x => negb (hidden k (snd x))) r
  end.

(** The lengths of all that an output consists of. *)
Definition lengths (o : output) : list (option nat) := List.concat (data o) ++ [Some (stdout o); Some (stderr o)].

(** How long an output is, if everything in it has a length. *)
Fixpoint total (l : list (option nat)) : nat :=
  match l with [] => 0 | Some n :: r => n + total r | None :: r => total r end.
Definition measurable (o : output) : Prop := Forall (fun d => d <> None) (lengths o).

(** The same cell is run again later. *)
Definition superseded (rs : list run) (i : nat) (r : run) : Prop :=
  exists j r', i < j /\ nth_error rs j = Some r' /\ r_id r' = r_id r.
