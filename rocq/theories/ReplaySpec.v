(** What it means that re-running a slice reproduces the original behaviour. *)
Require Import List ZArith Bool Arith.
Import ListNotations.
Require Import Verif.Base Verif.SessionModel Verif.SliceModel Verif.ReplayModel.

(** Plain execution of several pieces of code, one after the other: what each of them reads
    and writes, and the variables at the end. *)
Fixpoint behaviours (st : store) (ps : list prog) : list (list act) :=
  match ps with
  | [] => []
  | p :: ps' => snd (eval st p) :: behaviours (fst (eval st p)) ps'
  end.

Fixpoint store_after (st : store) (ps : list prog) : store :=
  match ps with
  | [] => st
  | p :: ps' => store_after (fst (eval st p)) ps'
  end.

(** [t] reads [x] before writing it. *)
Definition reads_outside (t : list act) (x : nat) : Prop :=
  exists a v b, t = a ++ ARd x v :: b /\ forall v', ~ In (AWr x v') a.

Definition writes (t : list act) (x : nat) : Prop := exists v, In (AWr x v) t.

Definition touches (t : list act) (x : nat) : Prop :=
  writes t x \/ exists v, In (ARd x v) t.

Definition writes_at (T : list (list act)) (w x : nat) : Prop :=
  exists t, nth_error T w = Some t /\ writes t x.

(** In the history [T] (one entry per execution), number [u] reads a value of [x] that
    number [w] wrote: [w] is the last one before [u] to write [x]. *)
Definition reads_from (T : list (list act)) (u w x : nat) : Prop :=
  (exists t, nth_error T u = Some t /\ reads_outside t x) /\
  w < u /\ writes_at T w x /\ forall w', w < w' < u -> ~ writes_at T w' x.

(** The elements of [l] at the positions [is]. *)
Definition select {A} (l : list A) (is : list nat) : list A :=
  flat_map (fun u => match nth_error l u with Some a => [a] | None => [] end) is.

(** Running only the code at the positions [is] gives each of them the inputs and outputs
    that it had when all of [ps] ran. *)
Definition reproduces (ps : list prog) (is : list nat) : Prop :=
  behaviours empty (select ps is) = select (behaviours empty ps) is.

(** Cell [ids[u]] is executed for the [u]-th time. Two things that make the tracker drop a
    dependency: reading from an execution that has been superseded (flow.py:439-441), and
    two cells reading from each other (mixin.py:303-305). *)
Definition reads_current (ids : list nat) (T : list (list act)) : Prop :=
  forall u w x i, reads_from T u w x -> nth_error ids w = Some i ->
    forall u', w < u' <= u -> nth_error ids u' <> Some i.

Definition one_way (ids : list nat) (T : list (list act)) : Prop :=
  forall u w x u' w' x' i j, i <> j -> reads_from T u w x -> reads_from T u' w' x' ->
    nth_error ids u = Some i -> nth_error ids w = Some j ->
    nth_error ids u' = Some j -> nth_error ids w' <> Some i.
