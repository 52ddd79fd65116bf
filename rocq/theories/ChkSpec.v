(** The program a verdict on a cell is about, and when a verdict is that of the
    program as it stands. *)

From Coq Require Import List Bool Arith Sorted.
From Verif Require Import Base ChkModel.
Import ListNotations.

(** The cell of a counter is the present one of its id. *)
Definition present (S : state) (n : nat) : Prop :=
  exists c, dget (cells S) n = Some c /\ dget (current S) (cid c) = Some n.

Definition has_content (S : state) (n txt : nat) : Prop :=
  exists c, dget (cells S) n = Some c /\ content c = txt.

(** The declarations: every top level symbol of something live, once, with the
    type of the object it has now. *)
Definition declarations (O : outside) (S : state) (live : list nat) (decls : list (nat * nat))
  : Prop :=
  NoDup (map fst decls) /\
  forall x t, In (x, t) decls <->
    exists y s, In y live /\ top O y = Some x /\ dget (syms S) x = Some s /\ text O (obj s) = t.

(** The contents: of the cell itself and of those it depends on that are present,
    as they are now, in the order they were run. *)
Definition contents (S : state) (ctr : nat) (live_ctrs : list nat) (cs : list nat) : Prop :=
  exists ctrs, StronglySorted lt ctrs /\
    (forall n, In n ctrs <-> n = ctr \/ (In n live_ctrs /\ present S n)) /\
    Forall2 (has_content S) ctrs cs.

(** A verdict is that of the type checker on the program as it stands. *)
Definition up_to_date (O : outside) (S : state) (ctr : nat) (live live_ctrs : list nat)
  (b : bool) : Prop :=
  exists decls cs, declarations O S live decls /\ contents S ctr live_ctrs cs /\
    b = mypy O decls cs.

(** The verdict of a cell is open: it was just run, or has been discarded. *)
Definition open_verdict (S : state) (ctr : nat) : Prop :=
  exists c, dget (cells S) ctr = Some c /\ verdict c = None /\ override c = false.

(** The cells of the program are as they were. *)
Definition same_cells (S S' : state) (ctrs : list nat) : Prop :=
  forall n, In n ctrs ->
    (forall txt, has_content S n txt <-> has_content S' n txt) /\ (present S n <-> present S' n).

(** How often a symbol is given an object. *)
Definition updates (x : nat) (es : list event) : nat :=
  length (filter (fun e => match e with EUpdate y _ _ => y =? x | _ => false end) es).

(** Between two checks: no other check of the cell, and no new run of it. *)
Definition no_check (ctr : nat) (es : list event) : Prop :=
  (forall live lc, ~ In (ECheck ctr live lc) es) /\ (forall id txt, ~ In (ERun ctr id txt) es).
