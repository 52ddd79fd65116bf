(** When a parent is stale. *)
Require Import List Arith ZArith Bool.
Import ListNotations.
Require Import Verif.Base Verif.StaleModel.
Local Open Scope nat_scope.

(** Symbol [q] is [s] or part of what [s] holds. *)
Inductive part_of (w : world) : nat -> nat -> Prop :=
| part_self : forall q o, dget (w_up w) q = Some o -> part_of w q q
| part_up : forall q z s, dget (w_up w) q = Some (Some z) -> part_of w z s -> part_of w q s.
(** Cell [x] uses symbol [q] of its parent [p]. *)
Definition uses (w : world) (x p q : nat) : Prop := exists c d l, dget (w_cells w) x = Some c /\ In d (c_parents c) /\ In (p, l) d /\ In q l.
(** Cell [e] is above cell [x] in the notebook. *)
Definition above (w : world) (e x : nat) : Prop := exists i j, i < j /\ dget (w_pos w) i = Some e /\ dget (w_pos w) j = Some x.
(** Running [e] writes [s]: it did so when it ran, or it is an assignment in its text that the last check still found. *)
Definition writes (w : world) (e s : nat) : Prop :=
  exists c, dget (w_cells w) e = Some c /\ (In s (c_dynamic c) \/ In s (c_static c) /\ forall m, c_modified c = Some m -> In s m).
(** Once [e] has run, parent [p] of [x] is stale: something of what [x] has from [p] is written by [e], which is above [x]. *)
Definition stale_once (w : world) (x e p : nat) : Prop := exists q s, uses w x p q /\ part_of w q s /\ above w e x /\ writes w e s.
(** Parent [p] of [x], above it, is stale now: something that [x] has from it was written after [p] ran. *)
Definition stale_now (w : world) (x p : nat) : Prop :=
  exists q s t c pc, uses w x p q /\ dget (w_cells w) x = Some c /\ dget (w_cells w) p = Some pc /\ (c_pos pc < c_pos c)%Z /\
    part_of w q s /\ dget (w_time w) s = Some t /\ (c_ctr pc < t)%Z.

(** The tables as the frontend reads them. *)
Definition listed1 (d : dict (list nat)) (x p : nat) : Prop := exists l, dget d x = Some l /\ In p l.
Definition listed2 (d : dict (dict (list nat))) (x e p : nat) : Prop := exists r l, dget d x = Some r /\ dget r e = Some l /\ In p l.

(** Cells, symbols and positions that are mentioned exist. *)
Record sound (w : world) : Prop := {
  ok_pos : forall i x, dget (w_pos w) i = Some x -> dget (w_cells w) x <> None;
  ok_row : forall x c d p l, dget (w_cells w) x = Some c -> In d (c_parents c) -> In (p, l) d -> dget (w_cells w) p <> None;
  ok_time : forall x p q s, uses w x p q -> part_of w q s -> dget (w_time w) s <> None }.
(** No symbol is inside itself, down to depth [n]. *)
Inductive depth (w : world) : nat -> nat -> Prop :=
| depth_top : forall y n, dget (w_up w) y = Some None -> depth w y (S n)
| depth_in : forall y z n, dget (w_up w) y = Some (Some z) -> depth w z n -> depth w y (S n).

(** The symbols that cells use are nested at most [f] deep. *)
Definition shallow (f : nat) (w : world) : Prop := forall x p q, uses w x p q -> exists n, n <= f /\ depth w q n.
(** Between two checks nothing but new usages is recorded. *)
Record grows (w w' : world) : Prop := {
  same_applies : w_applies w' = w_applies w;
  same_pos : w_pos w' = w_pos w;
  same_up : w_up w' = w_up w;
  same_time : w_time w' = w_time w;
  same_cells : forall x c, dget (w_cells w) x = Some c -> exists c', dget (w_cells w') x = Some c' /\
    c_pos c' = c_pos c /\ c_ctr c' = c_ctr c /\ c_static c' = c_static c /\ c_modified c' = c_modified c /\ c_dynamic c' = c_dynamic c;
  more_uses : forall x p q, uses w x p q -> uses w' x p q }.
