(** Model of core/ipyflow/data_model/timestamp.py. *)
Require Import List ZArith Bool.
Import ListNotations.
Open Scope Z_scope.

(** timestamp.py:36-38, [class Timestamp(NamedTuple)]. *)
Record ts := mkTs { cell_num : Z; stmt_num : Z }.

(** timestamp.py:127, [_TS_UNINITIALIZED = Timestamp(-1, -1)]. *)
Definition ts_uninit : ts := mkTs (-1) (-1).

(** timestamp.py:60-63, [is_initialized]. *)
Definition ts_is_initialized (t : ts) : bool :=
  (cell_num ts_uninit <? cell_num t) && (stmt_num ts_uninit <? stmt_num t).

(** timestamp.py:65-68, [plus]. *)
Definition ts_plus (t : ts) (dc ds : Z) : ts :=
  mkTs (cell_num t + dc) (stmt_num t + ds).

(** timestamp.py:88-96, [__eq__] between two timestamps: equality of the tuples of
    field values. The [None] and non-timestamp branches are not modelled. *)
Definition ts_eqb (a b : ts) : bool :=
  (cell_num a =? cell_num b) && (stmt_num a =? stmt_num b).

(** [<] is inherited from [NamedTuple], i.e. lexicographic comparison of tuples. *)
Definition ts_ltb (a b : ts) : bool :=
  (cell_num a <? cell_num b)
  || ((cell_num a =? cell_num b) && (stmt_num a <? stmt_num b)).

(** [a <= b] on tuples. *)
Definition ts_leb (a b : ts) : bool :=
  (cell_num a <? cell_num b)
  || ((cell_num a =? cell_num b) && (stmt_num a <=? stmt_num b)).

(** The module globals [_cell_offset], [_stmt_offset] (timestamp.py:32-33), the two
    counters read by [current] (lines 46-47: [flow().cell_counter()] and
    [tracer().module_stmt_counter()]) and whether a tracer exists (line 44). *)
Record tstate := mkTState {
  cell_offset : Z;
  stmt_offset : Z;
  cell_counter : Z;
  stmt_counter : Z;
  tracer_initialized : bool
}.

(** timestamp.py:41-50, [Timestamp.current]. *)
Definition ts_current (s : tstate) : ts :=
  if tracer_initialized s then
    mkTs (cell_counter s + cell_offset s) (stmt_counter s + stmt_offset s)
  else ts_uninit.

(** Programs that use the API: read the clock, let the counters advance, raise,
    run in sequence, catch, and open a [with Timestamp.offset(dc, ds)] block. *)
Inductive tprog :=
| TSkip
| TObserve
| TTick (dc ds : Z)
| TRaise
| TSeq (p q : tprog)
| TTry (p q : tprog)
| TOffset (dc ds : Z) (body : tprog).

Definition add_offset (s : tstate) (dc ds : Z) : tstate :=
  mkTState (cell_offset s + dc) (stmt_offset s + ds)
           (cell_counter s) (stmt_counter s) (tracer_initialized s).

Definition tick (s : tstate) (dc ds : Z) : tstate :=
  mkTState (cell_offset s) (stmt_offset s)
           (cell_counter s + dc) (stmt_counter s + ds) (tracer_initialized s).

(** Running a program: final globals, the timestamps it saw, and whether an
    exception escaped. The [TOffset] case is timestamp.py:70-83: add to the
    globals, run the body, and subtract in [finally], on both exits. *)
Fixpoint trun (p : tprog) (s : tstate) : tstate * list ts * bool :=
  match p with
  | TSkip => (s, [], false)
  | TObserve => (s, [ts_current s], false)
  | TTick dc ds => (tick s dc ds, [], false)
  | TRaise => (s, [], true)
  | TSeq p q =>
      match trun p s with
      | (s1, o1, true) => (s1, o1, true)
      | (s1, o1, false) =>
          match trun q s1 with (s2, o2, r) => (s2, o1 ++ o2, r) end
      end
  | TTry p q =>
      match trun p s with
      | (s1, o1, false) => (s1, o1, false)
      | (s1, o1, true) =>
          match trun q s1 with (s2, o2, r) => (s2, o1 ++ o2, r) end
      end
  | TOffset dc ds body =>
      match trun body (add_offset s dc ds) with
      | (s1, o1, r) => (add_offset s1 (- dc) (- ds), o1, r)
      end
  end.
