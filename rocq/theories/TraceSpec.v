(** What it means that the tracer knows the running frame. *)
From Coq Require Import List Arith Bool.
From Verif Require Import Base TraceModel.
Import ListNotations.

(** The scopes of the frames that run, innermost first, library code left out. Between two top
    level statements no frame of the notebook runs: then it is the global scope alone. *)
Definition scopes (w : world) : list nat :=
  match w_frames w with
  | [] => [0]
  | r => map f_scope (filter (fun f => sees (f_kind f)) r)
  end.

(** The scopes on the tracer's stack, innermost first. The first is where assignments go. *)
Definition believed (w : world) : list nat :=
  map l_scope (t_cur (w_tracer w) :: t_stack (w_tracer w)).

Definition on (w : world) : Prop := t_on (w_tracer w) = true.
Definition off (w : world) : Prop := t_on (w_tracer w) = false.

(** The innermost frame runs instrumented code. *)
Definition instrumented (w : world) : Prop :=
  exists f r, w_frames w = f :: r /\ sees (f_kind f) = true.

(** The running frame is that of a top level statement. *)
Definition top_level (w : world) : Prop := exists f, w_frames w = [f].

Definition finished (w : world) (s : nat) : Prop := In s (t_done (w_tracer w)).

(** The last statement that the tracer saw starting. *)
Definition last_started (w : world) : option nat := l_prev (t_cur (w_tracer w)).

(** Which events can happen in which state, whatever the program:
    - a cell starts with the frame of a top level statement, and calls are made by statements;
    - there is a frame to leave;
    - statement events come from instrumented code, and a statement lies outside any function iff
      it runs in the frame of a top level statement. *)
Definition possible (p : prog) (w : world) (e : event) : Prop :=
  match e with
  | ECall k _ _ =>
      (w_frames w = [] -> k = Cell) /\ (w_frames w <> [] -> last_started w <> None)
  | EReturn _ _ | EExc _ => w_frames w <> []
  | EBefore s | EAfter s => instrumented w /\ (p_initial p s = true <-> top_level w)
  | EAfterCall | EOff => instrumented w
  end.

(** The restrictions of the positive theorems, each broken by some program (see the
    refutations). [unnoticed] says that a frame was left while tracing was off and no instrumented
    code has run since.
    - [ECall]: after an unnoticed exit the caller runs instrumented code before the next call;
    - [EBefore] while tracing is off, at top level: the last started statement is a [for], [if]
      or [with] of the top level;
    - [EBefore]: if the last started statement is a [for], [if] or [with] of the top level, then
      the running frame is the top level one. *)
Definition tame (p : prog) (w : world) (unnoticed : bool) (e : event) : Prop :=
  match e with
  | ECall _ _ _ => unnoticed = false
  | EBefore s =>
      (off w -> top_level w -> ~ finished w s ->
         exists q, last_started w = Some q /\ p_header p q = true /\ p_initial p q = true) /\
      (forall q, last_started w = Some q -> p_header p q = true -> p_initial p q = true ->
         top_level w)
  | _ => True
  end.

(** Is there an unnoticed exit after [e] happened in [w]? *)
Definition unnoticed_after (w : world) (unnoticed : bool) (e : event) : bool :=
  match e with
  | EReturn _ _ => unnoticed || negb (t_on (w_tracer w))
  | EBefore s => unnoticed && memb s (t_done (w_tracer w))
  | EAfter _ | EAfterCall => false
  | _ => unnoticed
  end.

(** Every event of the list is possible when its turn comes. *)
Fixpoint real (p : prog) (w : world) (es : list event) : Prop :=
  match es with
  | [] => True
  | e :: es' => possible p w e /\ real p (step p w e) es'
  end.

(** ... and within the restrictions. *)
Fixpoint legal (p : prog) (w : world) (unnoticed : bool) (es : list event) : Prop :=
  match es with
  | [] => True
  | e :: es' =>
      possible p w e /\ tame p w unnoticed e /\
      legal p (step p w e) (unnoticed_after w unnoticed e) es'
  end.

(** The effects of statement [s] were recorded in scope [sc]. *)
Definition recorded (w : world) (s sc : nat) : Prop := In (s, sc) (t_log (w_tracer w)).

(** The statement that the tracer last saw starting at top level has not been finished. *)
Definition unfinished_top (w : world) : Prop :=
  exists s, l_prev (last (t_stack (w_tracer w)) (t_cur (w_tracer w))) = Some s /\ ~ finished w s.
