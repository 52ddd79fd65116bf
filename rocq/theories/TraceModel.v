(** The tracer's notion of "the frame that is running": the call stack it keeps, the depth
    counters, and how tracing is switched off and on again.
    Code: core/ipyflow/tracing/ipyflow_tracer.py.

    What is real (the interpreter's own frames) is kept beside the tracer's state, because the
    tracer reads it (user call depth) and because the claims compare the two.
    Left out: everything else the handlers do (symbols, lexical stacks, literals, watchpoints),
    the assertions and log messages of developer mode, and [<traced_lambda>] frames. An exception
    inside a handler is swallowed outside developer mode (151-154): the handler ends there and the
    state stays as it was at that point. *)
From Coq Require Import List Arith Bool.
From Verif Require Import Base.
Import ListNotations.

(** Where a frame's code comes from: a cell, another instrumented file, a file without
    instrumentation, or one of ipyflow / IPython / pytest. ipyflow_tracer.py 107-118, 125-143. *)
Inductive kind := Cell | Instrumented | Library | Hidden.

(** Do call, return and statement events reach the tracer from such a frame?
    This is pyccolo's file filter, not part of the repository. *)
Definition sees (k : kind) : bool :=
  match k with Cell | Instrumented => true | Library | Hidden => false end.

(** get_user_call_stack_depth counts the frame: ipyflow_tracer.py 136-141. *)
Definition counted (k : kind) : bool :=
  match k with Hidden => false | _ => true end.

(** external_call_depth counts the frame: ipyflow_tracer.py 109-111, 116-118. *)
Definition external (k : kind) : bool :=
  match k with Cell => false | Instrumented => true | Library => true | Hidden => false end.

(** A frame of the interpreter. [f_scope] names the scope that belongs to the frame: 0 for the
    frame of a top level statement (the global scope), a number of its own for any other call.
    (statement.py 263-303 makes a scope per call of a function.) *)
Record frame := { f_scope : nat; f_kind : kind }.

(** What is fixed for a run: the number of counted frames below the notebook's own (asyncio,
    tornado, runpy, ...), the limit on external calls (flow.py 163-166), which statements lie outside
    any function, and which are [for], [if], [with] (ipyflow_tracer.py 1595-1598). *)
Record prog := {
  p_base : nat;
  p_max : nat;
  p_initial : nat -> bool;
  p_header : nat -> bool }.

(** The fields of [call_stack] that matter here: ipyflow_tracer.py 199-220. *)
Record level := {
  l_scope : nat;          (* cur_frame_original_scope *)
  l_udepth : nat;         (* user_call_depth *)
  l_depth : nat;          (* saved_call_depth *)
  l_ext : nat;            (* saved_external_call_depth *)
  l_prev : option nat }.  (* prev_trace_stmt_in_cur_frame *)

Inductive evk := KCall | KReturn | KExc | KAfter.

(** ipyflow_tracer.py 90-91, 171-197. [t_off] is tracing_disabled_user_call_depth, [None] for -1;
    [t_done] the statements with [finished] set; [t_log] the statements whose effects were recorded
    (statement.py 717-733), each with the scope they were recorded in. *)
Record tracer := {
  t_on : bool;
  t_depth : nat;
  t_ext : nat;
  t_off : option nat;
  t_cur : level;
  t_stack : list level;   (* innermost first *)
  t_done : list nat;
  t_last : option nat;    (* prev_trace_stmt *)
  t_event : option evk;   (* prev_event *)
  t_log : list (nat * nat) }.

Definition set_on (b : bool) (o : option nat) (t : tracer) : tracer :=
  {| t_on := b; t_depth := t_depth t; t_ext := t_ext t; t_off := o; t_cur := t_cur t;
     t_stack := t_stack t; t_done := t_done t; t_last := t_last t; t_event := t_event t;
     t_log := t_log t |}.

Definition set_depths (d e : nat) (t : tracer) : tracer :=
  {| t_on := t_on t; t_depth := d; t_ext := e; t_off := t_off t; t_cur := t_cur t;
     t_stack := t_stack t; t_done := t_done t; t_last := t_last t; t_event := t_event t;
     t_log := t_log t |}.

Definition set_levels (c : level) (s : list level) (t : tracer) : tracer :=
  {| t_on := t_on t; t_depth := t_depth t; t_ext := t_ext t; t_off := t_off t; t_cur := c;
     t_stack := s; t_done := t_done t; t_last := t_last t; t_event := t_event t;
     t_log := t_log t |}.

Definition set_event (s : nat) (k : evk) (t : tracer) : tracer :=
  {| t_on := t_on t; t_depth := t_depth t; t_ext := t_ext t; t_off := t_off t; t_cur := t_cur t;
     t_stack := t_stack t; t_done := t_done t; t_last := Some s; t_event := Some k;
     t_log := t_log t |}.

Definition with_prev (s : nat) (l : level) : level :=
  {| l_scope := l_scope l; l_udepth := l_udepth l; l_depth := l_depth l; l_ext := l_ext l;
     l_prev := Some s |}.

(** finished_execution_hook: statement.py 717-733. *)
Definition finish (s : nat) (t : tracer) : tracer :=
  if memb s (t_done t) then t
  else {| t_on := t_on t; t_depth := t_depth t; t_ext := t_ext t; t_off := t_off t;
          t_cur := t_cur t; t_stack := t_stack t; t_done := s :: t_done t; t_last := t_last t;
          t_event := t_event t; t_log := t_log t ++ [(s, l_scope (t_cur t))] |}.

(** get_user_call_stack_depth: ipyflow_tracer.py 129-143, over the interpreter's frames,
    innermost first. *)
Definition depth (p : prog) (r : list frame) : nat :=
  length (filter (fun f => counted (f_kind f)) r) + p_base p.

(** _tracked_disable_tracing: ipyflow_tracer.py 389-398. *)
Definition disable (p : prog) (r : list frame) (t : tracer) : tracer :=
  if t_on t then set_on false (Some (depth p r)) t else t.

(** The loop 1627-1632: the lowest entry of the stack, counted from the bottom, whose depth is at
    least [c]. [get_field(depth=-i)] is the i-th entry from the bottom. *)
Fixpoint lowest (c : nat) (bottom_first : list level) (i : nat) : option nat :=
  match bottom_first with
  | [] => None
  | l :: ls => if c <=? l_udepth l then Some i else lowest c ls (S i)
  end.

(** _call_stack_length_for_reenabling_tracing: ipyflow_tracer.py 1607-1635. [None] for -1. Asking
    [None] whether it is finished raises AttributeError (1623). *)
Definition length_for (p : prog) (r : list frame) (t : tracer) : res (option nat) :=
  let c := depth p r in
  let late := match t_off t with None => true | Some d => d <? c end in
  if late then Ok None
  else
    let top := match rev (t_stack t) with [] => l_prev (t_cur t) | l :: _ => l_prev l end in
    match top with
    | None => Err AttributeError
    | Some s =>
        if memb s (t_done t) then Ok None
        else match lowest c (rev (t_stack t)) 0 with
             | Some i => Ok (Some i)
             | None => if c <=? l_udepth (t_cur t) then Ok (Some (length (t_stack t)))
                       else Ok None
             end
    end.

(** The loop 1652-1653: pop until [n] entries are left. *)
Fixpoint pop_to (n : nat) (c : level) (s : list level) : level * list level :=
  match s with
  | [] => (c, [])
  | l :: ls => if length s <=? n then (c, s) else pop_to n l ls
  end.

(** _try_reenable_tracing: ipyflow_tracer.py 1637-1665. *)
Definition reenable (p : prog) (r : list frame) (empty : option nat) (initial : bool)
    (t : tracer) : res (bool * tracer) :=
  rbind (length_for p r t) (fun n =>
  if negb initial && match n with None => true | _ => false end then Ok (false, t)
  else
    let n' := match n with None => 0 | Some i => i end in
    let (c, s) := pop_to n' (t_cur t) (t_stack t) in
    let t1 := set_levels c s t in
    let d := match s, empty with [], Some d => d | _, _ => l_depth c end in
    Ok (true, set_on true None (set_depths d (l_ext c) t1))).

(** _check_prev_stmt_done_executing_hook: ipyflow_tracer.py 357-383. [ret] says that the
    statement of the event is a [return]. *)
Definition check_prev (p : prog) (k : evk) (s : nat) (ret : bool) (t : tracer) : tracer :=
  let t1 := match k with
            | KAfter => if p_initial p s
                        then let (c, st) := pop_to 0 (t_cur t) (t_stack t) in set_levels c st t
                        else t
            | _ => t
            end in
  let t2 := match k, t_event t1 with
            | KReturn, Some KCall | KReturn, Some KExc => t1
            | KReturn, _ => match t_last t1 with None => t1 | Some q => finish q t1 end
            | _, _ => t1
            end in
  match k with
  | KAfter => finish s t2
  | KReturn => if ret then finish s t2 else t2
  | _ => t2
  end.

(** _handle_call_transition: ipyflow_tracer.py 333-355. [sc] is the scope of the new frame. *)
Definition call_transition (p : prog) (r : list frame) (sc s : nat) (t : tracer) : tracer :=
  if p_max p <=? t_ext t then disable p r t
  else
    let l := {| l_scope := sc; l_udepth := Nat.max (depth p r) 1; l_depth := t_depth t;
                l_ext := t_ext t; l_prev := Some s |} in
    set_levels l (t_cur t :: t_stack t) t.

(** _handle_return_transition: ipyflow_tracer.py 400-482, the stack part. The flag says that the
    handler was left by the failing assertion on 415. *)
Definition return_transition (p : prog) (r : list frame) (t : tracer) : bool * tracer :=
  match t_stack t with
  | [] => (false, disable p r t)
  | l :: ls =>
      (match l_prev l with None => true | Some _ => false end,
       if t_on t then set_levels l ls t else t)
  end.

(** after_stmt: ipyflow_tracer.py 1501-1530, with handle_other_sys_events 1772-1796 and
    state_transition_hook 484-498. *)
Definition after_stmt (p : prog) (r : list frame) (s : nat) (t : tracer) : tracer :=
  let go t1 :=
    if memb s (t_done t1) then t1 else set_event s KAfter (check_prev p KAfter s false t1) in
  if t_on t then go t
  else match reenable p r (Some 1) (p_initial p s) t with
       | Ok (true, t1) => go t1
       | _ => t
       end.

(** before_stmt: ipyflow_tracer.py 1582-1605. *)
Definition before_stmt (p : prog) (r : list frame) (s : nat) (t : tracer) : tracer :=
  if memb s (t_done t) then t
  else
    let t1 := match l_prev (t_cur t) with
              | Some q => if p_header p q then after_stmt p r q t else t
              | None => t
              end in
    let t2 := set_levels (with_prev s (t_cur t1)) (t_stack t1) t1 in
    if t_on t2 then t2
    else match reenable p r None (p_initial p s) t2 with
         | Ok (_, t3) => t3
         | Err _ => t2
         end.

(** after_call: ipyflow_tracer.py 1258-1282, the part about re-enabling. *)
Definition after_call (p : prog) (r : list frame) (t : tracer) : tracer :=
  if t_on t then t
  else match reenable p r (Some 1) false t with
       | Ok (_, t1) => t1
       | Err _ => t
       end.

(** What happens in the interpreter.
    [ECall k s seen]: a frame of kind [k] is entered; [s] is the statement the tracer finds for
      it, [seen] whether that statement was last called from the same place (1758-1761).
    [EReturn s ret]: the innermost frame is left, normally or not; [s] is the statement found for
      it, [ret] whether that is a [return].
    [EExc s]: the exception event before such an exit.
    [EBefore s], [EAfter s], [EAfterCall]: events of instrumented code.
    [EOff]: the handlers of 852-865 and 1200-1208, which switch tracing off. *)
Inductive event :=
  | ECall (k : kind) (s : nat) (seen : bool)
  | EReturn (s : nat) (ret : bool)
  | EExc (s : nat)
  | EBefore (s : nat)
  | EAfter (s : nat)
  | EAfterCall
  | EOff.

(** The interpreter's frames, innermost first, the number for the next scope, the tracer. *)
Record world := { w_frames : list frame; w_next : nat; w_tracer : tracer }.

Definition level0 : level :=
  {| l_scope := 0; l_udepth := 1; l_depth := 0; l_ext := 0; l_prev := None |}.

(** The tracer after [reset]: ipyflow_tracer.py 90-91, 161-237. *)
Definition tracer0 : tracer :=
  {| t_on := true; t_depth := 0; t_ext := 0; t_off := None; t_cur := level0; t_stack := [];
     t_done := []; t_last := None; t_event := None; t_log := [] |}.

Definition world0 : world := {| w_frames := []; w_next := 1; w_tracer := tracer0 |}.

(** handle_first_ipython_frame 93-123 and handle_call 1727-1770. *)
Definition on_call (p : prog) (r : list frame) (f : frame) (s : nat) (seen : bool)
    (t : tracer) : tracer :=
  let t1 := set_depths (S (t_depth t))
              (t_ext t + if external (f_kind f) then 1 else 0) t in
  if t_depth t1 =? 1 then t1
  else if seen then disable p (f :: r) t1
  else set_event s KCall (call_transition p (f :: r) (f_scope f) s (check_prev p KCall s false t1)).

(** handle_first_ipython_frame 93-123 and handle_other_sys_events 1772-1796 for a return.
    [r] still has the frame. Subtraction stops at 0, as lines 119-120 make it. *)
Definition on_return (p : prog) (r : list frame) (f : frame) (s : nat) (ret : bool)
    (t : tracer) : tracer :=
  let t1 := set_depths (t_depth t - 1)
              (t_ext t - if external (f_kind f) then 1 else 0) t in
  if t_depth t1 =? 0 then t1
  else
    let (failed, t2) := return_transition p r (check_prev p KReturn s ret t1) in
    if failed : bool then t2 else set_event s KReturn t2.

(** Events of the interpreter (call, return, exception) only come while tracing is on and from
    files that pass the filter; events of instrumented statements always come. *)
Definition step (p : prog) (w : world) (e : event) : world :=
  let r := w_frames w in
  let t := w_tracer w in
  match e with
  | ECall k s seen =>
      let f := {| f_scope := match r with [] => 0 | _ => w_next w end; f_kind := k |} in
      {| w_frames := f :: r; w_next := S (w_next w);
         w_tracer := if t_on t && sees k then on_call p r f s seen t else t |}
  | EReturn s ret =>
      match r with
      | [] => w
      | f :: r' =>
          {| w_frames := r'; w_next := w_next w;
             w_tracer := if t_on t && sees (f_kind f) then on_return p r f s ret t else t |}
      end
  | EExc s =>
      match r with
      | [] => w
      | f :: _ =>
          {| w_frames := r; w_next := w_next w;
             w_tracer := if t_on t && sees (f_kind f)
                         then set_event s KExc (check_prev p KExc s false t) else t |}
      end
  | EBefore s => {| w_frames := r; w_next := w_next w; w_tracer := before_stmt p r s t |}
  | EAfter s => {| w_frames := r; w_next := w_next w; w_tracer := after_stmt p r s t |}
  | EAfterCall => {| w_frames := r; w_next := w_next w; w_tracer := after_call p r t |}
  | EOff => {| w_frames := r; w_next := w_next w; w_tracer := disable p r t |}
  end.

Definition run (p : prog) (w : world) (es : list event) : world := fold_left (step p) es w.
