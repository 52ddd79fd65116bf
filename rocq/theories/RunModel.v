(** What is set up around a run of a cell and taken down after it,
    core/ipyflow/shell/interactiveshell.py 105-476, with the context managers of
    core/ipyflow/utils/ipython_utils.py 29-49 and
    core/ipyflow/tracing/ipyflow_tracer.py 249-291, and the registration of tracers,
    core/ipyflow/line_magics.py 493-541.

    Computations may raise at any point that calls code not modelled here; which do
    is given by an oracle.  The cell itself is any computation. *)

From Coq Require Import List Bool Arith.
From Verif Require Import Base.
Import ListNotations.

(** Functions that are patched: as found, behind the check of interactiveshell.py
    130-139, or run with dataflow tracing off (158-196; ipyflow_tracer.py 260-274). *)
Inductive fn := Plain (n : nat) | Guarded (t : nat) (f : fn) | Paused (f : fn).

(** Entries of [sys.meta_path]: those of pyccolo and others. *)
Inductive entry := Finder (n : nat) | Other (n : nat).

Definition is_finder (e : entry) : bool := match e with Finder _ => true | Other _ => false end.

Definition entry_eqb (a b : entry) : bool :=
  match a, b with
  | Finder n, Finder m => n =? m
  | Other n, Other m => n =? m
  | _, _ => false
  end.

(** Where code that is not modelled is called. *)
Inductive point :=
| PBefore        (* before_run_cell, 406-408 *)
| PReset         (* instances, names and resets of tracers, 265-269, 280-289 *)
| PEnable        (* 293-302 *)
| PRewriter      (* 303-306 *)
| PVirtual       (* 484 *)
| PCurrent       (* 434 *)
| PFinish        (* 323 *)
| PAfter.        (* 450 *)

(** Exceptions: a variable that is not bound, a missing attribute, whatever comes
    from elsewhere; [except Exception] lets the second kind of the latter pass. *)
Inductive exn := Unbound | NoAttr | Fault (n : nat) | Interrupt (n : nat).

Definition caught (e : exn) : bool := match e with Interrupt _ => false | _ => true end.

Inductive out (A : Type) := Done (a : A) | Raised (e : exn).
Arguments Done {A} _.
Arguments Raised {A} _.

(** What a run patches: attributes that classes and modules have of their own, the
    lists of transformers by address, and where the two of the shell are. *)
Record patched := mkPatched {
  own : nat -> nat -> option fn;
  lists : dict (list nat);
  ast_at : nat;
  input_at : nat }.

(** What concerns tracers: [sys.meta_path], [_saved_meta_path_entries], the tracers
    that are on, [tracer_cleanup_callbacks] with the entry each takes off the path,
    [tracer_cleanup_pending], [registered_tracers], and how many entries were made. *)
Record hooks := mkHooks {
  meta : list entry;
  saved : list entry;
  enabled : list nat;
  callbacks : list (nat * option nat);
  pending : bool;
  registered : list nat;
  made : nat }.

(** With the local variable [ret] of 398-460 and the exception that
    [get_and_set_exception_raised_during_execution] keeps (flow.py 477-486). *)
Record world := mkWorld { pt : patched; hk : hooks; ret_var : option nat; kept : option exn }.

Definition M (A : Type) := world -> world * out A.

Definition ret {A} (a : A) : M A := fun w => (w, Done a).
Definition raise {A} (e : exn) : M A := fun w => (w, Raised e).
Definition bind {A B} (m : M A) (f : A -> M B) : M B := fun w =>
  match m w with
  | (w', Done a) => f a w'
  | (w', Raised e) => (w', Raised e)
  end.
Definition on_hooks (f : hooks -> hooks) : M unit := fun w =>
  (mkWorld (pt w) (f (hk w)) (ret_var w) (kept w), Done tt).

Notation "x <- m ;; k" := (bind m (fun x => k)) (at level 61, m at next level, right associativity).
Notation "m ;; k" := (bind m (fun _ => k)) (at level 61, right associativity).

(** What the outside supplies: the order in which classes are asked for attributes,
    the names of classes, which tracers are stack frame managers (282-284) and which have [sys]
    events (274); the classes [OutputRecorder], [DataflowTracer] and
    [StackFrameManager]; what is added to the transformers for a list of tracers. *)
Record outside := mkOutside {
  mro : nat -> list nat;
  name_of : nat -> nat;
  is_manager : nat -> bool;
  sys_events : nat -> bool;
  recorder : nat;
  dataflow : nat;
  manager : nat;
  augmenter : nat -> nat;
  rewriter : nat }.

(** What raises in a run. *)
Definition faults := point -> option exn.

Definition at_point (F : faults) (p : point) : M unit :=
  match F p with Some e => raise e | None => ret tt end.

(** Places and names of attributes. *)
Definition PYC := 0.
Definition BASE := 1.
Definition SHELL := 2.
Definition PASSES := 0.
Definition CHECKER := 1.
Definition EXEC := 2.
Definition EVAL := 3.
Definition LINE := 4.
Definition CELL := 5.

(** [getattr] on a class: the first in the order that has the attribute. *)
Fixpoint first_own (own : nat -> nat -> option fn) (l : list nat) (a : nat) : option fn :=
  match l with
  | [] => None
  | c :: r => match own c a with Some f => Some f | None => first_own own r a end
  end.

Definition lookup (O : outside) (P : patched) (c a : nat) : option fn := first_own (own P) (mro O c) a.

Definition put (P : patched) (c a : nat) (f : fn) : patched :=
  mkPatched (fun c' a' => if (c' =? c) && (a' =? a) then Some f else own P c' a')
    (lists P) (ast_at P) (input_at P).

Definition with_pt (w : world) (P : patched) : world := mkWorld P (hk w) (ret_var w) (kept w).

(** ipyflow_tracer.py 276-291 and each part of interactiveshell.py 144-204: replace
    an attribute and put the former value back however the body ends. *)
Definition with_attr {A} (O : outside) (c a : nat) (wrap : fn -> fn) (body : M A) : M A := fun w =>
  match lookup O (pt w) c a with
  | None => (w, Raised NoAttr)
  | Some orig =>
      let '(w1, r) := body (with_pt w (put (pt w) c a (wrap orig))) in
      (with_pt w1 (put (pt w1) c a orig), r)
  end.

(** interactiveshell.py 120-142: [_patch_tracer_filters].  The second attribute of
    a class is read before the first is set, which makes no difference. *)
Definition patch_filters {A} (O : outside) (t : nat) (body : M A) : M A :=
  with_attr O t PASSES
    (fun f => if negb (is_manager O t) || (t =? dataflow O) then Guarded t f else f)
    (with_attr O t CHECKER (Guarded t) body).

(** 290-292: [multi_context], one inside the other. *)
Definition with_filters {A} (O : outside) (ts : list nat) (body : M A) : M A :=
  fold_right (patch_filters O) body ts.

(** 144-204: [_patch_pyccolo_exec_eval].  The four attributes are different ones, so
    setting them together or one by one makes no difference. *)
Definition patch_exec_eval {A} (O : outside) (body : M A) : M A :=
  with_attr O PYC EXEC Paused (with_attr O PYC EVAL Paused
    (with_attr O BASE EXEC Paused (with_attr O BASE EVAL Paused body))).

(** 482-494: [inner_tracing_context]. *)
Definition inner_context {A} (F : faults) (O : outside) (body : M A) : M A :=
  at_point F PVirtual ;;
  with_attr O SHELL LINE Paused (with_attr O SHELL CELL Paused body).

(** ipython_utils.py 29-49: a new list is made of the old one and the additions, and
    the old one is put back. *)
Definition fresh (d : dict (list nat)) : nat := S (list_max (map fst d)).

Definition with_ast {A} (extra : list nat) (body : M A) : M A := fun w =>
  let P := pt w in
  match dget (lists P) (ast_at P) with
  | None => (w, Raised NoAttr)
  | Some l =>
      let new := fresh (lists P) in
      let '(w1, r) := body (with_pt w (mkPatched (own P) (dset (lists P) new (l ++ extra)) new (input_at P))) in
      (with_pt w1 (mkPatched (own (pt w1)) (lists (pt w1)) (ast_at P) (input_at (pt w1))), r)
  end.

Definition with_input {A} (extra : list nat) (body : M A) : M A := fun w =>
  let P := pt w in
  match dget (lists P) (input_at P) with
  | None => (w, Raised NoAttr)
  | Some l =>
      let new := fresh (lists P) in
      let '(w1, r) := body (with_pt w (mkPatched (own P) (dset (lists P) new (l ++ extra)) (ast_at P) new)) in
      (with_pt w1 (mkPatched (own (pt w1)) (lists (pt w1)) (ast_at (pt w1)) (input_at P)), r)
  end.

(** 226-241: [_syntax_transform_only_tracing_context]. *)
Definition syntax_context {A} (F : faults) (O : outside) (on : bool) (ts : list nat) (body : M A) : M A :=
  if on && negb (is_nil ts)
  then at_point F PRewriter ;; with_input (map (augmenter O) ts) body
  else with_input [] body.

(** 243-245: [_restore_meta_path]. *)
Definition restore_meta (h : hooks) : hooks :=
  mkHooks (fold_left (fun m e => e :: m) (rev (saved h)) (meta h)) [] (enabled h) (callbacks h)
    (pending h) (registered h) (made h).

(** pyccolo's [_enable_tracing] and [_disable_tracing], as far as being on or off
    goes. *)
Definition enable (h : hooks) (t : nat) : hooks :=
  mkHooks (meta h) (saved h) (sadd t (enabled h)) (callbacks h) (pending h) (registered h) (made h).
Definition disable (h : hooks) (t : nat) : hooks :=
  mkHooks (meta h) (saved h) (remove Nat.eq_dec t (enabled h)) (callbacks h) (pending h) (registered h) (made h).

(** pyccolo's [tracing_non_context]: the tracer is turned on; if asked to, an entry is
    put in front of [sys.meta_path].  The result undoes both.  Pyccolo's source is
    not at hand: this is assumed of it. *)
Definition non_context (h : hooks) (t : nat) (do_patch : bool) : hooks :=
  let h1 := enable h t in
  if do_patch
  then mkHooks (Finder (made h) :: meta h1) (saved h1) (enabled h1)
         (callbacks h1 ++ [(t, Some (made h))]) (pending h1) (registered h1) (S (made h))
  else mkHooks (meta h1) (saved h1) (enabled h1) (callbacks h1 ++ [(t, None)])
         (pending h1) (registered h1) (made h1).

Definition run_callback (h : hooks) (cb : nat * option nat) : hooks :=
  let h1 := disable h (fst cb) in
  match snd cb with
  | None => h1
  | Some n =>
      mkHooks (filter (fun e => negb (entry_eqb e (Finder n))) (meta h1)) (saved h1) (enabled h1)
        (callbacks h1) (pending h1) (registered h1) (made h1)
  end.

(** 294-300: all tracers are turned on for the first time. *)
Fixpoint first_time (h : hooks) (ts : list nat) : hooks :=
  match ts with
  | [] => h
  | t :: r => first_time (non_context h t (is_nil r)) r
  end.

(** 105-110: [cleanup_tracers]. *)
Definition cleanup_tracers (h : hooks) : hooks :=
  let h1 := restore_meta h in
  let h2 := fold_left run_callback (rev (callbacks h1)) h1 in
  mkHooks (meta h2) (saved h2) (enabled h2) [] false (registered h2) (made h2).

(** 330-336: leading entries of pyccolo are put aside. *)
Fixpoint put_aside (m s : list entry) : list entry * list entry :=
  match m with
  | e :: r => if is_finder e then put_aside r (s ++ [e]) else (m, s)
  | [] => (m, s)
  end.

Definition save_meta (h : hooks) : hooks :=
  let '(m, s) := put_aside (meta h) (saved h) in
  mkHooks m s (enabled h) (callbacks h) (pending h) (registered h) (made h).

(** 251-254, 274-279: the tracers of a run. *)
Definition wanted (O : outside) (capture : bool) (h : hooks) : list nat :=
  filter (fun t => negb (t =? recorder O) || capture) (registered h).
Definition with_manager (O : outside) (ts : list nat) : list nat :=
  if existsb (sys_events O) ts && negb (existsb (is_manager O) ts) then ts ++ [manager O] else ts.

(** 247-341: [_tracing_context] around a body.  [only] is [syntax_transforms_only]. *)
Definition tracing_context {A} (F : faults) (O : outside) (only capture syntax : bool) (body : M A) : M A :=
  fun w0 =>
  let ts0 := wanted O capture (hk w0) in
  (if only then syntax_context F O syntax ts0 body
   else
     on_hooks restore_meta ;;
     let ts := with_manager O ts0 in
     at_point F PReset ;;
     with_filters O ts
       (at_point F PEnable ;;
        on_hooks (fun h => if is_nil (callbacks h) then first_time h ts else fold_left enable ts h) ;;
        x <- (if is_nil ts then body
              else at_point F PRewriter ;;
                   syntax_context F O syntax ts
                     (with_ast [rewriter O] (patch_exec_eval O (inner_context F O body)))) ;;
        (if memb (dataflow O) ts then at_point F PFinish else ret tt) ;;
        on_hooks (fun h => if pending h then cleanup_tracers h
                           else save_meta (fold_left disable (rev ts) h)) ;;
        ret x)) w0.

(** How a cell is run: whether dataflow is on, whether the cell starts with
    [%%capture] or another cell magic, and the two settings of syntax. *)
Record how := mkHow { trace : bool; capturing : bool; cell_magic : bool; syntax_on : bool; only_syntax : bool }.

Definition set_ret (v : option nat) : M unit := fun w => (mkWorld (pt w) (hk w) v (kept w), Done tt).

(** 476, 701-703; flow.py 477-486. *)
Definition on_exception (e : option exn) : M unit := fun w =>
  (mkWorld (pt w) (hk w) (ret_var w) e, Done tt).

(** 424-448: the part of 398-460 inside the [with]: the cell is run and its result
    put in [ret]. *)
Definition inner_run (F : faults) (cell : M nat) : M unit :=
  at_point F PCurrent ;; x <- cell ;; set_ret (Some x).

(** 398-460: [_ipyflow_run_cell]. *)
Definition ipyflow_run_cell (F : faults) (O : outside) (H : how) (cell : M nat) : M nat := fun w =>
  (set_ret None ;;
   at_point F PBefore ;;
   (fun w1 =>
      let body :=
        (if trace H
         then tracing_context F O (only_syntax H) (negb (capturing H)) (syntax_on H && negb (cell_magic H))
                (inner_run F cell)
         else inner_run F cell) ;;
        (if trace H then at_point F PAfter else ret tt) in
      match body w1 with
      | (w2, Done _) => on_exception None w2
      | (w2, Raised e) => if caught e then on_exception (Some e) w2 else (w2, Raised e)
      end) ;;
   (fun w3 => match ret_var w3 with Some x => (w3, Done x) | None => (w3, Raised Unbound) end)) w.

(** line_magics.py 493-500: [_deregister_tracers]. *)
Fixpoint remove_first (t : nat) (l : list nat) : list nat :=
  match l with
  | [] => []
  | u :: r => if u =? t then r else u :: remove_first t r
  end.

Definition deregister_all (ts : list nat) (h : hooks) : hooks :=
  mkHooks (meta h) (saved h) (enabled h) (callbacks h) true
    (fold_left (fun l t => remove_first t l) ts (registered h)) (made h).

(** 503-514: [_deregister_tracers_for]. *)
Definition deregister (O : outside) (t : nat) (h : hooks) : hooks :=
  deregister_all (t :: filter (fun u => name_of O u =? name_of O t) (registered h)) h.

(** 517-529: [register_tracer] for a class that was found. *)
Definition register (O : outside) (t : nat) (h : hooks) : hooks :=
  let h1 := deregister O t h in
  mkHooks (meta h1) (saved h1) (enabled h1) (callbacks h1) (pending h1) (t :: registered h1) (made h1).

(** What a patched filter says of an event for which the filter as found says
    [base]: interactiveshell.py 130-139. *)
Fixpoint passes (reg : list nat) (base : nat -> bool) (f : fn) : bool :=
  match f with
  | Plain n => base n
  | Guarded t g => memb t reg && passes reg base g
  | Paused g => passes reg base g
  end.

(** Runs one after the other, without faults, all traced and with output recorded. *)
Definition no_faults : faults := fun _ => None.
Definition ordinary (syntax : bool) (magic : bool) : how := mkHow true false magic syntax false.

Definition run1 (O : outside) (c : bool * bool * M nat) (w : world) : world :=
  fst (ipyflow_run_cell no_faults O (ordinary (fst (fst c)) (snd (fst c))) (snd c) w).

Definition runs (O : outside) (cs : list (bool * bool * M nat)) (w : world) : world :=
  fold_left (fun w c => run1 O c w) cs w.
