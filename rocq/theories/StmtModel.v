(** The records of the statements that ran, the dependencies between them, and the statement that stands for a
    moved widget: core/ipyflow/data_model/statement.py:50-200, core/ipyflow/slicing/mixin.py:290-358,
    core/ipyflow/flow.py:427-451, core/ipyflow/data_model/symbol.py:1185-1219,
    core/ipyflow/shell/interactiveshell.py:514-519 and 626-642. *)
Require Import List ZArith Bool Arith String.
Import ListNotations.
Require Import Verif.Base Verif.TimestampModel Verif.SessionModel Verif.SliceModel.
Local Open Scope list_scope.
Local Open Scope nat_scope.

(** A [Statement], statement.py:50-74. [node]: its id, which is the id of its [stmt_node] (78-80, 213-215). The parents and
    children in each slicing context. The node itself, the frame, [class_scope] and what calls use are left out. *)
Record stmt := mkStmt {
  node : nat; time : ts; prev : option nat; override : bool; par : ctx -> edges; chi : ctx -> edges }.

(** [stmts]: all objects ever made. [at_ts]: [_stmts_by_ts]; [by_id]: [_stmts_by_id] (statement.py:47-48). [later]:
    [stmt_deferred_static_parents] (flow.py:187-189). *)
Record state := mkSt {
  stmts : list stmt; at_ts : list (ts * list nat); by_id : dict (list nat);
  later : list (ts * list (ts * list nat)) }.
Definition start : state := mkSt [] [] [] [].

(** A dict whose keys are timestamps. *)
Fixpoint tsget {V} (d : list (ts * V)) (t : ts) : option V :=
  match d with [] => None | (k, v) :: d => if ts_eqb t k then Some v else tsget d t end.
Fixpoint tsset {V} (d : list (ts * V)) (t : ts) (v : V) : list (ts * V) :=
  match d with [] => [(t, v)] | (k, w) :: d => if ts_eqb t k then (k, v) :: d else (k, w) :: tsset d t v end.
Definition tsdel {V} (d : list (ts * V)) (t : ts) : list (ts * V) := filter (fun kv => negb (ts_eqb t (fst kv))) d.

(** A computation that may raise; what it has done by then stays. *)
Definition M (A : Type) := state -> state * res A.
Definition ret {A} (a : A) : M A := fun st => (st, Ok a).
Definition raise {A} (e : err) : M A := fun st => (st, Err e).
Definition bind {A B} (m : M A) (f : A -> M B) : M B :=
  fun st => match m st with (st, Ok a) => f a st | (st, Err e) => (st, Err e) end.
Notation "'do' a <- m ; k" := (bind m (fun a => k)) (at level 200, a name, m at level 100, k at level 200).
Notation "'do' ( a , b ) <- m ; k" := (bind m (fun '(a, b) => k)) (at level 200, a name, b name, m at level 100, k at level 200).
Fixpoint each {A} (f : A -> M unit) (l : list A) : M unit :=
  match l with [] => ret tt | a :: l => bind (f a) (fun _ => each f l) end.
Definition look {A} (f : state -> res A) : M A := fun st => (st, f st).

Definition set_par (s : stmt) (x : ctx) (e : edges) : stmt :=
  mkStmt (node s) (time s) (prev s) (override s) (fun y => if ctx_eqb y x then e else par s y) (chi s).
Definition set_chi (s : stmt) (x : ctx) (e : edges) : stmt :=
  mkStmt (node s) (time s) (prev s) (override s) (par s) (fun y => if ctx_eqb y x then e else chi s y).
Definition get (u : nat) : M stmt := look (fun st => of_option AttributeError (nth_error (stmts st) u)).
Definition put (u : nat) (s : stmt) : M unit :=
  fun st => (mkSt (lset (stmts st) u s) (at_ts st) (by_id st) (later st), Ok tt).

(** [cls._stmts_by_id[i][0]]: statement.py:182-183. *)
Definition from_id (st : state) (i : nat) : res nat :=
  rbind (of_option KeyError (dget (by_id st) i)) (fun l => of_option IndexError (hd_error l)).
(** [cls._stmts_by_ts[t][0]]: statement.py:171-179. *)
Definition at_timestamp (st : state) (t : ts) : res nat :=
  rbind (of_option KeyError (tsget (at_ts st) t)) (fun l => of_option IndexError (hd_error l)).
(** statement.py:190-191 *)
Definition has_id (st : state) (i : nat) : bool := match dget (by_id st) i with Some l => negb (is_nil l) | None => false end.

(** mixin.py:300-316. [p]: the parent, after [_from_ref]. *)
Definition add_parent_edges (x : ctx) (u p : nat) (syms : list nat) : M unit :=
  if is_nil syms then ret tt
  else
    do s <- get u;
    do q <- get p;
    if memb (node q) (dkeys (chi s x)) then ret tt
    else if node q =? node s then
      match prev s with
      | None => ret tt
      | Some v => do o <- get v; put u (set_par s x (inherit_edges (par s x) (par o x) syms))
      end
    else
      do _ <- put u (set_par s x (edge_add (par s x) (node q) syms));
      do q <- get p;
      put p (set_chi q x (edge_add (chi q x) (node s) syms)).

(** [d.pop(k)]: mixin.py:344-345, 354-355. *)
Definition pop_edge (e : edges) (k : nat) : M (list nat * edges) :=
  match dget e k with Some l => ret (l, ddel e k) | None => raise KeyError end.

(** mixin.py:339-347. *)
Definition replace_parent_edges (x : ctx) (u old new : nat) : M unit :=
  do s <- get u;
  do o <- get old;
  do (syms, rest) <- pop_edge (par s x) (node o);
  do _ <- put u (set_par s x rest);
  do o <- get old;
  do (_, rest) <- pop_edge (chi o x) (node s);
  do _ <- put old (set_chi o x rest);
  do s <- get u;
  do n <- get new;
  do _ <- put u (set_par s x (edge_add (par s x) (node n) syms));
  do n <- get new;
  put new (set_chi n x (edge_add (chi n x) (node s) syms)).

(** mixin.py:349-358. *)
Definition replace_child_edges (x : ctx) (u old new : nat) : M unit :=
  do s <- get u;
  do o <- get old;
  do (syms, rest) <- pop_edge (chi s x) (node o);
  do _ <- put u (set_chi s x rest);
  do o <- get old;
  do (_, rest) <- pop_edge (par o x) (node s);
  do _ <- put old (set_par o x rest);
  do s <- get u;
  do n <- get new;
  do _ <- put u (set_chi s x (edge_add (chi s x) (node n) syms));
  do n <- get new;
  put new (set_par n x (edge_add (par n x) (node s) syms)).

(** The object, statement.py:52-74 as called at 127-133. *)
Definition alloc (n : nat) (t : ts) (ovr : bool) : M nat :=
  fun st =>
    let v := if has_id st n then match from_id st n with Ok v => Some v | Err _ => None end else None in
    (mkSt (stmts st ++ [mkStmt n t v ovr (fun _ => []) (fun _ => [])]) (at_ts st) (by_id st) (later st),
     Ok (List.length (stmts st))).
Definition set_at (t : ts) (l : list nat) : M unit :=
  fun st => (mkSt (stmts st) (tsset (at_ts st) t l) (by_id st) (later st), Ok tt).
Definition set_id (n : nat) (l : list nat) : M unit :=
  fun st => (mkSt (stmts st) (at_ts st) (dset (by_id st) n l) (later st), Ok tt).
Definition pop_id (n : nat) : M (list nat) :=
  fun st => match dget (by_id st) n with
            | Some l => (mkSt (stmts st) (at_ts st) (ddel (by_id st) n) (later st), Ok l)
            | None => (st, Err KeyError)
            end.
Definition check (b : bool) : M unit := if b then ret tt else raise AssertionError.
Definition set_later (l : list (ts * list (ts * list nat))) : M unit :=
  fun st => (mkSt (stmts st) (at_ts st) (by_id st) l, Ok tt).

(** What is at a timestamp or under an id already, [[]] if nothing: [.get(timestamp)] at 134, [setdefault] at 147-148. *)
Definition here (st : state) (t : ts) : list nat := match tsget (at_ts st) t with Some l => l | None => [] end.
Definition same (st : state) (n : nat) : list nat := match dget (by_id st) n with Some l => l | None => [] end.

(** Contexts in the order of slicing/context.py:10-17. *)
Definition contexts : list ctx := [Dynamic; Static].

(** statement.py:141-145, in one context. [p]: the statement that was there. *)
Definition rewire (u p : nat) (x : ctx) : M unit :=
  do o <- get p;
  do _ <- each (fun c => do k <- look (fun st => from_id st c); replace_parent_edges x k p u) (dkeys (chi o x));
  do o <- get p;
  each (fun q => do k <- look (fun st => from_id st q); replace_child_edges x k p u) (dkeys (par o x)).

(** statement.py:135-145: the new statement takes the place of the one at its timestamp. *)
Definition take_over (u n : nat) (t : ts) : M unit :=
  do p <- look (fun st => at_timestamp st t);
  do o <- get p;
  do all <- pop_id (node o);
  do _ <- check (List.length all =? 1);
  do h <- look (fun st => Ok (has_id st n));
  do _ <- check (negb h);
  do _ <- set_at t [u];
  do _ <- set_id n [u];
  each (rewire u p) contexts.

(** statement.py:150-153, the edges that were deferred until the statement is there. *)
Definition deferred (u : nat) (ds : list (ts * list nat)) : M unit :=
  each (fun d => do p <- look (fun st => at_timestamp st (fst d)); add_parent_edges Static u p (snd d)) ds.

(** create_and_track: statement.py:117-155. The order of the deferred parents is that of a dict. *)
Definition create (n : nat) (t : ts) (ovr : bool) : M nat :=
  do u <- alloc n t ovr;
  do l <- look (fun st => Ok (here st t));
  do _ <- (if (ovr && negb (is_nil l))%bool then take_over u n t
           else do _ <- set_at t (l ++ [u]);
                do m <- look (fun st => Ok (same st n));
                set_id n (m ++ [u]));
  do ds <- look (fun st => Ok (match tsget (later st) t with Some l => l | None => [] end));
  do _ <- deferred u ds;
  do l <- look (fun st => Ok (later st));
  do _ <- set_later (tsdel l t);
  ret u.

(** add_data_dep, flow.py:442-451: the part about statements, after the part about cells (427-441). *)
Definition depend (x : ctx) (child parent : ts) (y : nat) : M unit :=
  if negb (ts_is_initialized child) then ret tt
  else match x with
  | Dynamic =>
      do u <- look (fun st => at_timestamp st child);
      do p <- look (fun st => at_timestamp st parent);
      add_parent_edges Dynamic u p [y]
  | Static =>
      do l <- look (fun st => Ok (later st));
      let ds := match tsget l child with Some ds => ds | None => [] end in
      let ys := match tsget ds parent with Some ys => ys | None => [] end in
      set_later (tsset l child (tsset ds parent (sadd y ys)))
  end.

(** _observe_widget, symbol.py:1185-1219. [t0]: the timestamp of the symbol of the value, whose cell is that of the widget.
    [k]: the number of statements of the present text of that cell (1201-1203, cell.py:680-682). The new text is parsed anew:
    [n] is the id of its node. Left out: the objects, the schedule, and what happens at the level of cells. *)
Definition moved_to (t0 : ts) (k : nat) : ts := mkTs (cell_num t0) (Z.of_nat k).
Definition move (n k : nat) (t0 : ts) (y : nat) : M unit :=
  do _ <- create n (moved_to t0 k) true;
  do _ <- depend Dynamic t0 (moved_to t0 k) y;
  depend Dynamic (moved_to t0 k) t0 y.

(** _handle_memoization, interactiveshell.py:638-642, in one context for one pair of statements. The set passed to
    [remove_parent_edges] is the stored one: it is empty when the children of the parent are dealt with (mixin.py:321-334). *)
Definition forget (x : ctx) (u : nat) (pid : nat) : M unit :=
  do s <- get u;
  match dget (par s x) pid with
  | None => ret tt
  | Some l => if is_nil l then ret tt
              else do _ <- look (fun st => from_id st pid); put u (set_par s x (ddel (par s x) pid))
  end.
Definition inherit (x : ctx) (u : nat) (e : edges) : M unit :=
  each (fun d => do p <- look (fun st => from_id st (fst d)); add_parent_edges x u p (snd d)) e.
Definition reuse (x : ctx) (t t' : ts) : M unit :=
  do u <- look (fun st => at_timestamp st t);
  do v <- look (fun st => at_timestamp st t');
  do s <- get u;
  do _ <- each (forget x u) (dkeys (par s x));
  do o <- get v;
  inherit x u (par o x).

(** What happens in a session. [Ran]: a statement is about to run (ipyflow_tracer.py:1665-1672), or is taken to have run
    (interactiveshell.py:516-519). *)
Inductive event :=
| Ran (n : nat) (t : ts)
| Depends (x : ctx) (child parent : ts) (y : nat)
| Moved (n k : nat) (t0 : ts) (y : nat)
| Reused (x : ctx) (t t' : ts).

Definition does (e : event) : M unit :=
  match e with
  | Ran n t => do _ <- create n t false; ret tt
  | Depends x c p y => depend x c p y
  | Moved n k t0 y => move n k t0 y
  | Reused x t t' => reuse x t t'
  end.
(** An exception ends the event, not the session. *)
Definition step (st : state) (e : event) : state := fst (does e st).
Definition run (st : state) (es : list event) : state := fold_left step es st.

(** What slicing sees: SliceModel. [text]: the text of a node. *)
Definition heads {K} (d : list (K * list nat)) : list (K * nat) :=
  flat_map (fun kv => match snd kv with u :: _ => [(fst kv, u)] | [] => [] end) d.
Definition world_of (text : nat -> string) (st : state) : world :=
  mkWorld (map (fun s => mkSobj (time s) (prev s) (override s) (text (node s)) (par s)) (stmts st))
    (heads (by_id st)) (heads (at_ts st)) false [].
