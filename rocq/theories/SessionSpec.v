(** What it means for the edges of a session to be consistent, and which histories
    are considered. Only observable notions: the parents and children that the current
    version of a cell reports. *)
Require Import List ZArith Bool Arith.
Import ListNotations.
Require Import Verif.Base Verif.SessionModel.

(** Edge set [e] contains symbol [sym] for neighbour [k]. *)
Definition has (e : edges) (k sym : nat) : Prop :=
  exists l, dget e k = Some l /\ In sym l.

(** [v] is the current version of cell [i] (the object numbered [u]). *)
Definition current (s : sess) (i u : nat) (v : cellv) : Prop :=
  dget (cur s) i = Some u /\ nth_error (heap s) u = Some v.

(** The current version of cell [c] lists [p] as a parent through [sym]. *)
Definition lists_parent (s : sess) (x : ctx) (c p sym : nat) : Prop :=
  exists u v, current s c u v /\ has (c_par v x) p sym.

(** Cell [p] lists [c] as a child through [sym]. *)
Definition lists_child (s : sess) (x : ctx) (p c sym : nat) : Prop :=
  has (children_of s x p) c sym.

(** C03: both ends report the same edges. *)
Definition edges_agree (s : sess) : Prop :=
  forall x c p sym, lists_parent s x c p sym <-> lists_child s x p c sym.

(** Self use: the cell reads a symbol that it wrote itself. *)
Definition is_self_use (s : sess) (u pu : nat) : Prop :=
  exists c p, nth_error (heap s) u = Some c /\ nth_error (heap s) pu = Some p /\
              c_id c = c_id p.

(** The shape of a session: one cell executes at a time; the second component is the cell
    being executed. A run is opened by [EExec] and closed by [EFinish] (or by
    [EUntraced], when tracing is off); renaming happens between runs. *)
Definition bracketed (r : option nat) (e : event) (r' : option nat) : Prop :=
  match e with
  | EExec i _ _ => r = None /\ r' = Some i
  | EReplay _ _ _ => r <> None /\ r' = r
  | EFinish _ | EUntraced => r <> None /\ r' = None
  | ERename _ _ _ _ => r = None /\ r' = None
  | EUntracked _ | EUse _ _ _ _ | EInit _ _ => r' = r
  end.

(** The cell being executed has recorded no parents of its own. *)
Definition no_parents_yet (s : sess) (r : option nat) : Prop :=
  exists i u c, r = Some i /\ current s i u c /\ forall x, c_par c x = [].

(** Further restrictions, under which the properties hold (each is discussed in
    DESIGN.md, most with a theorem showing that it cannot be dropped):
    - a counter fix-up moves the counter forward;
    - a self use is recorded only while the cell is executing;
    - notebook metadata does not list a cell as its own parent;
    - a memoized replay, or a run with tracing off, happens in a run that recorded no
      parents of its own;
    - a new id is unused, and both contexts are enabled while renaming. *)
Definition restricted (s : sess) (r : option nat) (e : event) : Prop :=
  match e with
  | EExec _ fixup _ => forall n, fixup = Some n -> (counter s < n)%Z
  | EUntracked _ | EFinish _ => True
  | EUse _ u pu _ =>
      is_self_use s u pu -> exists i v, r = Some i /\ current s i u v
  | EInit _ l => forall c ps, In (c, ps) l -> ~ In c ps
  | EReplay _ _ _ | EUntraced => no_parents_yet s r
  | ERename dyn stat _ new_id =>
      ~ In new_id (dkeys (cur s)) /\ dyn = true /\ stat = true
  end.

(** [history ok l s r]: the events [l], each of which satisfied [ok] when it happened,
    lead from the initial state to [s], where [r] is executing. *)
Inductive history (ok : sess -> option nat -> event -> Prop)
  : list event -> sess -> option nat -> Prop :=
| H_init : history ok [] sess_init None
| H_step l s r e s' r' :
    history ok l s r -> bracketed r e r' -> ok s r e -> step s e = Ok s' ->
    history ok (l ++ [e]) s' r'.

(** Any well-bracketed session, and one that obeys the restrictions. *)
Definition any_session (s : sess) (r : option nat) : Prop :=
  exists l, history (fun _ _ _ => True) l s r.

Definition session (s : sess) (r : option nat) : Prop :=
  exists l, history restricted l s r.

(** ** Renaming (C07) *)

Definition rename_id (old new i : nat) : nat := if Nat.eqb i old then new else i.

(** The edges of [s'] are those of [s] with [old] replaced by [new] everywhere. *)
Definition same_graph_renamed (s s' : sess) (old new : nat) : Prop :=
  (forall x c p sym, lists_parent s' x c p sym <->
     exists c0 p0, c = rename_id old new c0 /\ p = rename_id old new p0 /\
                   lists_parent s x c0 p0 sym) /\
  (forall x p c sym, lists_child s' x p c sym <->
     exists p0 c0, p = rename_id old new p0 /\ c = rename_id old new c0 /\
                   lists_child s x p0 c0 sym).

(** The executions are those of [s], with the id replaced: same objects at the same
    counters, same predecessors, and the same current versions. *)
Definition same_versions_renamed (s s' : sess) (old new : nat) : Prop :=
  by_ctr s' = by_ctr s /\ counter s' = counter s /\
  (forall i u, dget (cur s') i = Some u <->
     exists i0, i = rename_id old new i0 /\ dget (cur s) i0 = Some u) /\
  length (heap s') = length (heap s) /\
  (forall u v, nth_error (heap s) u = Some v ->
     exists v', nth_error (heap s') u = Some v' /\
       c_id v' = rename_id old new (c_id v) /\ c_ctr v' = c_ctr v /\
       c_prev v' = c_prev v /\ c_history v' = c_history v).

(** ** The execution log (C15) *)

(** One entry per version ever created, oldest first: its cell id and its counter
    ([-1] for a cell that was created but not executed). *)
Definition log := list (nat * Z).

Definition logged (l : log) (i : nat) : bool := existsb (fun e => Nat.eqb (fst e) i) l.

(** What each event should do to the log and to the counter. *)
Definition log_step (l : log) (n : Z) (e : event) : log * Z :=
  match e with
  | EExec i fixup _ =>
      let n' := match fixup with Some k => k | None => (n + 1)%Z end in
      (l ++ [(i, n')], n')
  | EUntracked i => (if logged l i then l else l ++ [(i, (-1)%Z)], n)
  | ERename _ _ old new => (map (fun e => (rename_id old new (fst e), snd e)) l, n)
  | _ => (l, n)
  end.

Definition log_after (l : list event) : log * Z :=
  fold_left (fun a e => log_step (fst a) (snd a) e) l ([], 0%Z).

(** Entry [u] is the latest one for cell [i] among the first [n] entries. *)
Definition latest (l : log) (n i u : nat) : Prop :=
  u < n /\ (exists k, nth_error l u = Some (i, k)) /\
  forall u' e, u < u' < n -> nth_error l u' = Some e -> fst e <> i.

(** The counters at which cell [i] was executed, among the first [n] entries. *)
Definition exec_counters (l : log) (n i : nat) : list Z :=
  map snd (filter (fun e => (Nat.eqb (fst e) i && (-1 <? snd e)%Z)%bool) (firstn n l)).

(** The registry of session [s] presents exactly the log [l]. *)
Definition presents (s : sess) (l : log) : Prop :=
  length (heap s) = length l /\
  (forall i u, from_id s i = Ok u <-> latest l (length l) i u) /\
  (forall k u, at_counter s k = Ok u <->
     exists i, nth_error l u = Some (i, k) /\ (-1 < k)%Z) /\
  (forall u v, nth_error (heap s) u = Some v ->
     nth_error l u = Some (c_id v, c_ctr v) /\
     (forall w, c_prev v = Some w <-> latest l u (c_id v) w) /\
     c_history v = exec_counters l (S u) (c_id v)) /\
  (forall u u' i i' k k', u < u' -> (-1 < k')%Z -> nth_error l u = Some (i, k) ->
     nth_error l u' = Some (i', k') -> (k < k' <= counter s)%Z).
