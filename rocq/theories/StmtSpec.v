(** What should be known of the statements of a session, told by the times at which they ran and nothing else. *)
Require Import List ZArith Bool Arith.
Import ListNotations.
Require Import Verif.Base Verif.TimestampModel Verif.SessionModel Verif.SliceModel Verif.StmtModel.
Local Open Scope nat_scope.

(** The statement recorded for [c] says that it depends on the one recorded for [p] by the symbol [y]. *)
Definition parent (st : state) (x : ctx) (c p : ts) (y : nat) : Prop :=
  exists u v s o l, at_timestamp st c = Ok u /\ at_timestamp st p = Ok v /\ nth_error (stmts st) u = Some s /\
    nth_error (stmts st) v = Some o /\ dget (par s x) (node o) = Some l /\ In y l.
(** The statement recorded for [p] says that the one recorded for [c] depends on it by [y]. *)
Definition child (st : state) (x : ctx) (p c : ts) (y : nat) : Prop :=
  exists u v s o l, at_timestamp st c = Ok u /\ at_timestamp st p = Ok v /\ nth_error (stmts st) u = Some s /\
    nth_error (stmts st) v = Some o /\ dget (chi o x) (node s) = Some l /\ In y l.

(** ** The facts *)

(** The times of the statements that ran; those of them that stand for a moved widget; the nodes seen, and those made for moved
    widgets; the static dependencies of statements that did not run yet; the dependencies. *)
Record facts := mkFacts {
  ran : list ts; extras : list ts; nodes : list nat; made : list nat; waiting : list (ts * ts * nat);
  deps : list (ctx * ts * ts * nat) }.
Definition nothing : facts := mkFacts [] [] [] [] [] [].

(** Something in [ds] makes the statement at [c] depend on the one at [p]. *)
Definition links (ds : list (ctx * ts * ts * nat)) (x : ctx) (c p : ts) : bool :=
  existsb (fun '(x', c', p', _) => ctx_eqb x x' && ts_eqb c c' && ts_eqb p p')%bool ds.
(** A new dependency of [c] on [p], unless they are the same or [p] depends on [c]. *)
Definition link (ds : list (ctx * ts * ts * nat)) (x : ctx) (c p : ts) (y : nat) : list (ctx * ts * ts * nat) :=
  if ts_eqb c p || links ds x p c then ds else (x, c, p, y) :: ds.
Definition has (l : list ts) (t : ts) : bool := existsb (ts_eqb t) l.

(** The statement at [t] is there from now on, with the dependencies that were waiting for it. *)
Definition arrive (f : facts) (t : ts) (n : nat) (ex : bool) : facts :=
  mkFacts (if has (ran f) t then ran f else t :: ran f)
    (if ex then t :: extras f else extras f) (n :: nodes f) (if ex then n :: made f else made f)
    (filter (fun '(c, _, _) => negb (ts_eqb t c)) (waiting f))
    (flat_map (fun '(c, p, y) => if ts_eqb t c then [(Static, c, p, y)] else []) (waiting f) ++ deps f).
Definition with_deps (f : facts) (ds : list (ctx * ts * ts * nat)) : facts :=
  mkFacts (ran f) (extras f) (nodes f) (made f) (waiting f) ds.

(** What an event says. *)
Definition told (f : facts) (e : event) : facts :=
  match e with
  | Ran n t => arrive f t n false
  | Depends Dynamic c p y =>
      if (has (ran f) c && has (ran f) p)%bool then with_deps f (link (deps f) Dynamic c p y) else f
  | Depends Static c p y => mkFacts (ran f) (extras f) (nodes f) (made f) ((c, p, y) :: waiting f) (deps f)
  | Moved n k t0 y =>
      let t := moved_to t0 k in
      let f := arrive f t n true in
      with_deps f (link (link (deps f) Dynamic t0 t y) Dynamic t t0 y)
  | Reused x t t' =>
      with_deps f (fold_left (fun ds '(x', c, p, y) => if (ctx_eqb x x' && ts_eqb t' c)%bool then link ds x t p y else ds)
                     (deps f) (deps f))
  end.
Definition tell (f : facts) (es : list event) : facts := fold_left told es f.

(** ** The events of a session *)

(** A statement of a cell is a node of its own and the first at its time; the statements of the functions that it calls come
    later at the same time, and may have run before. The place for a moved widget has nothing but an earlier move of it. Static
    dependencies of a statement are known before it runs, and are on statements that ran. A statement whose run is skipped has
    no parents in the context concerned. *)
Definition fits (f : facts) (e : event) : Prop :=
  match e with
  | Ran n t =>
      ts_is_initialized t = true /\
      ((~ In t (ran f) /\ ~ In n (nodes f)) \/ (In t (ran f) /\ ~ In t (extras f) /\ ~ In n (made f)))
  | Depends Dynamic _ _ _ => True
  | Depends Static c p _ => ts_is_initialized c = true /\ ~ In c (ran f) /\ In p (ran f)
  | Moved n k t0 _ => ~ In n (nodes f) /\ In t0 (ran f) /\ (In (moved_to t0 k) (ran f) -> In (moved_to t0 k) (extras f))
  | Reused x t t' => In t (ran f) /\ In t' (ran f) /\ forall p y, ~ In (x, t, p, y) (deps f)
  end.
Fixpoint all_fit (f : facts) (es : list event) : Prop :=
  match es with [] => True | e :: es => fits f e /\ all_fit (told f e) es end.

(** [c] depends on [p], by whatever symbol, in one of the contexts. *)
Definition uses (ds : list (ctx * ts * ts * nat)) (xs : list ctx) (c p : ts) : Prop :=
  exists x y, In x xs /\ In (x, c, p, y) ds.
(** No statement depends on one that ran later, other than a moved widget. *)
Definition backward (f : facts) : Prop :=
  forall x c p y, In (x, c, p, y) (deps f) -> ts_ltb c p = false \/ In p (extras f).
