(** What a slice should be, stated over the recorded parents and the version chains. *)
Require Import String Ascii List ZArith Bool Arith.
Import ListNotations.
Require Import Verif.Base Verif.TimestampModel Verif.SessionModel Verif.SliceModel.
Local Open Scope nat_scope.

(** [version_path w u newer v]: following [prev] from [u] passes exactly through the
    versions [newer] and then arrives at [v]. *)
Inductive version_path (w : world) : nat -> list nat -> nat -> Prop :=
| VP_here u : version_path w u [] u
| VP_prev u o p newer v :
    nth_error (objs w) u = Some o -> so_prev o = Some p ->
    version_path w p newer v -> version_path w u (u :: newer) v.

Definition newer_than (t : ts) (o : sobj) : Prop := ts_ltb t (so_ts o) = true.

(** [v] is the version that explains a dependency, recorded at time [t], on the object
    whose latest version is [u]: the most recent version not newer than [t], except that
    an override version is never skipped. *)
Definition explains (w : world) (t : ts) (u v : nat) : Prop :=
  exists newer ov,
    version_path w u newer v /\ nth_error (objs w) v = Some ov /\
    (~ newer_than t ov \/ so_override ov = true) /\
    forall n on, In n newer -> nth_error (objs w) n = Some on ->
                 newer_than t on /\ so_override on = false.

(** Object [u] records the parent id [pid] in one of the enabled contexts. *)
Definition records (w : world) (ctxs : list ctx) (u pid : nat) : Prop :=
  exists o x l, nth_error (objs w) u = Some o /\ In x ctxs /\ In (pid, l) (so_par o x).

(** Object [u] depends on object [v] directly. *)
Definition depends (w : world) (ctxs : list ctx) (u v : nat) : Prop :=
  exists o pid u0, nth_error (objs w) u = Some o /\ records w ctxs u pid /\
    dget (ids w) pid = Some u0 /\ explains w (so_ts o) u0 v.

(** The object that a seed names: itself, the cell executed at a counter (the statement
    number of a timestamp is irrelevant for cells), or the statement at a timestamp. *)
Inductive names (w : world) : seed -> nat -> Prop :=
| N_obj u : names w (SObj u) u
| N_ctr n u : w_cells w = true -> tget (by_ts w) (mkTs n (-1)) = Some u -> names w (SCtr n) u
| N_cell_ts n j u : w_cells w = true -> tget (by_ts w) (mkTs n (-1)) = Some u ->
    names w (STs (mkTs n j)) u
| N_stmt_ts t u : w_cells w = false -> tget (by_ts w) t = Some u -> names w (STs t) u.

(** The exact backward closure of the seeds. *)
Definition in_closure (w : world) (ctxs : list ctx) (seeds : list seed) (v : nat) : Prop :=
  exists sd u, In sd seeds /\ names w sd u /\ reach (depends w ctxs) u v.

(** Objects, version chains and seeds refer to existing objects; a previous version was
    created before. This is how [Cell] and [Statement] construct objects. *)
Definition world_ok (w : world) : Prop :=
  (forall u o p, nth_error (objs w) u = Some o -> so_prev o = Some p -> p < u) /\
  (forall pid u, dget (ids w) pid = Some u -> u < length (objs w)) /\
  (forall t u, tget (by_ts w) t = Some u -> u < length (objs w)).

(** A recorded parent that cannot be resolved: unknown id, or every version is newer. *)
Definition dangling (w : world) (ctxs : list ctx) (u : nat) : Prop :=
  exists o pid, nth_error (objs w) u = Some o /\ records w ctxs u pid /\
    forall u0 v, dget (ids w) pid = Some u0 -> ~ explains w (so_ts o) u0 v.

Definition ts_le_of (w : world) (a b : nat) : Prop :=
  ts_ltb (ts_of w b) (ts_of w a) = false.

(** ** Text *)

(** The texts of the slice elements belonging to cell [n], in slice order. *)
Definition texts_of_cell (w : world) (l : list nat) (n : Z) : list string :=
  flat_map (fun u => match nth_error (objs w) u with
                     | Some o => if Z.eqb (cell_num (so_ts o)) n then [so_text o] else []
                     | None => []
                     end) l.

(** ASCII characters that [str.strip] removes: tab, line feed, vertical tab, form feed,
    carriage return, the four separators, and the space. *)
Definition white (c : ascii) : Prop :=
  In (nat_of_ascii c) [9; 10; 11; 12; 13; 28; 29; 30; 31; 32].

(** [t] consists of white space only. *)
Fixpoint blank (t : string) : Prop :=
  match t with
  | EmptyString => True
  | String c t' => white c /\ blank t'
  end.

(** [s] is [t] without the white space around it. *)
Definition stripped (t s : string) : Prop :=
  (exists a b, t = (a ++ s ++ b)%string /\ blank a /\ blank b) /\
  (forall c s', s = String c s' -> ~ white c) /\
  (forall c s', s = (s' ++ String c "")%string -> ~ white c).

(** [t] is the elements of [l] with [sep] between each two. *)
Inductive joined (sep : string) : list string -> string -> Prop :=
| J_nil : joined sep [] ""
| J_one a : joined sep [a] a
| J_more a b l t : joined sep (b :: l) t -> joined sep (a :: b :: l) (a ++ sep ++ t)%string.

(** A line break. *)
Definition line_break : string := String (ascii_of_nat 10) "".

(** How a block is shown: under a header naming the cell, if headers are wanted. *)
Definition shown (headers : bool) (block : Z * string) : string :=
  (if headers then "# Cell " ++ DecimalString.NilZero.string_of_int (Z.to_int (fst block)) ++ line_break
      ++ snd block
   else snd block)%string.

(** The contents of a cell after optional formatting by [black]; contents that it rejects
    are kept. *)
Definition formatted (black : string -> option string) (blacken : bool) (t t' : string)
  : Prop :=
  match blacken, black t with
  | true, Some f => stripped f t'
  | _, _ => t' = t
  end.

(** [txt] shows the slice [l]: one block per cell occurring in [l], in strictly increasing
    order, holding the texts of exactly the elements of [l] that belong to the cell, in
    the order of [l], one per line; the blocks are separated by a blank line (with
    headers) or a line break, and nothing else is shown. *)
Definition shows (w : world) (l : list nat) (black : string -> option string)
    (blacken headers : bool) (txt : string) : Prop :=
  exists blocks : list (Z * string),
    Sorted.StronglySorted Z.lt (map fst blocks) /\
    (forall n, (exists t, In (n, t) blocks) <-> texts_of_cell w l n <> []) /\
    (forall n t, In (n, t) blocks -> exists raw,
       joined line_break (texts_of_cell w l n) raw /\ formatted black blacken raw t) /\
    exists whole,
      joined (if headers then line_break ++ line_break else line_break)%string
             (map (shown headers) blocks) whole /\
      stripped whole txt.

(** ** Memoization redirect (C14) *)

(** The cell execution that a seed names. *)
Definition seed_ctr (w : world) (sd : seed) : option Z :=
  match sd with
  | SCtr n => Some n
  | STs t => Some (cell_num t)
  | SObj u => match nth_error (objs w) u with
              | Some o => Some (cell_num (so_ts o)) | None => None end
  end.

(** [sd'] is [sd] moved to execution [n] (same statement number, if it had one). *)
Definition moved_to (w : world) (n : Z) (sd sd' : seed) : Prop :=
  match sd with
  | SCtr _ => sd' = SCtr n
  | STs t => sd' = STs (mkTs n (stmt_num t))
  | SObj u => exists o, nth_error (objs w) u = Some o /\
                        sd' = STs (mkTs n (stmt_num (so_ts o)))
  end.

(** Where slicing should start for a seed: at its own execution, or at the execution
    whose recorded results were reused. *)
Definition redirected (w : world) (sd sd' : seed) : Prop :=
  exists n mem, seed_ctr w sd = Some n /\ zget (w_skipped w) n = Some mem /\
    ((mem = (-1)%Z /\ moved_to w n sd sd') \/ (mem <> (-1)%Z /\ moved_to w mem sd sd')).

(** ** Cells of a session *)
Require Import Verif.SessionSpec.

(** Version [v] is the execution of cell [pid] that a dependency recorded at execution
    counter [k] refers to: the last one, in order of creation, whose counter is at
    most [k]. *)
Definition last_not_after (s : sess) (pid : nat) (k : Z) (v : nat) : Prop :=
  exists c, nth_error (heap s) v = Some c /\ c_id c = pid /\ (c_ctr c <= k)%Z /\
    forall v' c', nth_error (heap s) v' = Some c' -> c_id c' = pid ->
                  (c_ctr c' <= k)%Z -> v' <= v.

(** A direct dependency between cell executions. *)
Definition cell_depends (s : sess) (ctxs : list ctx) (u v : nat) : Prop :=
  exists c x pid sym, nth_error (heap s) u = Some c /\ In x ctxs /\
    has (c_par c x) pid sym /\ last_not_after s pid (c_ctr c) v.

(** Histories in which a recorded parent is never newer than the child, and no cell is
    renamed. *)
Definition backward_only (s : sess) (r : option nat) (e : event) : Prop :=
  restricted s r e /\
  match e with
  | EUse _ u pu _ => forall c p, nth_error (heap s) u = Some c ->
      nth_error (heap s) pu = Some p -> (c_ctr p <= c_ctr c)%Z
  | EInit _ l => forall i ps p u v pu pv, In (i, ps) l -> In p ps ->
      current s i u v -> current s p pu pv -> (c_ctr pv <= c_ctr v)%Z
  | ERename _ _ _ _ => False
  | _ => True
  end.
