(** Model of backward slicing: core/ipyflow/slicing/mixin.py:421-553 and the slice text,
    mixin.py:55-83. The same mixin serves cells and statements; a [world] is either. *)
Require Import String Ascii List ZArith Bool Arith.
Require Import DecimalString.
Import ListNotations.
Require Import Verif.Base Verif.TimestampModel Verif.SessionModel.

(** What slicing uses of a [Cell] or a [Statement] (mixin.py:244-298, [SliceableMixin]):
    [timestamp], [prev], [override] (statements only, statement.py:64; [False] for cells,
    mixin.py:430), [text], and the parents in each slicing context. *)
Record sobj := mkSobj {
  so_ts : ts;
  so_prev : option nat;
  so_override : bool;
  so_text : string;
  so_par : ctx -> edges
}.

(** All objects ever created, [from_id] (cell.py:519-520, statement.py:182-183),
    [at_timestamp] (cell.py:509-516, statement.py:171-179), whether the objects are cells,
    and [skipped_due_to_memoization_ctr] by cell counter (cell.py:134). *)
Record world := mkWorld {
  objs : list sobj;
  ids : dict nat;
  by_ts : list (ts * nat);
  w_cells : bool;
  w_skipped : list (Z * Z)
}.

Definition wobj (w : world) (u : nat) : res sobj :=
  of_option AttributeError (nth_error (objs w) u).

Fixpoint tget (d : list (ts * nat)) (t : ts) : option nat :=
  match d with
  | [] => None
  | (t', u) :: d' => if ts_eqb t t' then Some u else tget d' t
  end.

(** A seed: a counter, a timestamp, or an object (mixin.py:440). *)
Inductive seed := SCtr (n : Z) | STs (t : ts) | SObj (u : nat).

(** [at_timestamp]: cell.py:509-516 ignores the statement number and looks up the
    counter; statement.py:171-179 asserts that the argument is a timestamp. *)
Definition at_seed (w : world) (sd : seed) : res nat :=
  match sd with
  | SObj u => Ok u
  | SCtr n =>
      if w_cells w then of_option KeyError (tget (by_ts w) (mkTs n (-1)))
      else Err AssertionError
  | STs t =>
      of_option KeyError
        (tget (by_ts w) (if w_cells w then mkTs (cell_num t) (-1) else t))
  end.

(** mixin.py:428-431: follow [prev] until the version is not newer than [t]. [None] has no
    attribute [timestamp]. *)
Fixpoint resolve (fuel : nat) (w : world) (t : ts) (u : nat) : res nat :=
  match fuel with
  | O => Err OutOfFuel
  | S f =>
      rbind (wobj w u) (fun o =>
        if ts_ltb t (so_ts o) then
          if so_override o then Ok u
          else match so_prev o with
               | None => Err AttributeError
               | Some p => resolve f w t p
               end
        else Ok u)
  end.

(** mixin.py:425-432: the parents visited from [u], in order, over the enabled contexts
    [ctxs] (config.py:108-114). *)
Definition succs (w : world) (ctxs : list ctx) (u : nat) : list (res nat) :=
  match nth_error (objs w) u with
  | None => [Err AttributeError]
  | Some o =>
      flat_map (fun x =>
        map (fun pid =>
               rbind (of_option KeyError (dget (ids w) pid))
                     (resolve (S (length (objs w))) w (so_ts o)))
            (dkeys (so_par o x))) ctxs
  end.

(** mixin.py:421-432, [_make_slice_helper]. *)
Definition slice_helper (w : world) (ctxs : list ctx) (closure : list nat) (u : nat)
  : res (list nat) :=
  dfs (succs w ctxs) (S (length (objs w))) closure u.

(** [sorted(closure, key=lambda dep: dep.timestamp)], mixin.py:452: a stable sort. The
    iteration order of the Python set [closure] is unspecified; insertion
    order stands in for it, which matters only for equal timestamps. *)
Fixpoint insert_by {A} (leb : A -> A -> bool) (a : A) (l : list A) : list A :=
  match l with
  | [] => [a]
  | b :: l' => if leb a b then a :: b :: l' else b :: insert_by leb a l'
  end.

Fixpoint sort_by {A} (leb : A -> A -> bool) (l : list A) : list A :=
  match l with
  | [] => []
  | a :: l' => insert_by leb a (sort_by leb l')
  end.

Definition ts_of (w : world) (u : nat) : ts :=
  match nth_error (objs w) u with Some o => so_ts o | None => ts_uninit end.

(** mixin.py:437-452, [make_multi_slice]. *)
Definition make_multi_slice (w : world) (ctxs : list ctx) (seeds : list seed)
    (seed_only : bool) : res (list nat) :=
  rmap (sort_by (fun a b => ts_leb (ts_of w a) (ts_of w b)))
    (rfold (fun closure sd =>
              rbind (at_seed w sd) (fun u =>
                if seed_only then Ok (sadd u closure)
                else slice_helper w ctxs closure u))
           seeds []).

(** mixin.py:481-498, [_process_memoized_seeds]. The result is a set; multiplicity and
    order do not matter to [make_multi_slice] (theorem C10). *)
Definition process_memoized_seeds (w : world) (seeds : list seed) : res (list seed) :=
  rfold (fun acc sd =>
    rbind (match sd with
           | SObj u => rmap (fun o => STs (so_ts o)) (wobj w u)
           | _ => Ok sd
           end) (fun sd =>
    let n := match sd with SCtr n => n | STs t => cell_num t | SObj _ => 0%Z end in
    rbind (of_option KeyError (zget (w_skipped w) n)) (fun mem =>
      Ok (acc ++ [if (mem =? -1)%Z then sd
                  else match sd with
                       | SCtr _ => SCtr mem
                       | STs t => STs (mkTs mem (stmt_num t))
                       | SObj u => SObj u
                       end])))) seeds [].

(** ** Text *)

Open Scope string_scope.

Definition nl : string := String (ascii_of_nat 10) "".

(** [sep.join(l)] *)
Fixpoint join (sep : string) (l : list string) : string :=
  match l with
  | [] => ""
  | [a] => a
  | a :: l' => a ++ sep ++ join sep l'
  end.

(** [str.strip], for ASCII whitespace. *)
Definition is_space (c : ascii) : bool :=
  let n := nat_of_ascii c in
  (Nat.eqb n 32 || (Nat.leb 9 n && Nat.leb n 13) || (Nat.leb 28 n && Nat.leb n 31))%bool.

Fixpoint lstrip (s : string) : string :=
  match s with
  | EmptyString => EmptyString
  | String c s' => if is_space c then lstrip s' else s
  end.

Fixpoint rstrip (s : string) : string :=
  match s with
  | EmptyString => EmptyString
  | String c s' =>
      match rstrip s' with
      | EmptyString => if is_space c then EmptyString else String c EmptyString
      | r => String c r
      end
  end.

Definition strip (s : string) : string := rstrip (lstrip s).

(** mixin.py:454-466, [make_cell_dict_from_closure]. *)
Definition cell_dict (w : world) (closure : list nat) : res (list (Z * string)) :=
  rmap (map (fun kv => (fst kv, join nl (snd kv))))
    (rfold (fun d u =>
              rmap (fun o =>
                      let k := cell_num (so_ts o) in
                      zset d k
                        ((match zget d k with Some l => l | None => [] end)
                           ++ [so_text o])%list)
                   (wobj w u))
           closure []).

(** mixin.py:533-546, [format_slice]: [black] is an arbitrary formatter that may raise
    ([None]), in which case the content is kept. *)
Definition format_slice (black : string -> option string) (blacken : bool)
    (raw : list (Z * string)) : list (Z * string) :=
  if blacken then
    map (fun kv => (fst kv, match black (snd kv) with
                            | Some t => strip t
                            | None => snd kv
                            end)) raw
  else raw.

Definition string_of_Z (n : Z) : string := NilZero.string_of_int (Z.to_int n).

(** mixin.py:78-83, [_get_slice_text_from_slice]. Keys of a dict are distinct, so sorting
    the items sorts by key. *)
Definition render (headers : bool) (kv : Z * string) : string :=
  if headers then "# Cell " ++ string_of_Z (fst kv) ++ nl ++ snd kv else snd kv.

Definition slice_text (headers : bool) (raw : list (Z * string)) : string :=
  strip (join (if headers then nl ++ nl else nl)
              (map (render headers)
                   (sort_by (fun a b => (fst a <=? fst b)%Z) raw))).

(** mixin.py:500-515, [format_multi_slice], up to the slice text. *)
Definition format_multi_slice (w : world) (ctxs : list ctx) (seeds : list seed)
    (black : string -> option string) (blacken seed_only headers : bool) : res string :=
  rbind (process_memoized_seeds w seeds) (fun seeds =>
  rbind (make_multi_slice w ctxs seeds seed_only) (fun l =>
  rmap (fun d => slice_text headers (format_slice black blacken d)) (cell_dict w l))).

Close Scope string_scope.

(** ** Cells of a session *)

(** The cells of a session (SessionModel.v) as a world; [text u] is [Cell.text] of
    object [u] (cell.py:161-163). *)
Definition cell_world (s : sess) (text : nat -> string) (skipped : list (Z * Z)) : world :=
  mkWorld
    (map (fun iv => mkSobj (mkTs (c_ctr (snd iv)) (-1)) (c_prev (snd iv)) false
                           (text (fst iv)) (c_par (snd iv)))
         (combine (seq 0 (length (heap s))) (heap s)))
    (cur s)
    (map (fun kv => (mkTs (fst kv) (-1), snd kv)) (by_ctr s))
    true skipped.

(** [cell.slice(stmts=True)], cell.py:937-955: the statement slice [stmts] of the cell
    is passed to [Cell.format_multi_slice], i.e. its timestamps seed a *cell* slice. *)
Definition cell_slice_stmts (cells stmts : world) (ctxs : list ctx) (cell_ctr : Z)
    (num_stmts : nat) (black : string -> option string) (seed_only headers : bool)
  : res string :=
  rbind (make_multi_slice stmts ctxs
           (map (fun i => STs (mkTs cell_ctr (Z.of_nat i))) (seq 0 num_stmts)) false)
        (fun l => format_multi_slice cells ctxs (map (fun u => STs (ts_of stmts u)) l)
                                     black true seed_only headers).
