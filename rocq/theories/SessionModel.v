(** Model of the cell registry and of the cell-level dependency edges:
    core/ipyflow/data_model/cell.py (class [Cell]), core/ipyflow/slicing/mixin.py
    (edge operations), core/ipyflow/flow.py ([add_data_dep],
    [_initialize_cell_parents], [_remove_dangling_parent_edges]) and the parts of
    core/ipyflow/shell/interactiveshell.py that call them.

    Cell ids and symbols are natural numbers. Cell objects live in a heap (a list
    indexed by object number, in order of creation). *)
Require Import List ZArith Bool Arith.
Import ListNotations.
Require Import Verif.Base.

(** slicing/context.py: the two slicing contexts. *)
Inductive ctx := Dynamic | Static.

Definition ctx_eqb (a b : ctx) : bool :=
  match a, b with Dynamic, Dynamic | Static, Static => true | _, _ => false end.

(** [Dict[IdType, Set[Symbol]]], e.g. cell.py:112-115. *)
Definition edges := dict (list nat).

(** cell.py:88-135, [Cell.__init__], restricted to the fields used here.
    [c_par] holds [raw_dynamic_parents] / [raw_static_parents]. *)
Record cellv := mkCell {
  c_id : nat;
  c_ctr : Z;
  c_prev : option nat;
  c_history : list Z;
  c_placeholder : bool;
  c_par : ctx -> edges
}.

(** cell.py:78-86, the class-level registries, plus the child edges. The child dicts
    ([raw_*_children]) are stored per cell id and not per object because
    [create_and_track] (cell.py:404-405) makes a new version share the dict objects of
    the previous version. *)
Record sess := mkSess {
  heap : list cellv;
  cur : dict nat;                 (** _current_cell_by_cell_id *)
  by_ctr : list (Z * nat);        (** _cell_by_cell_ctr *)
  counter : Z;                    (** _cell_counter *)
  ch : ctx -> dict edges
}.

(** cell.py:78-86, initial values of the class variables. *)
Definition sess_init : sess := mkSess [] [] [] 0 (fun _ => []).

(** ** Dicts keyed by counters *)

Fixpoint zget {V} (d : list (Z * V)) (k : Z) : option V :=
  match d with
  | [] => None
  | (k', v) :: d' => if Z.eqb k k' then Some v else zget d' k
  end.

Fixpoint zset {V} (d : list (Z * V)) (k : Z) (v : V) : list (Z * V) :=
  match d with
  | [] => [(k, v)]
  | (k', v') :: d' => if Z.eqb k k' then (k', v) :: d' else (k', v') :: zset d' k v
  end.

(** ** Lookups *)

(** cell.py:519-520, [from_id]: [KeyError] when absent. *)
Definition from_id (s : sess) (i : nat) : res nat := of_option KeyError (dget (cur s) i).

(** cell.py:490-491, [at_counter]. *)
Definition at_counter (s : sess) (k : Z) : res nat :=
  of_option KeyError (zget (by_ctr s) k).

(** Dereferencing an object number. An object number that was never allocated cannot
    occur in Python; it is reported as [AttributeError]. *)
Definition obj (s : sess) (u : nat) : res cellv :=
  of_option AttributeError (nth_error (heap s) u).

(** cell.py:689-694, [is_current]. *)
Definition is_current (s : sess) (u : nat) (c : cellv) : bool :=
  match dget (cur s) (c_id c) with Some u' => Nat.eqb u' u | None => false end.

Definition set_cell (s : sess) (u : nat) (c : cellv) : sess :=
  mkSess (lset (heap s) u c) (cur s) (by_ctr s) (counter s) (ch s).

(** Assignment to [cell.raw_parents] in context [x] (mixin.py:381-390). *)
Definition with_par (c : cellv) (x : ctx) (e : edges) : cellv :=
  mkCell (c_id c) (c_ctr c) (c_prev c) (c_history c) (c_placeholder c)
         (fun y => if ctx_eqb y x then e else c_par c y).

(** [raw_children] of the cell with id [i] in context [x] (mixin.py:392-409). *)
Definition children_of (s : sess) (x : ctx) (i : nat) : edges :=
  match dget (ch s x) i with Some e => e | None => [] end.

(** Assignment to (or in-place change of) [raw_children]. *)
Definition set_children (s : sess) (x : ctx) (i : nat) (e : edges) : sess :=
  mkSess (heap s) (cur s) (by_ctr s) (counter s)
         (fun y => if ctx_eqb y x then dset (ch s y) i e else ch s y).

(** ** Creating versions *)

(** cell.py:363-417, [create_and_track]. [bump] is [bump_cell_counter];
    [fixup] is [Some n] when [validate_ipython_counter] is set and the IPython counter
    disagrees, in which case the counter is set to [n] (lines 376-385).
    Tags are modelled separately (TagModel.v). *)
Definition create_and_track (s : sess) (i : nat) (bump : bool) (fixup : option Z)
    (placeholder : bool) : res (sess * nat) :=
  let counter' :=
    if bump then match fixup with Some n => n | None => counter s + 1 end%Z
    else counter s in
  let ctr := if bump then counter' else (-1)%Z in
  let prev := dget (cur s) i in
  if (Z.eqb ctr (-1) && match prev with Some _ => true | None => false end)%bool
  then Err AssertionError
  else
    match (match prev with
           | None => Ok None
           | Some u => rmap Some (obj s u)
           end) with
    | Err e => Err e
    | Ok pc =>
        let u := length (heap s) in
        let own := if (-1 <? ctr)%Z then [ctr] else [] in
        let cell :=
          mkCell i ctr prev
                 (match pc with Some p => c_history p ++ own | None => own end)
                 placeholder (fun _ => []) in
        let newer := match pc with
                     | None => true
                     | Some p => (c_ctr p <? ctr)%Z
                     end in
        Ok (mkSess (heap s ++ [cell])
                   (if newer then dset (cur s) i u else cur s)
                   (if (-1 <? ctr)%Z then zset (by_ctr s) ctr u else by_ctr s)
                   counter'
                   (ch s), u)
    end.

(** ** Edges *)

(** [edges.setdefault(k, set()).update(syms)] *)
Definition edge_add (e : edges) (k : nat) (syms : list nat) : edges :=
  dset e k (supd (match dget e k with Some old => old | None => [] end) syms).

(** The loop body of [remove_parent_edges], mixin.py:329-334: skip if there is no
    (non-empty) entry, subtract, delete the entry when it becomes empty. *)
Definition edge_remove (e : edges) (k : nat) (syms : list nat) : edges :=
  match dget e k with
  | None => e
  | Some old =>
      if is_nil old then e
      else let rest := sdiff old syms in
           if is_nil rest then ddel e k else dset e k rest
  end.

(** mixin.py:306-313, the branch in which a cell uses its own symbol: inherit matching
    parents from the previous version. *)
Definition inherit_edges (own prev : edges) (syms : list nat) : edges :=
  fold_left (fun acc kv =>
               let common := sinter syms (snd kv) in
               if is_nil common then acc else edge_add acc (fst kv) common)
            prev own.

(** mixin.py:300-316, [add_parent_edges] on cell objects: [u] is self, [pu] the
    resolved parent object. *)
Definition add_parent_edges (s : sess) (x : ctx) (u pu : nat) (syms : list nat)
  : res sess :=
  if is_nil syms then Ok s
  else
    rbind (obj s u) (fun c =>
    rbind (obj s pu) (fun p =>
      let pid := c_id p in
      if dhas (children_of s x (c_id c)) pid then Ok s
      else if Nat.eqb pid (c_id c) then
        match c_prev c with
        | None => Ok s
        | Some v =>
            rbind (obj s v) (fun pc =>
              Ok (set_cell s u
                    (with_par c x (inherit_edges (c_par c x) (c_par pc x) syms))))
        end
      else
        let s1 := set_cell s u (with_par c x (edge_add (c_par c x) pid syms)) in
        Ok (set_children s1 x pid (edge_add (children_of s1 x pid) (c_id c) syms)))).

(** mixin.py:321-334, [remove_parent_edges] when [syms] is not the stored set itself. *)
Definition remove_parent_edges (s : sess) (x : ctx) (u pid : nat) (syms : list nat)
  : res sess :=
  if is_nil syms then Ok s
  else
    rbind (from_id s pid) (fun _ =>
    rbind (obj s u) (fun c =>
      let s1 := set_cell s u (with_par c x (edge_remove (c_par c x) pid syms)) in
      Ok (set_children s1 x pid (edge_remove (children_of s1 x pid) (c_id c) syms)))).

(** mixin.py:321-334 when the caller passes the very set object stored under
    [raw_parents[pid]], as interactiveshell.py:634-635 does: the first
    [difference_update] empties the argument, so the second one removes nothing. *)
Definition remove_parent_edges_aliased (s : sess) (x : ctx) (u pid : nat) : res sess :=
  rbind (obj s u) (fun c =>
    match dget (c_par c x) pid with
    | None => Ok s
    | Some syms =>
        if is_nil syms then Ok s
        else
          rbind (from_id s pid) (fun _ =>
            Ok (set_cell s u (with_par c x (ddel (c_par c x) pid))))
    end).

(** flow.py:427-441, the cell-level part of [add_data_dep]: an edge is only added
    between current versions. [sym.is_globally_accessible] is the caller's business. *)
Definition add_data_dep (s : sess) (x : ctx) (u pu sym : nat) : res sess :=
  rbind (obj s u) (fun c =>
  rbind (obj s pu) (fun p =>
    if (is_current s u c && is_current s pu p)%bool
    then add_parent_edges s x u pu [sym]
    else Ok s)).

(** flow.py:242-258, [_initialize_cell_parents]: unknown ids are skipped. *)
Definition init_parents (s : sess) (fake : nat) (l : list (nat * list nat)) : res sess :=
  rfold (fun s kv =>
           match dget (cur s) (fst kv) with
           | None => Ok s
           | Some u =>
               rfold (fun s p =>
                        match dget (cur s) p with
                        | None => Ok s
                        | Some pu => add_parent_edges s Static u pu [fake]
                        end) (snd kv) s
           end) l s.

(** cell.py:440-443, iteration over current cells in counter order. Every cell is visited
    once and the removals for different cells do not interact, so the dict order
    is kept. *)
Definition current_uids (s : sess) : list nat := dvals (cur s).

(** flow.py:596-601: remove dangling symbols from every edge of every current cell. *)
Definition remove_dangling_ctx (s : sess) (x : ctx) (dangling : list nat) : res sess :=
  rfold (fun s u =>
           rbind (obj s u) (fun c =>
             rfold (fun s pid => remove_parent_edges s x u pid dangling)
                   (dkeys (c_par c x)) s))
        (current_uids s) s.

(** flow.py:606-610: drop the previous version's edges that the current one lacks. *)
Definition remove_stale_ctx (s : sess) (x : ctx) (u v : nat) : res sess :=
  rbind (obj s v) (fun pc =>
    rfold (fun s kv =>
             rbind (obj s u) (fun c =>
               remove_parent_edges s x u (fst kv)
                 (sdiff (snd kv)
                    (match dget (c_par c x) (fst kv) with Some e => e | None => [] end))))
          (c_par pc x) s).

(** flow.py:596-610, [_remove_dangling_parent_edges]. *)
Definition remove_dangling_parent_edges (s : sess) (dangling : list nat) : res sess :=
  rbind (remove_dangling_ctx s Dynamic dangling) (fun s =>
  rbind (remove_dangling_ctx s Static dangling) (fun s =>
  rbind (at_counter s (counter s)) (fun u =>
  rbind (obj s u) (fun c =>
    match c_prev c with
    | None => Ok s
    | Some v =>
        rbind (remove_stale_ctx s Dynamic u v) (fun s =>
               remove_stale_ctx s Static u v)
    end)))).

(** interactiveshell.py:451-453: a run with tracing disabled takes over the parents of
    the previous version (the dict objects themselves; modelled as a copy, so a later
    change is not seen by the superseded version). *)
Definition untraced_parents (s : sess) (u : nat) : res sess :=
  rbind (obj s u) (fun c =>
    match c_prev c with
    | None => Ok s
    | Some v =>
        rbind (obj s v) (fun pc =>
          Ok (set_cell s u (with_par (with_par c Static (c_par pc Static))
                                     Dynamic (c_par pc Dynamic))))
    end).

(** interactiveshell.py:632-637, the cell-level part of [_handle_memoization] in one
    context: drop the edges of the skipped run, copy those of the reused run [v]. *)
Definition replay_ctx (s : sess) (x : ctx) (u v : nat) : res sess :=
  rbind (obj s u) (fun c =>
  rbind (rfold (fun s pid => remove_parent_edges_aliased s x u pid)
               (dkeys (c_par c x)) s) (fun s =>
  rbind (obj s v) (fun pc =>
    rfold (fun s kv =>
             rbind (from_id s (fst kv)) (fun pu => add_parent_edges s x u pu (snd kv)))
          (c_par pc x) s))).

(** interactiveshell.py:625-637, for every enabled context (config.py:108-114:
    dynamic, then static). *)
Definition replay (s : sess) (dyn stat : bool) (u v : nat) : res sess :=
  rbind (if dyn then replay_ctx s Dynamic u v else Ok s) (fun s =>
         if stat then replay_ctx s Static u v else Ok s).

(** ** Renaming *)

Definition with_id (c : cellv) (i : nat) : cellv :=
  mkCell i (c_ctr c) (c_prev c) (c_history c) false (c_par c).

(** cell.py:262-267: the version and, recursively, all previous versions get the new
    id. The recursion follows [prev_cell]. *)
Fixpoint rename_chain (fuel : nat) (s : sess) (u new_id : nat) : res sess :=
  match fuel with
  | O => Err OutOfFuel
  | S f =>
      rbind (obj s u) (fun c =>
        let s1 := set_cell s u (with_id c new_id) in
        match c_prev c with
        | None => Ok s1
        | Some v => rename_chain f s1 v new_id
        end)
  end.

Definition rename_key {V} (old new : nat) (d : dict V) : dict V :=
  map (fun kv => (if Nat.eqb (fst kv) old then new else fst kv, snd kv)) d.

(** The entry under [old] becomes the entry under [new]. *)
Definition move_key {V} (old new : nat) (d : dict V) : dict V :=
  match dget d old with
  | Some v => dset (ddel d old) new v
  | None => ddel d new
  end.

(** cell.py:280-293, the edge renaming in one context. *)
Definition rename_edges_ctx (s : sess) (x : ctx) (u old new : nat) : res sess :=
  rbind (obj s u) (fun c =>
  rbind (rfold (fun s pid =>
                  rbind (from_id s pid) (fun pu =>
                  rbind (obj s pu) (fun p =>
                    Ok (set_children s x (c_id p)
                          (rename_key old new (children_of s x (c_id p)))))))
               (dkeys (c_par c x)) s) (fun s =>
    rfold (fun s cid =>
             rbind (from_id s cid) (fun cu =>
             rbind (obj s cu) (fun d =>
               Ok (set_cell s cu (with_par d x (rename_key old new (c_par d x)))))))
          (dkeys (children_of s x new)) s)).

(** cell.py:262-293, [update_id]. Positions and reactive tags are not modelled here. The
    [move_key] on [ch] moves the child dict, which in Python belongs to the object and
    so needs no move. [dyn]/[stat]: which contexts are enabled. *)
Definition update_id (s : sess) (dyn stat : bool) (u new_id : nat) : res sess :=
  rbind (obj s u) (fun c =>
    let old := c_id c in
    rbind (rename_chain (S (length (heap s))) s u new_id) (fun s1 =>
    rbind (match dget (cur s1) old with
           | None => Ok (cur s1)
           | Some u' => if Nat.eqb u' u then Ok (dset (ddel (cur s1) old) new_id u)
                        else Err AssertionError
           end) (fun cur' =>
    let s2 := mkSess (heap s1) cur' (by_ctr s1) (counter s1)
                     (fun y => move_key old new_id (ch s1 y)) in
    rbind (if dyn then rename_edges_ctx s2 Dynamic u old new_id else Ok s2) (fun s3 =>
           if stat then rename_edges_ctx s3 Static u old new_id else Ok s3)))).

(** ** Events of a session *)

Inductive event :=
| EExec (i : nat) (fixup : option Z) (placeholder : bool)
    (** before_run_cell, interactiveshell.py:557-574 *)
| EUntracked (i : nat)
    (** _create_untracked_cells_for_content, flow.py:522-528 *)
| EUse (x : ctx) (u pu sym : nat)
    (** add_data_dep, flow.py:427-441 *)
| EInit (fake : nat) (l : list (nat * list nat))
    (** _initialize_cell_parents, flow.py:242-258 *)
| EReplay (dyn stat : bool) (v : nat)
    (** _handle_memoization, interactiveshell.py:625-637 *)
| EFinish (dangling : list nat)
    (** _remove_dangling_parent_edges, flow.py:596-610 *)
| EUntraced
    (** interactiveshell.py:451-453 *)
| ERename (dyn stat : bool) (i new_id : nat)
    (** update_id called from comm_manager.py:332-344 *).

Definition step (s : sess) (e : event) : res sess :=
  match e with
  | EExec i fixup ph => rmap fst (create_and_track s i true fixup ph)
  | EUntracked i =>
      (* flow.py:525-528 only creates cells for unknown ids *)
      match dget (cur s) i with
      | Some _ => Ok s
      | None => rmap fst (create_and_track s i false None false)
      end
  | EUse x u pu sym => add_data_dep s x u pu sym
  | EInit fake l => init_parents s fake l
  | EReplay dyn stat v =>
      rbind (at_counter s (counter s)) (fun u => replay s dyn stat u v)
  | EFinish dangling => remove_dangling_parent_edges s dangling
  | EUntraced => rbind (at_counter s (counter s)) (untraced_parents s)
  | ERename dyn stat i new_id =>
      rbind (from_id s i) (fun u => update_id s dyn stat u new_id)
  end.

Fixpoint steps (s : sess) (l : list event) : res sess :=
  match l with
  | [] => Ok s
  | e :: l' => rbind (step s e) (fun s' => steps s' l')
  end.
