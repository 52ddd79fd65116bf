(** Model of core/ipyflow/frontend.py ([FrontendCheckerResult]) and of
    [directional_parents] / [get_latest_parent_by_ts_map] in data_model/cell.py.

    Not modelled: [unsafe_order_cells] and [unsafe_order_symbol_usage] (lint output),
    [phantom_cell_info], the two stale-parent maps, and the analysis that
    produces the checker result of one cell, whose outcome is an input here ([chk]). *)
Require Import List ZArith Bool Arith.
Import ListNotations.
Require Import Verif.Base Verif.TimestampModel Verif.SessionModel Verif.SliceModel
  Verif.PosModel.

(** config.py, [ExecutionSchedule]. *)
Inductive schedule := LivenessBased | DagBased | HybridDagLiveness.

(** frontend.py:169-172 and elsewhere: is the schedule one of the two DAG schedules? *)
Definition is_dag (s : schedule) : bool :=
  match s with LivenessBased => false | _ => true end.

(** What the checker reads from a symbol: [shallow_timestamp], [visible_timestamp], the
    cell numbers of [updated_timestamps], [is_implicit_virtual]. *)
Record symi := mkSymi {
  s_shallow : ts;
  s_visible : option ts;
  s_updated : list Z;
  s_virtual : bool
}.

(** What [check_and_resolve_symbols] (cell.py:811-865) returns for one cell, reduced to
    what the frontend uses: the live symbols that are waiting, whether there are
    unresolved live references, [typechecks], the dead symbols, and the three values
    of [get_max_used_live_symbol_cell_counter] (cell.py:704-776). *)
Record chk := mkChk {
  k_waiting : list nat;
  k_unresolved : bool;
  k_typechecks : bool;
  k_dead : list nat;
  k_max_ctr : Z;
  k_max_reactive : Z;
  k_max_cascading : Z
}.

(** The current version of a cell: position, counter, raw parents per context,
    [static_removed_symbols], the result of checking it ([None]: the check raised),
    [static_writes] and [last_check_result.modified]. *)
Record fcell := mkF {
  f_pos : pos;
  f_ctr : Z;
  f_par : ctx -> edges;
  f_removed : list nat;
  f_check : option chk;
  f_writes : list nat;
  f_modified : option (list nat)
}.

(** The registry and the settings. *)
Record fenv := mkFenv {
  e_cells : dict fcell;
  e_syms : nat -> symi;
  e_fake : nat;                   (** [fake_edge_sym] *)
  e_ctxs : list ctx;              (** enabled slicing contexts, config.py:108-114 *)
  e_in_order : bool;
  e_schedule : schedule;
  e_pull : bool;                  (** [pull_reactive_updates] *)
  e_min_ts : Z;                   (** [min_timestamp] *)
  e_counter : Z;                  (** [cell_counter()] *)
  e_min_new : Z;                  (** [_min_new_ready_cell_counter] *)
  e_min_forced : Z;               (** [_min_forced_reactive_cell_counter] *)
  e_allow_new : bool              (** [allow_new_ready] *)
}.

(** flow.py:404-407, [min_new_ready_cell_counter]. *)
Definition min_new_ready (e : fenv) : Z :=
  Z.max (Z.max (e_min_new e) (e_counter e)) (e_min_ts e).

(** flow.py:409-413, [min_forced_reactive_cell_counter]. *)
Definition min_forced (e : fenv) : Z := Z.max (e_min_forced e) (e_min_ts e).

(** cell.py:519-520, [from_id]. *)
Definition fcell_of (e : fenv) (i : nat) : res fcell :=
  of_option KeyError (dget (e_cells e) i).

Definition pos_ltb (a b : pos) : bool := negb (pos_leb b a).

Fixpoint rfilter {A} (f : A -> res bool) (l : list A) : res (list A) :=
  match l with
  | [] => Ok []
  | a :: l' => rbind (f a) (fun b =>
               rmap (fun r => if b then a :: r else r) (rfilter f l'))
  end.

(** cell.py:189-198, [directional_parents] in context [x]. *)
Definition dparents (e : fenv) (x : ctx) (c : fcell) : res edges :=
  if e_in_order e then
    rfilter (fun kv => rmap (fun p => pos_ltb (f_pos p) (f_pos c)) (fcell_of e (fst kv)))
            (f_par c x)
  else Ok (f_par c x).

(** ** [get_latest_parent_by_ts_map] *)

Fixpoint tsget {V} (d : list (ts * V)) (t : ts) : option V :=
  match d with
  | [] => None
  | (t', v) :: d' => if ts_eqb t t' then Some v else tsget d' t
  end.

Fixpoint tsset {V} (d : list (ts * V)) (t : ts) (v : V) : list (ts * V) :=
  match d with
  | [] => [(t, v)]
  | (t', v') :: d' => if ts_eqb t t' then (t', v) :: d' else (t', v') :: tsset d' t v
  end.

(** cell.py:211-226. A parent is represented by its id and its position. *)
Definition latest_parents (e : fenv) (c : fcell) : res (option (list (ts * (nat * pos)))) :=
  if e_in_order e then
    rmap Some
      (rfold (fun m x =>
         rbind (dparents e x c) (fun d =>
         rfold (fun m kv =>
           rmap (fun p =>
             fold_left (fun m s =>
               let t := s_shallow (e_syms e s) in
               let old := match tsget m t with Some ip => snd ip | None => f_pos p end in
               if pos_leb old (f_pos p) then tsset m t (fst kv, f_pos p) else m)
             (sdiff (sdiff (snd kv) (f_removed c)) [e_fake e]) m)
             (fcell_of e (fst kv))) d m))
       (e_ctxs e) [])
  else Ok None.

(** frontend.py:331-340 and 537-546: is [pid] not the latest parent for any of [syms]?
    [latest_par_by_ts[...]] raises [KeyError] when the timestamp is missing. *)
Definition not_latest (e : fenv) (latest : option (list (ts * (nat * pos)))) (pid : nat)
    (syms : list nat) : res bool :=
  match latest with
  | None => Ok false
  | Some m =>
      if memb (e_fake e) syms then Ok false
      else rmap (fun l => negb (memb pid l))
             (rfold (fun acc s =>
                rmap (fun ip => acc ++ [fst ip])
                     (of_option KeyError (tsget m (s_shallow (e_syms e s))))) syms [])
  end.

Definition subset (a b : list nat) : bool := forallb (fun x => memb x b) a.

(** ** Readiness *)

(** frontend.py:341-355: the parent changed since the cell ran. *)
Definition parent_changed (e : fenv) (c par : fcell) (syms : list nat) : bool :=
  ((Z.max (f_ctr c) (e_min_ts e) <? f_ctr par)%Z
   && (e_pull e
       || existsb (fun s => Z.eqb (cell_num (s_shallow (e_syms e s))) (f_ctr par)) syms))
  || existsb (fun s =>
        match s_visible (e_syms e s) with
        | None => false
        | Some v => Z.eqb (cell_num v) (f_ctr par)
                    && negb (Z.eqb (cell_num v) (cell_num (s_shallow (e_syms e s))))
        end) syms.

(** frontend.py:361-374: in the static context with in-order flow, a lower parent that
    supplies the same symbols wins. The loop is abandoned at the first such parent. *)
Fixpoint shadowed (e : fenv) (par : fcell) (syms : list nat) (l : edges) : res bool :=
  match l with
  | [] => Ok false
  | (oid, osyms) :: l' =>
      rbind (fcell_of e oid) (fun o =>
        if pos_leb (f_pos o) (f_pos par) then shadowed e par syms l'
        else if (subset syms osyms || memb (e_fake e) osyms)%bool then Ok true
        else shadowed e par syms l')
  end.

(** frontend.py:324-384, the loop over the parents in one context: [r] is [is_ready] so
    far; the result is [(is_ready, is_new_ready)]. *)
Fixpoint ready_loop (e : fenv) (x : ctx) (c : fcell) latest (all l : edges) (r : bool)
  : res (bool * bool) :=
  match l with
  | [] => Ok (r, false)
  | (pid, raw) :: l' =>
      rbind (fcell_of e pid) (fun par =>
      let syms := sdiff raw (f_removed c) in
      if (memb (e_fake e) syms && (f_ctr c <? 0)%Z && (0 <? f_ctr par)%Z)%bool
      then Ok (true, false)
      else
        rbind (not_latest e latest pid syms) (fun nl =>
        if nl then ready_loop e x c latest all l' r
        else if parent_changed e c par syms then
          rbind (if (e_in_order e && ctx_eqb x Static)%bool
                 then shadowed e par syms all else Ok false) (fun sk =>
          if sk then ready_loop e x c latest all l' r
          else if ((min_new_ready e <=? f_ctr par)%Z && (0 <? f_ctr c)%Z)%bool
          then Ok (true, true)
          else ready_loop e x c latest all l' true)
        else ready_loop e x c latest all l' r))
  end.

(** frontend.py:315-384, the loop over the contexts. *)
Fixpoint ready_ctxs (e : fenv) (c : fcell) latest (xs : list ctx) (r : bool)
  : res (bool * bool) :=
  match xs with
  | [] => Ok (r, false)
  | x :: xs' =>
      rbind (dparents e x c) (fun d =>
      rbind (ready_loop e x c latest d d r) (fun rn =>
        if snd rn then Ok rn else ready_ctxs e c latest xs' (fst rn)))
  end.

(** frontend.py:306-401, [_compute_readiness] of a cell that is not waiting. *)
Definition readiness (e : fenv) (c : fcell) (k : chk) : res (bool * bool) :=
  rbind (if is_dag (e_schedule e)
         then rbind (latest_parents e c) (fun latest =>
              ready_ctxs e c latest (e_ctxs e) false)
         else Ok (false, false)) (fun rn =>
    if (negb (snd rn)
        && match e_schedule e with
           | LivenessBased => true
           | HybridDagLiveness => e_in_order e
           | DagBased => false
           end)%bool
    then
      if (Z.max (f_ctr c) (e_min_ts e) <? k_max_ctr k)%Z
      then Ok (true, ((0 <? f_ctr c)%Z && (min_new_ready e <=? k_max_ctr k)%Z)%bool)
      else Ok rn
    else Ok rn).

(** ** Checking one cell *)

(** The fields of the result that are filled here, and the [_ready] flags of the cells. *)
Record fres := mkR {
  r_waiting : list nat;
  r_ready : list nat;
  r_new_ready : list nat;
  r_typecheck : list nat;
  r_flags : dict bool;
  r_wsyms : dict (list nat);        (** [waiting_symbols_by_cell_id] *)
  r_killing : dict (list nat)       (** [killing_cell_ids_for_symbol] *)
}.

Definition flag (r : fres) (i : nat) : bool :=
  match dget (r_flags r) i with Some b => b | None => false end.

(** frontend.py:403-477, [_check_one_cell]. [last_pos] is [last_executed_cell_pos]. *)
Definition check_one (e : fenv) (last_pos : option pos) (r : fres) (i : nat) : res fres :=
  rbind (fcell_of e i) (fun c =>
  match f_check c with
  | None => Ok r
  | Some k =>
      let liveness := negb (is_dag (e_schedule e)) in
      let wsyms := if liveness then k_waiting k else [] in
      let unresolved := (liveness && k_unresolved k)%bool in
      let r_wsyms' := if is_nil wsyms then r_wsyms r else dset (r_wsyms r) i wsyms in
      let waiting := if (negb (is_nil wsyms) || unresolved)%bool
                     then sadd i (r_waiting r) else r_waiting r in
      let typecheck := if k_typechecks k then r_typecheck r else sadd i (r_typecheck r) in
      let killing := fold_left (fun d s =>
                       dset d s (sadd i (match dget d s with Some l => l | None => [] end)))
                       (k_dead k) (r_killing r) in
      rbind (if memb i waiting then Ok (false, false) else readiness e c k) (fun rn =>
        let '(is_ready, is_new) := rn in
        let ready := if is_ready then sadd i (r_ready r) else r_ready r in
        let was := flag r i in
        let flags := dset (r_flags r) i is_ready in
        let blocked := (e_in_order e
                        && match last_pos with
                           | None => false
                           | Some p => pos_leb (f_pos c) p
                           end)%bool in
        let new :=
          if (negb blocked
              && (is_new || ((0 <? f_ctr c)%Z && negb was && is_ready
                             && (min_new_ready e <=? e_counter e)%Z)))%bool
          then sadd i (r_new_ready r) else r_new_ready r in
        Ok (mkR waiting ready new typecheck flags r_wsyms' killing))
  end).

(** ** DAG-based waiting cells *)

(** frontend.py:238-247: one round over the cells to check. *)
Definition dag_cell (e : fenv) (ready : list nat) (w : list nat) (i : nat)
  : res (list nat) :=
  if memb i w then Ok w
  else rbind (fcell_of e i) (fun c =>
    rfold (fun w x =>
      rbind (dparents e x c) (fun d =>
        Ok (if existsb (fun p => (memb p ready || memb p w)%bool) (dkeys d)
            then sadd i w else w))) (e_ctxs e) w).

Definition dag_pass (e : fenv) (ready checked w : list nat) : res (list nat) :=
  rfold (dag_cell e ready) checked w.

Definition set_eqb (a b : list nat) : bool := (subset a b && subset b a)%bool.

(** frontend.py:236-250: rounds until nothing changes. *)
Fixpoint dag_loop (fuel : nat) (e : fenv) (ready checked prev w : list nat)
  : res (list nat) :=
  match fuel with
  | O => Err OutOfFuel
  | S f =>
      rbind (dag_pass e ready checked w) (fun w' =>
        if set_eqb prev w' then Ok w' else dag_loop f e ready checked w' w')
  end.

(** frontend.py:228-252, [_compute_dag_based_waiters]. *)
Definition dag_waiters (e : fenv) (checked : list nat) (r : fres) : res fres :=
  if is_dag (e_schedule e) then
    rbind (dag_loop (S (S (length checked))) e (r_ready r) checked [] (r_waiting r))
      (fun w =>
    rbind (rfold (fun fl i => rmap (fun _ => dset fl i false) (fcell_of e i)) w (r_flags r))
      (fun flags =>
      Ok (mkR w (sdiff (r_ready r) w) (sdiff (r_new_ready r) w) (r_typecheck r)
              flags (r_wsyms r) (r_killing r))))
  else Ok r.

(** ** Ready-making cells and waiter links *)

(** frontend.py:167-195, [_compute_ready_making_cells] for one waiting cell. *)
Definition ready_makers (e : fenv) (r : fres) (last : option nat) (w : nat)
  : res (list nat) :=
  rbind (if is_dag (e_schedule e) then
           rbind (fcell_of e w) (fun c =>
           rfold (fun acc x =>
             rmap (fun d => supd acc (filter (fun p => (memb p (r_ready r)
                                                        || memb p (r_waiting r))%bool)
                                             (dkeys d)))
                  (dparents e x c)) (e_ctxs e) [])
         else
           Ok (fold_left (fun acc s =>
                 supd acc (match dget (r_killing r) s with Some l => l | None => [] end))
               (match dget (r_wsyms r) w with Some l => l | None => [] end) []))
    (fun ms =>
  rbind (if e_in_order e then
           rfilter (fun m =>
             rbind (fcell_of e m) (fun cm =>
             rmap (fun cw => pos_ltb (f_pos cm) (f_pos cw)) (fcell_of e w))) ms
         else Ok ms) (fun ms =>
    Ok (match last with None => ms | Some l => sdiff ms [l] end))).

(** frontend.py:159-195: the initial waiter links of every waiting cell. *)
Definition initial_links (e : fenv) (r : fres) (last : option nat)
  : res (dict (list nat)) :=
  rfold (fun d w => rmap (dset d w) (ready_makers e r last w)) (r_waiting r) [].

Definition lget (d : dict (list nat)) (i : nat) : list nat :=
  match dget d i with Some l => l | None => [] end.

(** frontend.py:142-154: one waiting cell in one round. *)
Definition link_cell (waiting : list nat) (st : dict (list nat) * bool) (w : nat)
  : dict (list nat) * bool :=
  let '(d, ch) := st in
  let cur := lget d w in
  let new := fold_left (fun acc m => if memb m waiting then supd acc (lget d m) else acc)
                       cur cur in
  let new := sdiff new [w] in
  (dset d w new, (ch || negb (Nat.eqb (length cur) (length new)))%bool).

(** frontend.py:140-154: rounds until no set changes its size. *)
Fixpoint link_loop (fuel : nat) (waiting : list nat) (d : dict (list nat))
  : res (dict (list nat)) :=
  match fuel with
  | O => Err OutOfFuel
  | S f =>
      let '(d', ch) := fold_left (link_cell waiting) waiting (d, false) in
      if ch then link_loop f waiting d' else Ok d'
  end.

(** frontend.py:155-157: keep the non-waiting targets and invert. *)
Definition finish_links (waiting : list nat) (d : dict (list nat))
  : dict (list nat) * dict (list nat) :=
  fold_left (fun st w =>
    let '(d, m) := st in
    let l := sdiff (lget d w) waiting in
    (dset d w l, fold_left (fun m r => dset m r (sadd w (lget m r))) l m))
  waiting (d, []).

(** A bound on the number of rounds. *)
Definition link_fuel (waiting : list nat) (d : dict (list nat)) : nat :=
  S (S (length waiting * length (concat (dvals d)))).

(** frontend.py:137-157, [_compute_waiter_and_ready_maker_links]. *)
Definition compute_links (waiting : list nat) (d : dict (list nat))
  : res (dict (list nat) * dict (list nat)) :=
  rmap (finish_links waiting) (link_loop (link_fuel waiting d) waiting d).

(** ** Forced reactive cells *)

(** frontend.py:197-226, [_compute_reactive_cells_for_reactive_symbols]. [sel] picks
    which of the two counters is compared. *)
Definition forced_reactive (e : fenv) (last_pos : pos) (sel : chk -> Z) (ready : list nat)
    (init : list nat) : res (list nat) :=
  rfold (fun acc i =>
    rmap (fun c =>
      match f_check c with
      | None => acc
      | Some k =>
          if (e_in_order e && pos_ltb (f_pos c) last_pos)%bool then acc
          else if (Z.max (f_ctr c) (min_forced e) <? sel k)%Z then sadd i acc else acc
      end) (fcell_of e i)) ready init.

(** ** Parents and children sent to the frontend *)

(** frontend.py:562-582: in the static context with in-order flow, a lower parent that
    supplies the same symbols wins. *)
Fixpoint shadowed_par (e : fenv) (par : fcell) (syms : list nat) (l : edges) : res bool :=
  match l with
  | [] => Ok false
  | (oid, osyms) :: l' =>
      if (set_eqb syms [e_fake e] && set_eqb osyms [e_fake e])%bool
      then shadowed_par e par syms l'
      else
        rbind (fcell_of e oid) (fun o =>
          if pos_leb (f_pos o) (f_pos par) then shadowed_par e par syms l'
          else if (subset syms osyms || memb (e_fake e) osyms)%bool then Ok true
          else shadowed_par e par syms l')
  end.

(** frontend.py:531-585: does the directional parent [pid] pass the filters? *)
Definition keep_parent (e : fenv) (x : ctx) (c : fcell) latest (all : edges)
    (pid : nat) (raw : list nat) : res bool :=
  let syms := filter (fun s => negb (s_virtual (e_syms e s))) (sdiff raw (f_removed c)) in
  if is_nil syms then Ok false
  else
    rbind (not_latest e latest pid syms) (fun nl =>
    if nl then Ok false
    else
      rbind (fcell_of e pid) (fun par =>
      if match f_modified par with
         | None => false
         | Some m => (subset syms (f_writes par) && is_nil (sinter m syms))%bool
         end then Ok false
      else if ((0 <=? f_ctr par)%Z
               && negb (existsb (fun s => existsb (Z.eqb (f_ctr par))
                                                  (s_updated (e_syms e s))) syms))%bool
      then Ok false
      else rmap negb (if (e_in_order e && ctx_eqb x Static)%bool
                      then shadowed_par e par syms all else Ok false))).

(** frontend.py:527-586, the parents of one cell. *)
Definition filtered_parents (e : fenv) (c : fcell) : res (list nat) :=
  rbind (latest_parents e c) (fun latest =>
  rfold (fun acc x =>
    rbind (dparents e x c) (fun d =>
    rfold (fun acc kv =>
      rmap (fun b : bool => if b then sadd (fst kv) acc else acc)
           (keep_parent e x c latest d (fst kv) (snd kv))) d acc))
    (e_ctxs e) []).

(** frontend.py:525-588, [_compute_filtered_parents]: (cell_parents, cell_children). *)
Definition parents_and_children (e : fenv) (checked : list nat)
  : res (dict (list nat) * dict (list nat)) :=
  rmap (fun ps =>
    (ps,
     fold_left (fun d i => match dget d i with Some _ => d | None => dset d i [] end)
       checked
       (fold_left (fun d kv =>
          fold_left (fun d p => dset d p (sadd (fst kv) (lget d p))) (snd kv) d) ps [])))
    (rfold (fun ps i =>
       rbind (fcell_of e i) (fun c => rmap (dset ps i) (filtered_parents e c)))
     checked []).

(** ** The whole computation *)

(** The parts of [FrontendCheckerResult] that are modelled. *)
Record report := mkReport {
  p_parents : dict (list nat);
  p_children : dict (list nat);
  p_waiting : list nat;
  p_ready : list nat;
  p_new_ready : list nat;
  p_forced : list nat;
  p_cascading : list nat;
  p_typecheck : list nat;
  p_waiter_links : dict (list nat);
  p_ready_makers : dict (list nat);
  p_flags : dict bool
}.

(** frontend.py:590-635, [compute_frontend_checker_result]. [last] is the last executed
    cell, [tagged] the cells that are reactive for one of its tags (lines 479-491), [flags]
    the [_ready] flags before. *)
Definition compute (e : fenv) (to_check : list nat) (last : option nat) (tagged : list nat)
    (flags : dict bool) : res report :=
  rbind (match last with
         | None => Ok None
         | Some l => rmap (fun c => Some (f_pos c)) (fcell_of e l)
         end) (fun last_pos =>
  let forced0 := match last with None => [] | Some _ => supd [] tagged end in
  rbind (rfold (fun acc i => rmap (fun c => acc ++ [(i, f_pos c)]) (fcell_of e i))
               to_check []) (fun ips =>
  let checked := map fst (sort_by (fun a b => pos_leb (snd a) (snd b)) ips) in
  rbind (rfold (check_one e last_pos) checked (mkR [] [] [] [] flags [] [])) (fun r1 =>
  rbind (dag_waiters e checked r1) (fun r =>
  rbind (match last_pos with
         | None => Ok forced0
         | Some p => forced_reactive e p k_max_reactive (r_ready r) forced0
         end) (fun forced =>
  rbind (match last_pos with
         | None => Ok []
         | Some p => forced_reactive e p k_max_cascading (r_ready r) []
         end) (fun cascading =>
  rbind (initial_links e r last) (fun d =>
  rbind (compute_links (r_waiting r) d) (fun links =>
  rbind (parents_and_children e checked) (fun pc =>
    Ok (mkReport (fst pc) (snd pc) (r_waiting r) (r_ready r) (r_new_ready r) forced
                 cascading (r_typecheck r) (fst links) (snd links) (r_flags r))))))))))).

(** frontend.py:83-135, [to_json]: the waiting and new-ready cells as sent. The other
    fields are sent as they are. *)
Definition json_waiting (p : report) : list nat := supd (p_waiting p) (p_typecheck p).
Definition json_new_ready (e : fenv) (p : report) : list nat :=
  if e_allow_new e then p_new_ready p else [].
