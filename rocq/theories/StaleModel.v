(** The tables of stale parents that are sent to the frontend. *)
Require Import List Arith ZArith Bool.
Import ListNotations.
Require Import Verif.Base Verif.CommModel.
Local Open Scope nat_scope.

(** A cell as far as it is read here. [c_pos]: [position]; [c_ctr]: [cell_ctr]; [c_parents]: [raw_parents] in each of the slicing
    contexts that [iter_slicing_contexts] goes through; [c_static], [c_dynamic]: [static_writes], [dynamic_writes];
    [c_modified]: [last_check_result.modified] if there is a result (data_model/cell.py:102, 119-121). *)
Record cell := mkCell { c_pos : Z; c_ctr : Z; c_parents : list (dict (list nat)); c_static : list nat; c_modified : option (list nat); c_dynamic : list nat }.
(** What the functions look at. [w_applies]: the schedule is one of the DAG based ones and the order is in-order
    (frontend.py:256-263, 276-283). [w_pos]: [_cell_id_by_position]. [w_up]: for each symbol the [original_symbol] of its containing
    namespace, None if there is no such thing. [w_time]: [shallow_timestamp.cell_num]. *)
Record world := mkW { w_applies : bool; w_cells : dict cell; w_pos : dict nat; w_up : dict (option nat); w_time : dict Z }.
(** The three tables, frontend.py:55-57. *)
Record tables := mkT { r_stale : dict (list nat); r_exec : dict (dict (list nat)); r_child : dict (dict (list nat)) }.

Definition from_id (w : world) (i : nat) : res cell := of_option KeyError (dget (w_cells w) i).
(** Symbol.traverse_up_namespaces, data_model/symbol.py:614-619. Python's bound on recursion is the fuel. The whole list is
    made, where Python stops as soon as it can. *)
Fixpoint traverse_up (fuel : nat) (w : world) (y : nat) : res (list nat) :=
  match fuel with
  | 0 => Err OutOfFuel
  | S fuel => rbind (of_option AttributeError (dget (w_up w) y)) (fun o =>
                match o with None => Ok [y] | Some z => rmap (cons y) (traverse_up fuel w z) end)
  end.
(** [for pid, syms in ...items(): for qual_sym in syms: for sym in qual_sym.traverse_up_namespaces()] as a list. *)
Definition pairs (fuel : nat) (w : world) (d : dict (list nat)) : res (list (nat * nat)) :=
  rfold (fun acc r => rfold (fun acc q => rmap (fun l => acc ++ map (pair (fst r)) l) (traverse_up fuel w q)) (snd r) acc) d [].

(** directional_parents for the in-order setting, data_model/cell.py:189-198. *)
Definition directional (w : world) (c : cell) (d : dict (list nat)) : res (dict (list nat)) :=
  rfold (fun acc r => rmap (fun pc => if (c_pos pc <? c_pos c)%Z then acc ++ [r] else acc) (from_id w (fst r))) d [].

(** [d.setdefault(k, set()).add(v)] *)
Definition get1 (d : dict (list nat)) (k : nat) : list nat := match dget d k with Some l => l | None => [] end.
Definition add1 (d : dict (list nat)) (k v : nat) : dict (list nat) := dset d k (sadd v (get1 d k)).
(** [d.setdefault(k, {}).setdefault(k', set()).add(v)] *)
Definition get2 (d : dict (dict (list nat))) (k : nat) : dict (list nat) := match dget d k with Some l => l | None => [] end.
Definition add2 (d : dict (dict (list nat))) (k k' v : nat) : dict (dict (list nat)) := dset d k (add1 (get2 d k) k' v).

(** _compute_stale_parents, frontend.py:254-272 *)
Definition stale_parents (fuel : nat) (w : world) (x : nat) (t : tables) : res tables :=
  if negb (w_applies w) then Ok t
  else
    rbind (from_id w x) (fun c =>
      rfold (fun t d =>
        rbind (directional w c d) (fun d =>
        rbind (pairs fuel w d) (fun l =>
          rfold (fun t r =>
            rbind (from_id w (fst r)) (fun pc =>
            rbind (of_option AttributeError (dget (w_time w) (snd r))) (fun n =>
              Ok (if (c_ctr pc <? n)%Z then mkT (add1 (r_stale t) x (fst r)) (r_exec t) (r_child t) else t)))) l t))) (c_parents c) t).

(** [static_writes | cell.dynamic_writes], frontend.py:300-303 *)
Definition written (c : cell) : list nat :=
  let static := match c_modified c with None => c_static c | Some m => sinter (c_static c) m end in supd static (c_dynamic c).
(** One cell of the loop, frontend.py:286-304. [far]: [cells_so_far_that_update_symbol]. *)
Definition one_cell (fuel : nat) (w : world) (tf : tables * dict (list nat)) (x : nat) : res (tables * dict (list nat)) :=
  let '(t, far) := tf in
  rbind (from_id w x) (fun c =>
  rbind (rfold (fun t d =>
    rmap (fun l => fold_left (fun t r => fold_left (fun t e =>
      mkT (r_stale t) (add2 (r_exec t) x e (fst r)) (add2 (r_child t) e x (fst r))) (get1 far (snd r)) t) l t) (pairs fuel w d)) (c_parents c) t) (fun t =>
    Ok (t, fold_left (fun far s => add1 far s x) (written c) far))).
(** iterate_over_notebook_in_position_order, data_model/cell.py:435-437 *)
Definition in_order (w : world) : res (list nat) :=
  rfold (fun acc p => rmap (fun i => acc ++ [i]) (of_option KeyError (dget (w_pos w) p))) (isort Nat.leb (dkeys (w_pos w))) [].
(** _compute_stale_parent_makers, frontend.py:274-304 *)
Definition stale_makers (fuel : nat) (w : world) (t : tables) : res tables :=
  if negb (w_applies w) then Ok t else rbind (in_order w) (fun ids => rmap fst (rfold (one_cell fuel w) ids (t, []))).

(** The checks of cells one after the other, frontend.py:456-457, 610-620: each may see another state, as checking records usages. *)
Definition checks (fuel : nat) (l : list (world * nat)) : res tables :=
  rfold (fun t c => rbind (stale_parents fuel (fst c) (snd c) t) (stale_makers fuel (fst c))) l (mkT [] [] []).
