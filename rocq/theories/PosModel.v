(** Model of the notebook position index of core/ipyflow/data_model/cell.py. *)
Require Import List ZArith Bool Arith.
Import ListNotations.
Require Import Verif.Base Verif.SliceModel.

(** Positions: an [int] or [float("inf")] (cell.py:429). *)
Inductive pos := Fin (z : Z) | Inf.

(** [==] between positions. *)
Definition pos_eqb (a b : pos) : bool :=
  match a, b with
  | Fin x, Fin y => Z.eqb x y
  | Inf, Inf => true
  | _, _ => false
  end.

(** [<=] between positions. *)
Definition pos_leb (a b : pos) : bool :=
  match a, b with
  | Fin x, Fin y => Z.leb x y
  | _, Inf => true
  | Inf, Fin _ => false
  end.

(** The class variables [_position_by_cell_id], [_cell_id_by_position] and (the keys of)
    [_current_cell_by_cell_id], cell.py:78-86; and the settings read by these functions:
    [flow_order == IN_ORDER] and [interface == IPYTHON]. Cell ids are numbers. *)
Record pstate := mkP {
  at_ : dict pos;
  rev_ : list (pos * nat);
  known : list nat;
  in_order : bool;
  ipython : bool
}.

(** cell.py:519-520, [from_id], as the id of the cell found. *)
Definition p_from_id (s : pstate) (i : nat) : res nat :=
  if memb i (known s) then Ok i else Err KeyError.

(** cell.py:176-186, [position] of the cell with id [i]. *)
Definition position (s : pstate) (i : nat) : pos :=
  let p := match dget (at_ s) i with Some p => p | None => Fin (-1) end in
  if pos_eqb p (Fin (-1)) then
    if (in_order s && ipython s)%bool then Fin (Z.of_nat i) else p
  else p.

(** [d[p] = i] on the reverse index. *)
Fixpoint rset (d : list (pos * nat)) (p : pos) (i : nat) : list (pos * nat) :=
  match d with
  | [] => [(p, i)]
  | (q, j) :: d' => if pos_eqb p q then (q, i) :: d' else (q, j) :: rset d' p i
  end.

(** The loop of cell.py:427-431 over the ids of the old index: the pair is (the new order,
    the reverse index). *)
Definition reindex (old : dict pos) (m : dict pos) : dict pos * list (pos * nat) :=
  fold_left (fun acc i =>
               match dget (fst acc) i with
               | None => (dset (fst acc) i Inf, snd acc)
               | Some p => (fst acc, rset (snd acc) p i)
               end)
            (dkeys old) (m, []).

(** cell.py:420-432, [set_cell_positions]. *)
Definition set_positions (s : pstate) (m : dict pos) : pstate :=
  if (in_order s && negb (ipython s))%bool then
    let mr := reindex (at_ s) m in
    mkP (fst mr) (snd mr) (known s) (in_order s) (ipython s)
  else mkP m (rev_ s) (known s) (in_order s) (ipython s).

(** cell.py:435-437, [iterate_over_notebook_in_position_order]. *)
Definition iterate (s : pstate) : res (list nat) :=
  rfold (fun acc kv => rmap (fun i => acc ++ [i]) (p_from_id s (snd kv)))
        (sort_by (fun a b => pos_leb (fst a) (fst b)) (rev_ s)) [].

(** cell.py:498-502, [at_position]. *)
Definition at_position (s : pstate) (p : pos) : res (option nat) :=
  match find (fun kv => pos_eqb (snd kv) p) (at_ s) with
  | None => Ok None
  | Some kv => rmap Some (p_from_id s (fst kv))
  end.

(** [p + offset], [inf + offset == inf]. *)
Definition pos_add (p : pos) (d : Z) : pos :=
  match p with Fin z => Fin (z + d) | Inf => Inf end.

(** models.py:43-58, [cell_above] ([d = -1]), [cell_below] ([d = 1]), [cell_at_offset],
    with [i] the active cell. *)
Definition cell_at_offset (s : pstate) (i : nat) (d : Z) : res (option nat) :=
  rbind (p_from_id s i) (fun i => at_position s (pos_add (position s i) d)).

(** Programs using the index. [PBody] stands for any code that neither reports an order
    nor raises. *)
Inductive pprog :=
| PSkip
| PRaise
| PSee
| PFlow (b : bool)                (** a change of [flow_order] *)
| PReport (m : dict pos)
| PSeq (p q : pprog)
| PTry (p q : pprog)
| POverride (p : pprog).

(** Running a program: final state, the indexes it saw, whether an exception escaped.
    The [POverride] case is cell.py:458-469,
    [_override_position_index_for_current_flow_semantics]. *)
Fixpoint prun (p : pprog) (s : pstate) : pstate * list (dict pos) * bool :=
  match p with
  | PSkip => (s, [], false)
  | PRaise => (s, [], true)
  | PSee => (s, [at_ s], false)
  | PFlow b => (mkP (at_ s) (rev_ s) (known s) b (ipython s), [], false)
  | PReport m => (set_positions s m, [], false)
  | PSeq p q =>
      match prun p s with
      | (s1, o1, true) => (s1, o1, true)
      | (s1, o1, false) => match prun q s1 with (s2, o2, r) => (s2, o1 ++ o2, r) end
      end
  | PTry p q =>
      match prun p s with
      | (s1, o1, false) => (s1, o1, false)
      | (s1, o1, true) => match prun q s1 with (s2, o2, r) => (s2, o1 ++ o2, r) end
      end
  | POverride p =>
      let orig := at_ s in
      let s0 := if in_order s then s else set_positions s [] in
      match prun p s0 with
      | (s1, o1, r) => (set_positions s1 orig, o1, r)
      end
  end.
