(** Cell tags: the index from tags to cells, the marks that make a cell reactive for a tag, and the
    operations that change them. A cell object is a number (its position in the heap [objs]), so that
    identity of objects is equality of numbers; ids of cells and names of tags are numbers too. *)
Require Import List Arith Bool.
Import ListNotations.
Require Import Verif.Base.

(** data_model/cell.py:88-135, the attributes that matter here. [c_ctr] is None for the counter -1 of a cell
    that was never executed. *)
Record cobj := mkCell {
  c_id : nat; c_ctr : option nat; c_tags : list nat; c_rtags : list nat; c_prev : option nat }.

(** data_model/cell.py:78-86, the class attributes that matter here, and the heap of cell objects.
    [_cells_by_tag]: a set keeps, with each member, the hash that the member had when it was added. *)
Record st := mkSt {
  objs : list cobj;
  cur : dict nat;                  (* _current_cell_by_cell_id *)
  byctr : dict nat;                (* _cell_by_cell_ctr *)
  counter : nat;                   (* _cell_counter *)
  index : dict (list (nat * nat)); (* _cells_by_tag *)
  rindex : dict (list nat) }.      (* _reactive_cells_by_tag *)

(** CPython's sets: a member is found by the hash stored with it and, as [Cell] defines no __eq__, by
    identity. The same object can be stored twice under two hashes. *)
Definition same (h o : nat) (e : nat * nat) : bool := (fst e =? h) && (snd e =? o).
Definition hadd (h o : nat) (l : list (nat * nat)) : list (nat * nat) :=
  if existsb (same h o) l then l else l ++ [(h, o)].
Definition hdiscard (h o : nat) (l : list (nat * nat)) : list (nat * nat) :=
  filter (fun e => negb (same h o e)) l.

(** A lookup in a defaultdict(set); that it also creates the empty set cannot be observed through
    [from_tag] and [get_reactive_ids_for_tag], which treat a missing key as the empty set. *)
Definition at_tag {A} (t : nat) (d : dict (list A)) : list A :=
  match dget d t with Some l => l | None => [] end.

(** data_model/cell.py:531-532 *)
Definition from_tag (t : nat) (s : st) : list nat := map snd (at_tag t (index s)).

(** data_model/cell.py:316-318 *)
Definition reactive_ids (t : nat) (s : st) : list nat := at_tag t (rindex s).

Definition deref (s : st) (o : nat) : res cobj := of_option AttributeError (nth_error (objs s) o).

(** data_model/cell.py:259-260; [hash] is Python's hash of a pair, left arbitrary. *)
Definition hash_of (hash : nat -> option nat -> nat) (c : cobj) : nat := hash (c_id c) (c_ctr c).

(** One step of data_model/cell.py:410-411 and line_magics.py:380. *)
Definition index_add hash (o : nat) (c : cobj) (ix : dict (list (nat * nat))) (t : nat) :=
  dset ix t (hadd (hash_of hash c) o (at_tag t ix)).
(** One step of data_model/cell.py:406-407. *)
Definition index_discard hash (o : nat) (c : cobj) (ix : dict (list (nat * nat))) (t : nat) :=
  dset ix t (hdiscard (hash_of hash c) o (at_tag t ix)).
(** One step of data_model/cell.py:408-409. *)
Definition rindex_discard (id : nat) (ix : dict (list nat)) (t : nat) :=
  dset ix t (filter (fun i => negb (i =? id)) (at_tag t ix)).

(** [cell_ctr > prev_cell_ctr], data_model/cell.py:415; None is -1. *)
Definition later (a b : option nat) : bool :=
  match a, b with
  | Some x, Some y => y <? x
  | Some _, None => true
  | None, _ => false
  end.

(** data_model/cell.py:363-417. [actual] is the kernel's counter if it is used to correct the cell's counter,
    i.e. if the counter is validated and differs (375-385). The edges and the history that the new cell takes
    over are part of the session model and left out. *)
Definition create hash (id : nat) (tags : list nat) (bump : bool) (actual : option nat) (s : st) : res st :=
  let ctr := if bump then Some (match actual with Some n => n | None => Datatypes.S (counter s) end) else None in
  let counter' := match ctr with Some n => n | None => counter s end in
  match dget (cur s) id, ctr with
  | Some _, None => Err AssertionError
  | None, _ =>
      let c := mkCell id ctr tags [] None in
      let o := length (objs s) in
      Ok (mkSt (objs s ++ [c]) (dset (cur s) id o)
               (match ctr with Some n => dset (byctr s) n o | None => byctr s end) counter'
               (fold_left (index_add hash o c) tags (index s)) (rindex s))
  | Some p, Some n =>
      rbind (deref s p) (fun pc =>
      let tags' := supd tags (c_tags pc) in
      let c := mkCell id ctr tags' [] (Some p) in
      let o := length (objs s) in
      let ix := fold_left (index_discard hash p pc) (c_tags pc) (index s) in
      let rix := fold_left (rindex_discard (c_id pc)) (c_rtags pc) (rindex s) in
      Ok (mkSt (objs s ++ [c]) (if later ctr (c_ctr pc) then dset (cur s) id o else cur s)
               (dset (byctr s) n o) counter'
               (fold_left (index_add hash o c) tags' ix) rix))
  end.

Definition set_id (new : nat) (c : cobj) : cobj := mkCell new (c_ctr c) (c_tags c) (c_rtags c) (c_prev c).
Definition set_tags (ts : list nat) (c : cobj) : cobj := mkCell (c_id c) (c_ctr c) ts (c_rtags c) (c_prev c).
Definition set_rtags (ts : list nat) (c : cobj) : cobj := mkCell (c_id c) (c_ctr c) (c_tags c) ts (c_prev c).
Definition with_objs (os : list cobj) (s : st) : st := mkSt os (cur s) (byctr s) (counter s) (index s) (rindex s).

(** data_model/cell.py:263-267, the recursion through [prev_cell]. *)
Fixpoint chain (fuel o new : nat) (os : list cobj) : res (list cobj) :=
  match fuel with
  | 0 => Err OutOfFuel
  | Datatypes.S f =>
      rbind (of_option AttributeError (nth_error os o)) (fun c =>
      let os' := lset os o (set_id new c) in
      match c_prev c with Some p => chain f p new os' | None => Ok os' end)
  end.

(** One step of data_model/cell.py:277-280. *)
Definition rename_in (old new : nat) (ids : list nat) : list nat :=
  if memb old ids then sadd new (filter (fun i => negb (i =? old)) ids) else ids.

(** data_model/cell.py:262-293 without positions (270-272) and edges (281-293), which are part of the session
    model. *)
Definition update_id (o new : nat) (s : st) : res st :=
  rbind (deref s o) (fun c =>
  let old := c_id c in
  rbind (chain (Datatypes.S (length (objs s))) o new (objs s)) (fun os =>
  rbind (match dget (cur s) old with
         | Some x => if x =? o then Ok (dset (ddel (cur s) old) new x) else Err AssertionError
         | None => Ok (cur s)
         end) (fun cu =>
  Ok (mkSt os cu (byctr s) (counter s) (index s) (map (fun e => (fst e, rename_in old new (snd e))) (rindex s)))))).

(** data_model/cell.py:488-490 and 696-698; [_override_current_cell] is only set while a cell is parsed. *)
Definition target (cell : option nat) (s : st) : res nat :=
  of_option KeyError (dget (byctr s) (match cell with Some n => n | None => counter s end)).

(** line_magics.py:359-380, from the parsed arguments on. *)
Definition tag hash (t : nat) (remove : bool) (cell : option nat) (s : st) : res st :=
  rbind (target cell s) (fun o =>
  rbind (deref s o) (fun c =>
  if remove
  then Ok (with_objs (lset (objs s) o (set_tags (sdiff (c_tags c) [t]) c)) s)
  else Ok (mkSt (lset (objs s) o (set_tags (sadd t (c_tags c)) c)) (cur s) (byctr s) (counter s)
                (index_add hash o c (index s) t) (rindex s)))).

(** data_model/cell.py:312-314, called for the current cell at line_magics.py:333-335. *)
Definition mark (t : nat) (s : st) : res st :=
  rbind (target None s) (fun o =>
  rbind (deref s o) (fun c =>
  Ok (mkSt (lset (objs s) o (set_rtags (sadd t (c_rtags c)) c)) (cur s) (byctr s) (counter s) (index s)
           (dset (rindex s) t (sadd (c_id c) (at_tag t (rindex s))))))).

(** data_model/cell.py:234-241; the objects themselves may still be referred to from elsewhere. *)
Definition clear (s : st) : st := mkSt (objs s) [] [] 0 [] [].

(** frontend.py:479-491, the cells that are forced to react to the cell executed last. *)
Definition forced (id : nat) (s : st) : res (list nat) :=
  rbind (of_option KeyError (dget (cur s) id)) (fun o =>
  rmap (fun c => fold_left (fun acc t => supd acc (reactive_ids t s)) (c_tags c) []) (deref s o)).

Inductive op :=
| Exec (id : nat) (tags : list nat) (actual : option nat)  (* shell/interactiveshell.py:564-580 *)
| Untracked (id : nat)                                      (* flow.py:521-528, one cell *)
| Tag (t : nat) (remove : bool) (cell : option nat)         (* %flow tag *)
| Mark (t : nat)                                            (* %flow slice --tag $t *)
| Rename (old new : nat)   (* comm_manager.py:152-156 and 333-343; both rename a current cell *)
| Clear.                                                    (* flow.py:68, 474 *)

Definition do hash (x : op) (s : st) : res st :=
  match x with
  | Exec id tags actual => create hash id tags true actual s
  | Untracked id => match dget (cur s) id with Some _ => Ok s | None => create hash id [] false None s end
  | Tag t r c => tag hash t r c s
  | Mark t => mark t s
  | Rename old new => match dget (cur s) old with Some o => update_id o new s | None => Ok s end
  | Clear => Ok (clear s)
  end.

Definition start : st := mkSt [] [] [] 0 [] [].
Definition run hash (xs : list op) (s : st) : res st := rfold (fun s x => do hash x s) xs s.
