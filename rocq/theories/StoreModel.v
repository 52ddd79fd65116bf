(** Model of choosing the cells to execute in the frontend:
    frontend/labextension/src/store.ts:152-347, and the highlighting of
    frontend/labextension/src/index.ts:703-721. *)
Require Import List Bool Arith.
Import ListNotations.
Require Import Verif.Base.

(** What is read of [IpyflowSessionState], store.ts:21-58. Cell ids are numbers. JavaScript
    sets and objects keep insertion order, as [list] and [dict] do here.
    [s_cells]: [cellsById], with whether the cell's type is 'code'.
    [s_by_exec]: [staleParentsByExecutedCellByChild]; [s_by_child]:
    [staleParentsByChildByExecutedCell]. *)
Record store := mkStore {
  s_children : dict (list nat);
  s_parents : dict (list nat);
  s_executed : list nat;
  s_ready : list nat;
  s_waiting : list nat;
  s_dirty : list nat;
  s_stale : dict (list nat);
  s_by_exec : dict (dict (list nat));
  s_by_child : dict (dict (list nat));
  s_cells : dict bool;
  s_order : dict nat;
  s_pull : bool;
  s_cousins : bool;
  s_any_order : bool
}.

(** A row of one of the maps from cells to cells; [?? []]. *)
Definition entry {V} (d : dict (list V)) (x : nat) : list V :=
  match dget d x with Some l => l | None => [] end.

(** A row of one of the two nested maps; store.ts:200, 225. *)
Definition row (d : dict (dict (list nat))) (x : nat) : dict (list nat) :=
  match dget d x with Some e => e | None => [] end.

(** store.ts:182-186. *)
Definition out_of_date (S : store) (x : nat) : bool :=
  (negb (memb x (s_executed S)) || memb x (s_ready S) || memb x (s_waiting S) || memb x (s_dirty S))%bool.

(** store.ts:196-209: [related] is a stale parent of [x], given the cells that will run. *)
Definition stale_parent (S : store) (x related : nat) (closure : list nat) : bool :=
  (memb related (entry (s_stale S) x) ||
   existsb (fun p => memb (fst p) closure && memb related (snd p))
     (row (s_by_exec S) x))%bool.

(** [computeRawTransitiveClosureHelper], store.ts:152-240. The fuel stands for the stack. *)
Fixpoint helper (S : store) (fuel : nat) (edges : dict (list nat)) (pull skip : bool) (x : nat)
    (closure : list nat) : res (list nat) :=
  match fuel with
  | O => Err OutOfFuel
  | S f =>
      if (negb skip && memb x closure)%bool then Ok closure
      else
        let c0 := if pull then closure else sadd x closure in
        match dget edges x with
        | None => Ok c0
        | Some rel =>
            rbind (rfold (fun c r => helper S f edges pull false r c) rel c0) (fun c1 =>
              let c2 := if (pull && (Nat.ltb (length c0) (length c1) || out_of_date S x))%bool
                        then sadd x c1 else c1 in
              if (negb pull || negb (memb x c2))%bool then Ok c2
              else
                rbind (rfold (fun c r =>
                         if memb r c then Ok c
                         else if stale_parent S x r c
                              then helper S f edges pull true r (sadd r c)
                              else Ok c) rel c2) (fun c3 =>
                  rfold (fun c p =>
                    if memb (fst p) c then
                      rfold (fun c q =>
                        if (memb q c || negb (memb q (entry edges (fst p))))%bool then Ok c
                        else helper S f edges pull true q (sadd q c)) (snd p) c
                    else Ok c)
                    (row (s_by_child S) x) c3))
        end
  end.

(** store.ts:309-317. Iterating over a JavaScript set also visits what is added meanwhile. *)
Fixpoint pull_loop (S : store) (fuel : nat) (n i : nat) (closure : list nat) : res (list nat) :=
  match n with
  | O => Err OutOfFuel
  | S n' =>
      match nth_error closure i with
      | None => Ok closure
      | Some x => rbind (helper S fuel (s_parents S) true true x closure) (pull_loop S fuel n' (i + 1))
      end
  end.

(** store.ts:287-324: the [while] loop; [n] bounds its rounds. *)
Fixpoint rounds (S : store) (fuel : nat) (n : nat) (parents : bool) (ids closure : list nat)
    : res (list nat) :=
  match n with
  | O => Err OutOfFuel
  | S n' =>
      rbind (rfold (fun c x =>
               helper S fuel (if parents then s_parents S else s_children S) false true x c)
               ids closure) (fun c =>
        if (parents || negb (s_pull S))%bool then Ok c
        else
          rbind (pull_loop S fuel fuel 0 c) (fun c =>
            if (Nat.eqb (length ids) (length c) || negb (s_cousins S))%bool then Ok c
            else rounds S fuel n' parents c c))
  end.

(** [computeRawTransitiveClosure], store.ts:282-331. *)
Definition raw_closure (S : store) (fuel : nat) (start : list nat) (inclusive parents : bool)
    : res (list nat) :=
  rmap (fun c => if inclusive then c else sdiff c start)
    (rounds S fuel fuel parents start (supd [] start)).

(** *** Order *)

Definition is_code (S : store) (x : nat) : bool :=
  match dget (s_cells S) x with Some b => b | None => false end.

(** [#computeTopoOrderIdxHelper], store.ts:242-255. State: [orderedCellIds] and [seen]. *)
Fixpoint topo_visit (S : store) (fuel : nat) (st : list nat * list nat) (x : nat)
    : res (list nat * list nat) :=
  match fuel with
  | O => Err OutOfFuel
  | S f =>
      if (memb x (snd st) || negb (is_code S x))%bool then Ok st
      else rmap (fun st => (x :: fst st, snd st))
             (rfold (topo_visit S f) (entry (s_children S) x) (fst st, sadd x (snd st)))
  end.

(** [#computeTopoOrderIdx], store.ts:257-268: the order of which the index is taken. *)
Definition topo_order (S : store) (fuel : nat) : res (list nat) :=
  rmap fst (rfold (topo_visit S fuel) (dkeys (s_cells S)) ([], [])).

Fixpoint index_of (x : nat) (l : list nat) : option nat :=
  match l with
  | [] => None
  | y :: l => if Nat.eqb x y then Some 0 else option_map S (index_of x l)
  end.

(** Sorting by a comparator [a - b], stable. An undefined index makes it [NaN], which counts
    as equal. *)
Definition before_by (key : nat -> option nat) (a b : nat) : bool :=
  match key a, key b with Some i, Some j => Nat.ltb i j | _, _ => false end.

Fixpoint place (key : nat -> option nat) (x : nat) (l : list nat) : list nat :=
  match l with
  | [] => [x]
  | y :: l' => if before_by key y x then y :: place key x l' else x :: l
  end.

Fixpoint sort_by (key : nat -> option nat) (l : list nat) : list nat :=
  match l with [] => [] | x :: l => place key x (sort_by key l) end.

(** [cellIdsToCells], store.ts:270-280. A cell stands for itself. *)
Definition ids_to_cells (S : store) (fuel : nat) (ids : list nat) : res (list nat) :=
  rmap (fun key => sort_by key
          (filter (fun x => dhas (s_order S) x) (filter (fun x => dhas (s_cells S) x) ids)))
    (if s_any_order S
     then rmap (fun o x => index_of x o) (topo_order S fuel)
     else Ok (dget (s_order S))).

(** [computeTransitiveClosure], store.ts:337-347. *)
Definition closure_cells (S : store) (fuel : nat) (start : list nat) (inclusive parents : bool)
    : res (list nat) :=
  rbind (raw_closure S fuel start inclusive parents) (ids_to_cells S fuel).

(** *** Highlighting *)

(** index.ts:709-721: the backward slice shown for the selected cells. *)
Definition shown_slice (S : store) (fuel : nat) (selected : list nat) : res (list nat) :=
  rbind (raw_closure S fuel selected true false) (fun exec =>
    rfold (fun c x => helper S fuel (s_parents S) false false x (sdiff c [x])) exec exec).
