(** Model of the dependency edges between symbols: core/ipyflow/data_model/symbol.py
    ([parents], [children], the edge part of [update_deps], [collect_self_garbage]) and of
    the queries in core/ipyflow/api/lift.py. *)
Require Import List Bool Arith.
Import ListNotations.
Require Import Verif.Base.

(** symbol.py:143-144: [parents] and [children] map a symbol to the times at which the edge
    was recorded. Symbols and times are natural numbers; [g_syms] lists the symbols
    created so far. *)
Record graph := mkG {
  g_syms : list nat;
  g_par : nat -> dict (list nat);
  g_chd : nat -> dict (list nat)
}.

(** symbol.py:143-144 on an empty session. *)
Definition g_init : graph := mkG [] (fun _ => []) (fun _ => []).

(** [Symbol.__init__], symbol.py:143-144: no edges yet. *)
Definition new_symbol (g : graph) (s : nat) : graph := mkG (sadd s (g_syms g)) (g_par g) (g_chd g).

Definition fset {A} (f : nat -> A) (k : nat) (a : A) : nat -> A :=
  fun i => if Nat.eqb i k then a else f i.

(** symbol.py:1052-1053: [parent.children.pop(self, None); self.parents.pop(parent, None)]. *)
Definition drop_edge (s : nat) (g : graph) (p : nat) : graph :=
  mkG (g_syms g) (fset (g_par g) s (ddel (g_par g s) p))
      (fset (g_chd g) p (ddel (g_chd g p) s)).

(** [d.setdefault(k, []).append(t)] *)
Definition push (d : dict (list nat)) (k t : nat) : dict (list nat) :=
  dset d k (match dget d k with Some l => l | None => [] end ++ [t]).

(** symbol.py:1058-1059. *)
Definition add_edge (s now : nat) (g : graph) (p : nat) : graph :=
  mkG (g_syms g) (fset (g_par g) s (push (g_par g s) p now))
      (fset (g_chd g) p (push (g_chd g p) s now)).

(** symbol.py:1042-1047: whether the update really overwrites. *)
Definition overwrites (g : graph) (s : nat) (deps : list nat) (overwrite : bool) : bool :=
  (overwrite && negb (memb s deps) && negb (existsb (fun d => dhas (g_par g d) s) deps))%bool.

(** symbol.py:1033-1059, the edges of [update_deps]. [skip]: one of the early returns (an
    unchanged import, or the mutation of an immutable object; lines 1033-1040) is taken.
    Simplification: [new_deps] holds no [None], and it is not shared with the caller
    (line 1050 discards [self] from the caller's set). *)
Definition update_deps (g : graph) (skip : bool) (s : nat) (deps : list nat)
    (overwrite : bool) (now : nat) : graph :=
  if skip then g
  else
    let ow := overwrites g s deps overwrite in
    let deps := filter (fun d => negb (Nat.eqb d s)) deps in
    let g := if ow then fold_left (drop_edge s) (sdiff (dkeys (g_par g s)) deps) g else g in
    fold_left (add_edge s now) (nodup Nat.eq_dec (sdiff deps (dkeys (g_par g s)))) g.

(** symbol.py:682-689, the edges of [collect_self_garbage]: the neighbours forget the
    symbol; its own dicts are left alone. *)
Definition collect (g : graph) (s : nat) : graph :=
  let chd := fold_left (fun f p => fset f p (ddel (f p) s)) (dkeys (g_par g s)) (g_chd g) in
  let par := fold_left (fun f c => fset f c (ddel (f c) s)) (dkeys (chd s)) (g_par g) in
  mkG (g_syms g) par chd.

(** What can happen to the graph. *)
Inductive op :=
| New (s : nat)
| Update (skip : bool) (s : nat) (deps : list nat) (overwrite : bool) (now : nat)
| Collect (s : nat).

Definition op_step (g : graph) (o : op) : graph :=
  match o with
  | New s => new_symbol g s
  | Update skip s deps ow now => update_deps g skip s deps ow now
  | Collect s => collect g s
  end.

(** ** Queries *)

(** lift.py:51-72, [deps] and [users]. *)
Definition deps (g : graph) (anon : nat -> bool) (s : nat) : list nat :=
  filter (fun d => negb (anon d)) (dkeys (g_par g s)).
Definition users (g : graph) (anon : nat -> bool) (s : nat) : list nat :=
  filter (fun d => negb (anon d)) (dkeys (g_chd g s)).

(** lift.py:82-87, [_traverse]. The recursion limit of Python is not modelled. *)
Definition traverse (g : graph) (attr : nat -> dict (list nat)) (s : nat) : res (list nat) :=
  dfs (fun x => map Ok (dkeys (attr x))) (S (length (g_syms g))) [] s.

(** lift.py:90-101, [rdeps]; the result is in no particular order. *)
Definition rdeps (g : graph) (anon : nat -> bool) (s : nat) : res (list nat) :=
  rmap (fun seen => filter (fun v => negb (anon v)) (sdiff seen [s])) (traverse g (g_par g) s).

(** lift.py:104-116, [rusers]. *)
Definition rusers (g : graph) (anon : nat -> bool) (s : nat) : res (list nat) :=
  rmap (fun seen => filter (fun v => negb (anon v)) (sdiff seen [s])) (traverse g (g_chd g) s).
