(** What it means that a memoized run may be reused. *)
Require Import List ZArith Bool Arith Permutation.
Import ListNotations.
Require Import Verif.Base Verif.TimestampModel Verif.MemoModel.
Local Open Scope nat_scope.

(** Values built from numbers, texts and containers. *)
Inductive val :=
| VNum (k : numkind) (z : Z)
| VStr (s : nat)
| VBytes (s : nat)
| VBytearray (s : nat)
| VList (l : list val)
| VTuple (l : list val)
| VSet (l : list val)
| VDict (l : list (val * val)).

(** The object [r] has the value [v]. *)
Inductive denotes (h : heap) : nat -> val -> Prop :=
| De_num r k z : h r = ONum k z -> denotes h r (VNum k z)
| De_str r s : h r = OStr s -> denotes h r (VStr s)
| De_bytes r s : h r = OBytes s -> denotes h r (VBytes s)
| De_bytearray r s : h r = OBytearray s -> denotes h r (VBytearray s)
| De_list r l vs : h r = OList l -> Forall2 (denotes h) l vs -> denotes h r (VList vs)
| De_tuple r l vs : h r = OTuple l -> Forall2 (denotes h) l vs -> denotes h r (VTuple vs)
| De_set r l vs : h r = OSet l -> Forall2 (denotes h) l vs -> denotes h r (VSet vs)
| De_dict r l vs : h r = ODict l ->
    Forall2 (fun p q => denotes h (fst p) (fst q) /\ denotes h (snd p) (snd q)) l vs ->
    denotes h r (VDict vs).

(** No [bytearray] inside. *)
Inductive frozen : val -> Prop :=
| Fr_num k z : frozen (VNum k z)
| Fr_str s : frozen (VStr s)
| Fr_bytes s : frozen (VBytes s)
| Fr_list l : Forall frozen l -> frozen (VList l)
| Fr_tuple l : Forall frozen l -> frozen (VTuple l)
| Fr_set l : Forall frozen l -> frozen (VSet l)
| Fr_dict l : Forall (fun p => frozen (fst p) /\ frozen (snd p)) l -> frozen (VDict l).

(** An array is somewhere inside. *)
Inductive has_array (h : heap) : nat -> Prop :=
| Ha_here r n : h r = OArr n -> has_array h r
| Ha_list r l x : h r = OList l -> In x l -> has_array h x -> has_array h r
| Ha_tuple r l x : h r = OTuple l -> In x l -> has_array h x -> has_array h r
| Ha_key r l p : h r = ODict l -> In p l -> has_array h (fst p) -> has_array h r
| Ha_val r l p : h r = ODict l -> In p l -> has_array h (snd p) -> has_array h r.

(** Equal up to: the kind of number, [bytes] or [bytearray], and list, tuple or a dict's items
    in some order. *)
Definition sequence (v : val) (l : list val) : Prop :=
  match v with
  | VList l' => l = l'
  | VTuple l' => l = l'
  | VDict d => exists d', Permutation d d' /\ l = map (fun p => VTuple [fst p; snd p]) d'
  | _ => False
  end.

Inductive similar : val -> val -> Prop :=
| Si_num k k' z : similar (VNum k z) (VNum k' z)
| Si_str s : similar (VStr s) (VStr s)
| Si_bytes v v' s : In v [VBytes s; VBytearray s] -> In v' [VBytes s; VBytearray s] -> similar v v'
| Si_seq v v' l l' : sequence v l -> sequence v' l' -> Forall2 similar l l' -> similar v v'
| Si_set l l' :
    (forall x, In x l -> exists y, In y l' /\ similar x y) ->
    (forall y, In y l' -> exists x, In x l /\ similar x y) ->
    similar (VSet l) (VSet l').

(** Values for which similarity is equality: ints, texts and lists of such. *)
Inductive rigid : val -> Prop :=
| Ri_int z : rigid (VNum KInt z)
| Ri_str s : rigid (VStr s)
| Ri_bytes s : rigid (VBytes s)
| Ri_list l : Forall rigid l -> rigid (VList l).

(** A run of a cell that asked for memoization: the state when it ended, whether it raised,
    its text and counter, the symbols on its parent edges, and the symbols it updated. *)
Record run := mkRun {
  r_state : state; r_err : bool; r_text : nat; r_ctr : nat; r_syms : list nat;
  r_shallow : nat -> ts; r_updated : list nat
}.

(** The table after a sequence of runs with increasing counters. *)
Inductive tables (P : params) : list run -> table -> Prop :=
| Ta_nil : tables P [] []
| Ta_run l t r t' : tables P l t ->
    memoize P t (r_state r) (r_err r) (r_text r) (r_ctr r) (r_syms r) (r_shallow r) (r_updated r)
      = Ok t' ->
    (forall q, In q l -> r_ctr q < r_ctr r) ->
    tables P (l ++ [r]) t'.

(** An input of a run: a global symbol that it used and did not itself update. *)
Definition input_of (r : run) (x : nat) : Prop :=
  In x (r_syms r) /\ global_of (r_state r) x = true /\
  cell_num (ts_of (r_state r) x) <> Z.of_nat (r_ctr r).

(** [x] is in [s] as it was in [s0]. If a comparable was made, by value; otherwise it is an
    import, or was not updated, or is the same object, last updated as it was then. *)
Definition unchanged (P : params) (s0 s : state) (x : nat) : Prop :=
  match comparable (p_cap P) (heap_of s0) (p_fuel P) (obj_of s0 x) with
  | Ok (Some _) =>
      forall v0, denotes (heap_of s0) (obj_of s0 x) v0 -> frozen v0 ->
        (exists v1, denotes (heap_of s) (obj_of s x) v1 /\ similar v1 v0) \/
        has_array (heap_of s) (obj_of s x)
  | Ok None =>
      import_of s x = true \/ cell_num (ts_of s x) = cell_num (ts_of s0 x) \/
      (obj_of s x = obj_of s0 x /\ exists m, mem_of s x (obj_of s x) = Some m /\
         (m = ts_of s0 x \/ mem_of s0 x (obj_of s0 x) = Some m \/
          (m = ts_uninit /\ mem_of s0 x (obj_of s0 x) = None)))
  | Err _ => False
  end.

(** [x] has, in [s], the value it had in [s0]; or nothing comparable, and not updated since. *)
Definition same_again (P : params) (s0 s : state) (x : nat) : Prop :=
  match comparable (p_cap P) (heap_of s0) (p_fuel P) (obj_of s0 x) with
  | Ok (Some _) =>
      (exists v, frozen v /\ denotes (heap_of s0) (obj_of s0 x) v /\
                 denotes (heap_of s) (obj_of s x) v) /\
      comparable (p_cap P) (heap_of s) (p_fuel P) (obj_of s x) <> Ok None
  | Ok None => import_of s x = true \/ cell_num (ts_of s x) = cell_num (ts_of s0 x)
  | Err _ => False
  end.

(** ** Values that can be handled *)

Definition contents (o : obj) : list nat :=
  match o with
  | OList l | OTuple l | OSet l => l
  | ODict l => flat_map (fun p => [fst p; snd p]) l
  | _ => []
  end.

Definition atom (o : obj) : Prop :=
  match o with ONum _ _ | OStr _ | OBytes _ => True | _ => False end.

(** The objects [U] refer only to each other, and tuples are nested only finitely deep
    (a tuple cannot contain itself except through a list, set or dict). *)
Definition finite_heap (h : heap) (U : list nat) : Prop :=
  (forall r x, In r U -> In x (contents (h r)) -> In x U) /\
  exists rank : nat -> nat, forall r l x, h r = OTuple l -> In x l -> rank x < rank r.

(** Sets hold only numbers and texts; the keys of one dict are all numbers, or all texts. *)
Definition tidy (h : heap) (U : list nat) : Prop :=
  forall r, In r U ->
    match h r with
    | OSet l => forall x, In x l -> atom (h x)
    | ODict l =>
        (forall p, In p l -> exists k z, h (fst p) = ONum k z) \/
        (forall p, In p l -> exists s, h (fst p) = OStr s) \/
        (forall p, In p l -> exists s, h (fst p) = OBytes s)
    | _ => True
    end.
