(** What an update should do to the waiting marks. *)
Require Import List Bool Arith.
Import ListNotations.
Require Import Verif.Base Verif.UpdModel.

(** Everything the world refers to exists. *)
Record closed (w : world) : Prop := {
  cl_children : forall x, incl (w_children w x) (w_syms w);
  cl_aliases : forall o, incl (w_aliases w o) (w_syms w);
  cl_members : forall n, incl (w_members w n) (w_syms w);
  cl_own : forall n, incl (w_own_members w n) (w_syms w)
}.

(** Aliases of an object are symbols for that object, and the namespace that contains a
    symbol is the one that is registered for its object. *)
Definition coherent (w : world) : Prop :=
  (forall o a, In a (w_aliases w o) -> w_obj w a = o) /\
  (forall x n, w_cont w x = Some n -> w_ns w (w_ns_obj w n) = Some n).

(** [y] names the object inside which [x] lives (as attribute or element). *)
Definition container (w : world) (x y : nat) : Prop :=
  exists n, w_cont w x = Some n /\ In y (w_aliases w (w_ns_obj w n)).

(** [y] lives inside the object that [x] names. *)
Definition member (w : world) (x y : nat) : Prop :=
  exists n, w_ns w (w_obj w x) = Some n /\ In y (w_members w n).

(** The same, without what an instance has from its class; and for propagation upwards, the
    scopes of modules do not count as containers. *)
Definition own_member (w : world) (x y : nat) : Prop :=
  exists n, w_ns w (w_obj w x) = Some n /\ In y (w_own_members w n).
Definition obj_container (w : world) (x y : nat) : Prop :=
  exists n, w_cont w x = Some n /\ w_ns_module w n = false /\ In y (w_aliases w (w_ns_obj w n)).

(** [y] depends on [x]; the edges from a class to its instances count only if the class is
    the symbol that is being updated. *)
Definition dependent (w : world) (updated x y : nat) : Prop :=
  In y (w_children w x) /\
  (x = updated \/
   forall n o, w_ns w (w_obj w y) = Some n -> w_cloned w n = Some o -> o <> w_obj w x).

(** Updating one symbol updates what it lives in and, if [desc], what lives in it; imported
    symbols are left out. *)
Definition carries (w : world) (desc : bool) (x y : nat) : Prop :=
  w_import w y = false /\
  ((w_module w x = false /\ container w x y) \/ (desc = true /\ member w x y)).

Definition counts_as_updated (w : world) (desc : bool) (dir : nat -> Prop) (x : nat) : Prop :=
  exists d, dir d /\ w_import w d = false /\ reach (carries w desc) d x.

(** The dependents of the updated symbols [upd], along dependency edges that do not pass
    through the right-hand side [rhs]. *)
Inductive downstream (w : world) (updated : nat) (upd rhs : list nat) : nat -> Prop :=
| Do_first x y : In x upd -> dependent w updated x y -> downstream w updated upd rhs y
| Do_next x y : downstream w updated upd rhs x -> ~ In x rhs -> dependent w updated x y ->
    downstream w updated upd rhs y.

(** Everything that a change can touch, through dependencies, containers and members. *)
Inductive affected (w : world) (updated : nat) (upd rhs : list nat) : nat -> Prop :=
| Af_first x y : In x upd -> dependent w updated x y -> affected w updated upd rhs y
| Af_next x y : affected w updated upd rhs x -> ~ In x rhs -> dependent w updated x y ->
    affected w updated upd rhs y
| Af_up x y : affected w updated upd rhs x -> ~ In x rhs -> obj_container w x y ->
    affected w updated upd rhs y
| Af_up_next x a y : affected w updated upd rhs x -> ~ In x rhs -> obj_container w x a ->
    dependent w updated a y -> affected w updated upd rhs y
| Af_down x y : affected w updated upd rhs x -> ~ In x rhs -> own_member w x y ->
    affected w updated upd rhs y.

(** Symbols that are not to be marked: updated in this cell or statement, opted out, or the
    updated symbol itself. *)
Definition exempt (w : world) (updated : nat) (stmt_updated upd : list nat) (x : nat) : Prop :=
  In x (w_updated w) \/ In x stmt_updated \/ In x upd \/ w_quiet w x = true \/ x = updated.

(** The directly updated symbols: every name of the object if it was mutated, else the symbol
    itself; and the duplicates. *)
Definition directly (w : world) (u : nat) (dup : list nat) (mut : bool) (x : nat) : Prop :=
  (if mut then In x (w_aliases w (w_obj w u)) else x = u) \/ In x dup.

(** The world that the traversal sees: after a mutation the duplicates count as names of the
    object. *)
Definition after_dup (w : world) (u : nat) (dup : list nat) (mut : bool) : world :=
  mkW (w_syms w) (w_children w) (w_obj w)
      (fun o => if (mut && Nat.eqb o (w_obj w u))%bool
                then supd (w_aliases w o) dup else w_aliases w o)
      (w_cont w) (w_ns w) (w_ns_obj w)
      (w_ns_module w) (w_members w) (w_own_members w) (w_cloned w) (w_import w) (w_module w)
      (w_quiet w) (w_updated w).
