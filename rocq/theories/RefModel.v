(** References to symbols, their equality, and sets of them. *)
Require Import List Arith ZArith Bool.
Import ListNotations.
Require Import Verif.Base.
Local Open Scope nat_scope.

(** What an atom holds: [SupportedIndexType], types.py:6-8. Strings are numbers here. *)
Inductive scalar := CStr (n : nat) | CInt (z : Z) | CBool (b : bool) | CNone.
Inductive value := VOne (c : scalar) | VTuple (l : list scalar).

(** Python's [==] on these: True is 1 and False is 0. *)
Definition scalar_eqb (a b : scalar) : bool :=
  match a, b with
  | CStr n, CStr m => n =? m
  | CInt x, CInt y => (x =? y)%Z
  | CInt x, CBool b | CBool b, CInt x => (x =? if b then 1 else 0)%Z
  | CBool a, CBool b => Bool.eqb a b
  | CNone, CNone => true
  | _, _ => false
  end.
Fixpoint list_eqb {A} (eqb : A -> A -> bool) (l m : list A) : bool :=
  match l, m with [], [] => true | a :: l, b :: m => eqb a b && list_eqb eqb l m | _, _ => false end.
Definition value_eqb (a b : value) : bool :=
  match a, b with VOne x, VOne y => scalar_eqb x y | VTuple l, VTuple m => list_eqb scalar_eqb l m | _, _ => false end.

(** Atom, analysis/symbol_ref.py:87-104 *)
Record atom := mkAtom { a_value : value; a_call : bool; a_sub : bool; a_reactive : bool; a_cascading : bool; a_blocking : bool }.
(** CommonEqualityMixin.__eq__, utils/mixins.py:5-6: all fields are compared. *)
Definition atom_eqb (a b : atom) : bool :=
  value_eqb (a_value a) (a_value b) && Bool.eqb (a_call a) (a_call b) && Bool.eqb (a_sub a) (a_sub b) &&
  Bool.eqb (a_reactive a) (a_reactive b) && Bool.eqb (a_cascading a) (a_cascading b) && Bool.eqb (a_blocking a) (a_blocking b).
(** Atom.nonreactive, analysis/symbol_ref.py:106-114 *)
Definition nonreactive (a : atom) : atom := mkAtom (a_value a) (a_call a) (a_sub a) false false (a_blocking a).

(** SymbolRef, analysis/symbol_ref.py:325-360: the chain of atoms, the scope and the range in the source, if known. A
    scope is an identity, a range (four numbers) is compared as a whole: both are numbers here. *)
Record ref := mkRef { chain : list atom; scope : option nat; range : option nat }.
(** Two optional things differ if both are given and not the same. *)
Definition clash (a b : option nat) : bool := match a, b with Some x, Some y => negb (x =? y) | _, _ => false end.
(** SymbolRef.__eq__, analysis/symbol_ref.py:393-413 *)
Definition ref_eqb (a b : ref) : bool :=
  if clash (range a) (range b) then false else if clash (scope a) (scope b) then false else list_eqb atom_eqb (chain a) (chain b).
(** SymbolRef.canonical, analysis/symbol_ref.py:421-426 *)
Definition canonical (r : ref) : ref := mkRef (map nonreactive (chain r)) None None.

(** Hashing: [hv] is Python's hash of a value, [ht] what it makes of the hashes in a tuple. [hb]: of a bool. *)
Section hashing.
Variable hv : value -> Z.
Variable hb : bool -> Z.
Variable ht : list Z -> Z.
(** Atom.__hash__, analysis/symbol_ref.py:144-154 *)
Definition atom_hash (a : atom) : Z := ht [hv (a_value a); hb (a_call a); hb (a_sub a); hb (a_reactive a); hb (a_cascading a); hb (a_blocking a)].
(** SymbolRef.__hash__, analysis/symbol_ref.py:389-391 *)
Definition ref_hash (r : ref) : Z := ht (map atom_hash (chain r)).

(** A Python set: its members with the hashes they were added with, in the order of adding. *)
Definition rset := list (Z * ref).
(** [q in s]. That the very same object is found even if it were not equal to itself does not matter: see C45_reflexive. *)
Definition contains (s : rset) (q : ref) : bool := existsb (fun '(h, r) => (h =? ref_hash q)%Z && ref_eqb r q) s.
(** [s.add(q)] *)
Definition add (s : rset) (q : ref) : rset := if contains s q then s else s ++ [(ref_hash q, q)].
(** [set(l)], and [s |= set(l)] *)
Definition add_all (s : rset) (l : list ref) : rset := fold_left add l s.
Definition members (s : rset) : list ref := map snd s.
(** [s - t] *)
Definition minus (s t : rset) : rset := filter (fun '(_, r) => negb (contains t r)) s.

(** LiveSymbolRef, analysis/symbol_ref.py:485-516: equality by all fields, hash by three of them. *)
Record live_ref := mkLive { l_ref : ref; l_time : nat; l_lhs : bool; l_killed : bool }.
Definition live_eqb (a b : live_ref) : bool :=
  ref_eqb (l_ref a) (l_ref b) && (l_time a =? l_time b) && Bool.eqb (l_lhs a) (l_lhs b) && Bool.eqb (l_killed a) (l_killed b).
Definition live_hash (a : live_ref) : Z := ht [ref_hash (l_ref a); hv (VOne (CInt (Z.of_nat (l_time a)))); hb (l_lhs a)].
End hashing.
