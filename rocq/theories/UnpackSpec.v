(** How Python assigns the elements of a sequence, and what should be recorded. *)
Require Import List Arith Bool.
Import ListNotations.
Require Import Verif.Base Verif.UnpackModel.

(** Python's rule: a plain part takes one element, the starred part takes what the parts after it leave;
    there is at most one starred part. *)
Section Unpacks.
Context {A E : Type}.
Variable starred : E -> bool.
Inductive unpacks : list E -> list A -> list (E * list A) -> Prop :=
| U_nil : unpacks [] [] []
| U_one : forall t ts a l r, starred t = false -> unpacks ts l r -> unpacks (t :: ts) (a :: l) ((t, [a]) :: r)
| U_star : forall t ts mid l r, starred t = true -> Forall (fun t => starred t = false) ts ->
    unpacks ts l r -> unpacks (t :: ts) (mid ++ l) ((t, mid) :: r).
(** The elements with the parts that take them. *)
Definition takes (r : list (E * list A)) : list (A * E) :=
  flat_map (fun p => map (fun a => (a, fst p)) (snd p)) r.
(** A part without elements is the last one. *)
Fixpoint empty_only_last (r : list (E * list A)) : Prop :=
  match r with
  | [] => True
  | (_, os) :: r => (os = [] -> r = []) /\ empty_only_last r
  end.
End Unpacks.

(** With positions, from [i] on. *)
Fixpoint tag {A E} (i : nat) (l : list (A * E)) : list (nat * A * E) :=
  match l with [] => [] | (a, e) :: l => (i, a, e) :: tag (S i) l end.

(** What Python binds: a name to an object, or to a new list of objects. *)
Inductive bind := One (x : nat) (o : nat) | Many (x : nat) (os : list nat).
(** [items o]: the elements of a list or tuple. *)
Section Assigns.
Variable items : nat -> option (list nat).
Inductive assigns : target -> nat -> list bind -> Prop :=
| A_name : forall x o, assigns (TName x) o [One x o]
| A_seq : forall ts o l r bs, items o = Some l -> unpacks is_star ts l r -> assigns_all r bs ->
    assigns (TSeq ts) o bs
with assigns_all : list (target * list nat) -> list bind -> Prop :=
| AA_nil : assigns_all [] []
| AA_star : forall x os r bs, assigns_all r bs -> assigns_all ((TStar x, os) :: r) (Many x os :: bs)
| AA_one : forall t o r b bs, is_star t = false -> assigns t o b -> assigns_all r bs ->
    assigns_all ((t, [o]) :: r) (b ++ bs).

(** The containers that are taken apart have symbols for all of their elements, and no starred target
    ends up empty. *)
Inductive tracked (w : world) : target -> nat -> Prop :=
| T_name : forall x o, tracked w (TName x) o
| T_seq : forall ts o l r n, items o = Some l -> len_of w o = length l -> ns_of w o = Some n -> n_dict n = false ->
    (forall i a, nth_error l i = Some a -> exists y, n_syms n i = Some y /\ so w y = a) ->
    unpacks is_star ts l r -> (forall t os, In (t, os) r -> os <> []) ->
    (forall t a, In (t, [a]) r -> is_star t = false -> tracked w t a) -> tracked w (TSeq ts) o.
End Assigns.

(** The record of a name: a symbol of the object that it is bound to. *)
Definition records (w : world) (extra : list nat) (b : bind) (r : rec) : Prop :=
  match b, r with
  | One x o, ROne x' deps => x = x' /\ exists y, deps = y :: extra /\ so w y = o
  | Many x os, RMany x' ds => x = x' /\ Forall2 (fun o d => exists y, d = Some y /\ so w y = o) os ds
  | _, _ => False
  end.

(** Dependencies of the elements of a literal: the symbols of the part, or for the starred part the symbols
    of the elements of its container. *)
Definition star_dep (w : world) (syms : list nat) (k : nat) : list nat :=
  match syms with
  | [] => []
  | y :: _ => match ns_of w (so w y) with Some n => opt_list (n_syms n k) | None => [] end
  end.
Fixpoint number {A} (k : nat) (l : list A) : list (nat * A) :=
  match l with [] => [] | a :: l => (k, a) :: number (S k) l end.
Definition part_deps (w : world) (p : part * list nat) : list (nat * list nat) :=
  match fst p with
  | PPlain syms => map (fun o => (o, syms)) (snd p)
  | PStar syms => map (fun q => (snd q, star_dep w syms (fst q))) (number 0 (snd p))
  end.

(** Dict literals: [key: value] entries and [**d] entries, each with its node. *)
Inductive entry := KV (k v : nat) | Spread (items : list (nat * nat)).
Definition dict_of (es : list (entry * nat)) : dict nat :=
  fold_left (fun d e => match fst e with
                        | KV k v => dset d k v
                        | Spread l => fold_left (fun d p => dset d (fst p) (snd p)) l d
                        end) es [].
