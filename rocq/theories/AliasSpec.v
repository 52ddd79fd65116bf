(** Who holds an object, and what is garbage. *)
Require Import List Arith ZArith Bool.
Import ListNotations.
Require Import Verif.Base Verif.AliasModel.
Local Open Scope nat_scope.

(** The table of aliases has [s] under [o]. *)
Definition listed (st : state) (o s : nat) : Prop := exists l, dget (aliases st) o = Some l /\ In s l.
(** The symbol [s] is kept and its object is [o]. *)
Definition holds (st : state) (s o : nat) : Prop := exists y, dget (syms st) s = Some y /\ y_obj y = o.
(** In scope [n] the name or position [k] is that of [s]. *)
Definition bound (st : state) (n : nat) (sub : bool) (k s : nat) : Prop := exists c, dget (scopes st) n = Some c /\ dget (table c sub) k = Some s.
(** What the symbol [s] says about where it is. *)
Definition placed (st : state) (n : nat) (sub : bool) (k s : nat) : Prop :=
  exists y, dget (syms st) s = Some y /\ y_scope y = n /\ y_sub y = sub /\ y_name y = k.
Definition garbage (st : state) (s : nat) : Prop := exists y, dget (syms st) s = Some y /\ y_tomb y = true.
Definition garbage_space (st : state) (n : nat) : Prop := exists c, dget (scopes st) n = Some c /\ s_tomb c = true.

(** When the symbols [D] go: the symbols ([inl]) and namespaces ([inr]) that go with them are those in a namespace that goes, and the
    namespaces of objects all of whose symbols are gone. *)
Inductive goes (st : state) (D : nat -> Prop) : nat + nat -> Prop :=
| goes_it : forall x, D x -> ~ garbage st x -> goes st D (inl x)
| goes_space : forall s o n, goes st D (inl s) -> holds st s o -> dget (spaces st) o = Some n -> ~ garbage_space st n ->
    (forall t, listed st o t -> ~ garbage st t -> goes st D (inl t)) -> goes st D (inr n)
| goes_member : forall n sub k s, goes st D (inr n) -> bound st n sub k s -> ~ garbage st s -> goes st D (inl s).
(** Collected when the cell that last ran as number [prev] has run again: what it had left without a name; and perhaps what it had put
    into arrays that are gone. *)
Definition unnamed (st : state) (prev : Z) (s : nat) : Prop :=
  exists y c, dget (syms st) s = Some y /\ dget (scopes st) (y_scope y) = Some c /\ y_def y = prev /\ (y_anon y = true \/ s_ns c = true /\ s_anon c = true).
Definition in_array (st : state) (prev : Z) (s : nat) : Prop :=
  exists y c, dget (syms st) s = Some y /\ dget (scopes st) (y_scope y) = Some c /\ y_def y = prev /\ s_ns c = true /\ s_array c = true.

(** [P] holds of each operation when it is carried out. *)
Fixpoint always (P : state -> op -> Prop) (fuel : nat) (l : list op) (st : state) : Prop :=
  match l with [] => True | e :: l => P st e /\ forall st', step fuel st e = Ok st' -> always P fuel l st' end.
(** No update was interrupted, and items that count as updated together are the same object. *)
Definition completes (st : state) (e : op) : Prop :=
  match e with
  | StoreFails _ _ _ _ _ _ _ => False
  | Mutate s dup => forall o t, holds st s o -> In t dup -> holds st t o
  | _ => True
  end.
(** Only symbols that are not deleted are read. *)
Definition reads_live (st : state) (e : op) : Prop := match e with Refer s _ _ | Resync s _ _ _ => ~ garbage st s | _ => True end.

(** What was last done to the variable [k]: stored (under a name of the user's), or deleted. *)
Fixpoint last_store (k : nat) (l : list op) (b : bool) : bool :=
  match l with
  | [] => b
  | Store 0 false k' anon _ _ _ :: l => last_store k l (if k' =? k then negb anon else b)
  | Delete 0 k' :: l => last_store k l (if k' =? k then false else b)
  | _ :: l => last_store k l b
  end.
(** No variable is stored again between its deletion and the collection that follows; [gone]: those deleted so far. *)
Fixpoint no_return (l : list op) (gone : list nat) : Prop :=
  match l with
  | [] => True
  | Store 0 false k _ _ _ _ :: l => ~ In k gone /\ no_return l gone
  | Delete 0 k :: l => no_return l (k :: gone)
  | Gc _ :: l => no_return l []
  | _ :: l => no_return l gone
  end.
