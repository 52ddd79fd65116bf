(** What Python's rules say about scopes, and what expressions denote. *)
Require Import List Arith ZArith Bool.
Import ListNotations.
Require Import Verif.Base Verif.RefModel Verif.ScopeModel.
Local Open Scope nat_scope.

(** [l] lists the scope [s] and those around it, from the inside out. *)
Inductive around (st : state) : nat -> list nat -> Prop :=
| around_top : forall s sc, dget (scopes st) s = Some sc -> parent sc = None -> around st s [s]
| around_in : forall s sc p l, dget (scopes st) s = Some sc -> parent sc = Some p -> around st p l -> around st s (s :: l).
(** Scope [t] itself binds the name [x] to the symbol [y]. *)
Definition binds (st : state) (t x y : nat) : Prop := exists sc, dget (scopes st) t = Some sc /\ dget (names sc) x = Some y.
Definition class_like (st : state) (t : nat) : Prop := exists sc, dget (scopes st) t = Some sc /\ is_ns sc = true.
(** What code in [s] sees: its own scope, and those around it that are not classes. *)
Definition sees (st : state) (s t : nat) : Prop := t = s \/ ~ class_like st t.
(** Python's rule: the innermost one that is seen and binds the name. *)
Definition python_binding (st : state) (s : nat) (l : list nat) (x y : nat) : Prop :=
  exists l1 t l2, l = l1 ++ t :: l2 /\ sees st s t /\ binds st t x y /\ (forall u, In u l1 -> sees st s u -> forall z, ~ binds st u x z).
Definition unbound (st : state) (s : nat) (l : list nat) (x : nat) : Prop := forall u, In u l -> sees st s u -> forall z, ~ binds st u x z.

(** An attribute of an object: its own, or else that of what it was cloned from, unless the object has its own. *)
Inductive attribute (st : state) : nat -> nat -> nat -> Prop :=
| own : forall s sc x y, dget (scopes st) s = Some sc -> dget (names sc) x = Some y -> attribute st s x y
| inherited : forall s sc c x y, dget (scopes st) s = Some sc -> dget (names sc) x = None -> cloned sc = Some c -> ~ In x (attrs sc) ->
    attribute st c x y -> attribute st s x y.

(** Where Python stores: [code] is the block of code of each scope, [glob] the global scope. *)
Definition says (code : nat -> option table) (s x : nat) (d : decl) : Prop := exists t, code s = Some t /\ dget (decls t) x = Some d.
Inductive stores_to (st : state) (code : nat -> option table) (glob s x : nat) : nat -> Prop :=
| to_module : s = glob -> stores_to st code glob s x s
| to_local : s <> glob -> says code s x DLocal -> stores_to st code glob s x s
| to_global : s <> glob -> says code s x DGlobal -> stores_to st code glob s x glob
| to_outer : forall l1 t l2, s <> glob -> says code s x DNonlocal -> around st s (s :: l1 ++ t :: l2) -> t <> glob -> ~ class_like st t -> says code t x DLocal ->
    (forall u, In u l1 -> class_like st u \/ ~ says code u x DLocal) -> stores_to st code glob s x t.
(** What the frame holds just after the store: [f_locals] has it unless it is global, [f_globals] has it if it is. *)
Definition frame_after (code : nat -> option table) (glob s x : nat) (local global_ : bool) : Prop :=
  (s = glob -> local = true /\ global_ = true) /\ (s <> glob -> says code s x DGlobal -> local = false /\ global_ = true) /\
  (s <> glob -> says code s x DLocal \/ says code s x DNonlocal -> local = true).

(** The block of code that a path of names leads to, each name being that of one block only. *)
Inductive block_at : table -> list nat -> table -> Prop :=
| here : forall t, block_at t [] t
| inside : forall t x b p b' l1 l2, blocks t = l1 ++ (x, b) :: l2 -> ~ In x (map fst (l1 ++ l2)) -> In x (dkeys (decls t)) -> block_at b p b' ->
    block_at t (x :: p) b'.
(** Scopes of functions: [s] is that of the function that the path of names leads to from the global scope. *)
Inductive function_scope (st : state) (cell : table) (glob : nat) : list nat -> nat -> Prop :=
| the_module : forall sc, dget (scopes st) glob = Some sc -> parent sc = None -> function_scope st cell glob [] glob
| the_function : forall p q x s sc, function_scope st cell glob p q -> make_child_scope st (Some cell) q x = Ok sc ->
    dget (scopes st) s = Some sc -> function_scope st cell glob (p ++ [x]) s.

(** Objects: their attributes, their items by key, the ones that are keys, what calling them returns, and the values of the
    other expressions. *)
Record heap := mkHeap { attr : nat -> nat -> option nat; item : nat -> value -> option nat; as_key : nat -> option value;
  returns : nat -> option nat; result : nat -> option nat }.
(** The value of an index, and of an expression. *)
Inductive key (env : nat -> option nat) (h : heap) : expr -> value -> Prop :=
| key_const : forall v, key env h (EConst v) v
| key_name : forall x o v, env x = Some o -> as_key h o = Some v -> key env h (EName x) v
| key_other : forall n o v, result h n = Some o -> as_key h o = Some v -> key env h (EOther n) v
| key_neg : forall e v z, key env h e v -> int_of v = Some z -> key env h (ENeg e) (VOne (CInt (- z))).
Inductive evaluates (env : nat -> option nat) (h : heap) : expr -> nat -> Prop :=
| ev_name : forall x o, env x = Some o -> evaluates env h (EName x) o
| ev_attr : forall e a o o', evaluates env h e o -> attr h o a = Some o' -> evaluates env h (EAttr e a) o'
| ev_sub : forall e s o v o', evaluates env h e o -> key env h s v -> item h o v = Some o' -> evaluates env h (ESub e s) o'
| ev_call : forall e o o', evaluates env h e o -> returns h o = Some o' -> evaluates env h (ECall e) o'
| ev_other : forall n o, result h n = Some o -> evaluates env h (EOther n) o.

Definition refers (st : state) (y o : nat) : Prop := exists sy, dget (symbols st) y = Some sy /\ obj sy = o.
(** The symbols of a namespace are those of the attributes and items of its object. *)
Record mirrors (st : state) (h : heap) : Prop := {
  m_attr : forall o ns a y, dget (namespaces st) o = Some ns -> attribute st ns a y -> exists o', refers st y o' /\ attr h o a = Some o';
  m_item : forall o ns sc v y, dget (namespaces st) o = Some ns -> dget (scopes st) ns = Some sc -> vget (subs sc) v = Some y -> exists o', refers st y o' /\ item h o v = Some o';
  m_negative : forall o ns sc n v z, dget (namespaces st) o = Some ns -> dget (scopes st) ns = Some sc -> size sc = Some n -> int_of v = Some z -> (z < 0)%Z ->
      item h o v <> None -> item h o v = item h o (VOne (CInt (Z.of_nat n + z)));
  m_ns : forall o ns, dget (namespaces st) o = Some ns -> class_like st ns }.
(** What a namespace was cloned from, directly or not. *)
Inductive origin (st : state) : nat -> nat -> Prop :=
| origin_self : forall s, origin st s s
| origin_clone : forall s sc c t, dget (scopes st) s = Some sc -> cloned sc = Some c -> origin st c t -> origin st s t.
(** No object has an attribute and an item of the same name, and what is cloned (classes) has no items. *)
Definition distinct (st : state) (h : heap) : Prop :=
  (forall o a, attr h o a = None \/ item h o (VOne (CStr a)) = None) /\
  (forall s sc c cc, dget (scopes st) s = Some sc -> cloned sc = Some c -> dget (scopes st) c = Some cc -> subs cc = []).
(** The expressions that references can follow: names, attributes, and subscripts that are literals (not None), negated
    numbers, or names whose symbols hold a key. *)
Inductive followed (look : nat -> res (option nat)) (index_of : nat -> option value) : expr -> Prop :=
| f_name : forall x, followed look index_of (EName x)
| f_attr : forall e a, followed look index_of e -> followed look index_of (EAttr e a)
| f_const : forall e v, followed look index_of e -> v <> VOne CNone -> followed look index_of (ESub e (EConst v))
| f_neg : forall e c z, followed look index_of e -> int_of (VOne c) = Some z -> followed look index_of (ESub e (ENeg (EConst (VOne c))))
| f_index : forall e x y v, followed look index_of e -> look x = Ok (Some y) -> index_of y = Some v -> followed look index_of (ESub e (EName x)).

(** Subscripts whose keys are known: literals other than None, negated numbers, and names whose symbols hold a key. *)
Inductive literal_key (look : nat -> res (option nat)) (index_of : nat -> option value) : expr -> value -> Prop :=
| l_const : forall v, v <> VOne CNone -> literal_key look index_of (EConst v) v
| l_neg : forall c z, int_of (VOne c) = Some z -> literal_key look index_of (ENeg (EConst (VOne c))) (VOne (CInt (- z)))
| l_name : forall x y v, look x = Ok (Some y) -> index_of y = Some v -> literal_key look index_of (EName x) v.
(** Expressions all of whose steps have symbols, with the symbol of the last one. *)
Inductive tracked (st : state) (look : nat -> res (option nat)) (index_of : nat -> option value) : expr -> nat -> Prop :=
| t_name : forall x y, look x = Ok (Some y) -> tracked st look index_of (EName x) y
| t_attr : forall e a y' o ns sc y, tracked st look index_of e y' -> refers st y' o -> dget (namespaces st) o = Some ns -> dget (scopes st) ns = Some sc ->
    is_ns sc = true -> dget (names sc) a = Some y -> tracked st look index_of (EAttr e a) y
| t_item : forall e k v y' o ns sc y, tracked st look index_of e y' -> refers st y' o -> dget (namespaces st) o = Some ns -> dget (scopes st) ns = Some sc ->
    is_ns sc = true -> literal_key look index_of k v -> vget (subs sc) v = Some y -> (forall a, v = VOne (CStr a) -> dget (names sc) a = None) ->
    tracked st look index_of (ESub e k) y.
