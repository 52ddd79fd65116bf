(** C44: what the exported metadata has to say, in terms of the usages that were recorded. *)
Require Import List Arith Bool.
Import ListNotations.
Require Import Verif.Base Verif.DagModel.

(** The symbol [t] is the variable at top level that holds [i]: follow the containing objects, each through the first of
    its names that is accessible. *)
Inductive held_by (st : state) : nat -> nat -> Prop :=
| held_top : forall i s, dget (symbols st) i = Some s -> s_ns s = None -> held_by st i i
| held_in : forall i s o l1 j l2 sj t, dget (symbols st) i = Some s -> s_ns s = Some o -> aliases_of st o = l1 ++ j :: l2 ->
    (forall k, In k l1 -> exists sk, dget (symbols st) k = Some sk /\ s_accessible sk = false) ->
    dget (symbols st) j = Some sj -> s_accessible sj = true -> held_by st j t -> held_by st i t.

(** A variable that the user sees: accessible, not anonymous, not "_", and no module that an import stands for. *)
Definition shown (st : state) (t : nat) : Prop :=
  exists s, dget (symbols st) t = Some s /\ s_accessible s = true /\ s_anon s = false /\ s_name s <> n_underscore /\
    (s_kind s = KModule -> forall j sj stmt, In j (aliases_of st (s_obj s)) -> dget (symbols st) j = Some sj ->
       s_kind sj = KImport stmt -> s_name sj <> s_name s).

(** Cell [c] used (something in) the variable [t] as it was left by cell [p]. *)
Definition uses (st : state) (c p t : nat) : Prop :=
  exists i s, In i (all_symbols st) /\ dget (symbols st) i = Some s /\ held_by st i t /\ shown st t /\
    (In (c, p) (s_used s) \/ In (c, p) (s_live s)).
(** Cell [c] updated (something in) the variable [t]. *)
Definition updates (st : state) (c t : nat) : Prop :=
  exists i s, In i (all_symbols st) /\ dget (symbols st) i = Some s /\ held_by st i t /\ shown st t /\ In c (s_updated s).
Definition imported (st : state) (t : nat) : Prop := exists s stmt, dget (symbols st) t = Some s /\ s_kind s = KImport stmt.
Definition named (st : state) (t n : nat) : Prop := exists s, dget (symbols st) t = Some s /\ s_name s = n.

(** Views of the result. *)
Definition parent (md : dict metadata) (c p : nat) : Prop := exists m, dget md c = Some m /\ In p (m_parents m).
Definition child (md : dict metadata) (p c : nat) : Prop := exists m, dget md p = Some m /\ In c (m_children m).
Definition input (md : dict metadata) (c n : nat) : Prop := exists m, dget md c = Some m /\ In n (dkeys (m_inputs m)).
Definition output (md : dict metadata) (c n : nat) : Prop := exists m, dget md c = Some m /\ In n (dkeys (m_outputs m)).
Definition imports (md : dict metadata) (c : nat) (x : import_string) : Prop := exists m, dget md c = Some m /\ In x (m_imports m).

(** What Python binds to a name in an import statement: the last alias with that name counts. *)
Definition binds_in (names : list (nat * option nat)) (x y : nat) : Prop :=
  exists l1 a l2, names = l1 ++ (y, a) :: l2 /\ bound_name (y, a) = x /\ (forall b, In b l2 -> bound_name b <> x).
Definition recreates (stmt : import_stmt) (x : nat) (i : import_string) : Prop :=
  match stmt, i with
  | SImport names, IImport m a => binds_in names x m /\ bound_name (m, a) = x
  | SFrom (Some m) names, IFrom m' y a => m' = m /\ binds_in names x y /\ bound_name (y, a) = x
  | _, _ => False
  end.

(** Some way of going from parent to child, again and again. *)
Inductive leads (md : dict metadata) : nat -> nat -> Prop :=
| leads_one : forall p c, parent md c p -> leads md p c
| leads_more : forall p c d, leads md p c -> parent md d c -> leads md p d.

(** The tables of symbols are sound: what is listed exists; an imported symbol stems from a statement that binds its name;
    following containing objects comes to an end ([rank]). *)
Definition names_in (stmt : import_stmt) : list (nat * option nat) := match stmt with SImport l => l | SFrom _ l => l end.
Definition sound (st : state) (rank : nat -> nat) : Prop :=
  (forall i, In i (all_symbols st) -> exists s, dget (symbols st) i = Some s) /\
  (forall i s k, dget (symbols st) i = Some s -> s_kind s = KImport k ->
     exists stmt a, k = Some stmt /\ (forall l, stmt <> SFrom None l) /\ In a (names_in stmt) /\ bound_name a = s_name s) /\
  (forall i s o j, dget (symbols st) i = Some s -> s_ns s = Some o -> In j (aliases_of st o) -> rank j < rank i).
