(** When a symbol is waiting. *)
Require Import List Arith ZArith Bool Relations.
Import ListNotations.
Require Import Verif.Base Verif.WaitModel.
Local Open Scope Z_scope.

(** Something the symbol comes from was updated after it. *)
Definition stale (w : world) (s : nat) : Prop :=
  y_quiet (w_sym w s) = false /\ y_ts (w_sym w s) < y_req (w_sym w s) /\ w_min w < y_req (w_sym w s).
(** It is stale, or one of the symbols noted in its namespace is waiting; as long as [min_timestamp] is not set those noted are taken to
    be. *)
Inductive waiting (w : world) : nat -> Prop :=
| by_itself : forall s, stale w s -> waiting w s
| by_note : forall s m, y_quiet (w_sym w s) = false -> w_min w = -1 -> In m (y_members (w_sym w s)) -> waiting w s
| by_member : forall s m, y_quiet (w_sym w s) = false -> In m (y_members (w_sym w s)) -> waiting w m -> waiting w s.
Definition gate (w : world) (s : nat) (deep : bool) : Prop := if deep then waiting w s else stale w s.
(** At a position [pos]: [p] was used for [s] by a cell at the position [q], which is not below [pos], when its counter was [ts]; and [p]
    was written (at the counter [u]) by a cell that is not below that one. *)
Definition from (w : world) (s : nat) (pos : Z) (p : nat) (q ts u : Z) : Prop :=
  exists l r, In (p, l) (y_parents (w_sym w s)) /\ In ts l /\ w_pos w ts = Some q /\ q <= pos /\ In u (y_updated (w_sym w p)) /\ w_pos w u = Some r /\ r <= q.
(** The symbol is waiting, and some such write is newer than the use, or [p] was itself waiting there; or a member is. *)
Inductive waits (w : world) : nat -> Z -> bool -> Prop :=
| in_any_order : forall s pos deep, gate w s deep -> w_any w = true -> waits w s pos deep
| newer : forall s pos deep p q ts u, gate w s deep -> from w s pos p q ts u -> ts < u -> waits w s pos deep
| older : forall s pos deep p q ts u, gate w s deep -> from w s pos p q ts u -> waits w p q true -> waits w s pos deep
| inside : forall s pos m, gate w s true -> In m (y_members (w_sym w s)) -> waits w m pos true -> waits w s pos true.

(** On what the answer depends. *)
Definition node := (nat * Z * bool)%type.
Definition gated (w : world) (n : node) : Prop := gate w (fst (fst n)) (snd n).
Definition edge (w : world) (a b : node) : Prop :=
  gated w a /\ gated w b /\ snd b = true /\
  ((exists ts u, from w (fst (fst a)) (snd (fst a)) (fst (fst b)) (snd (fst b)) ts u) \/
   snd a = true /\ In (fst (fst b)) (y_members (w_sym w (fst (fst a)))) /\ snd (fst b) = snd (fst a)).
Definition acyclic (w : world) : Prop := forall n, ~ clos_trans node (edge w) n n.

(** Counters do not go back; and as long as no cell is run nothing changes. *)
Fixpoint in_time (t : Z) (l : list question) : Prop :=
  match l with
  | [] => True
  | q :: l => t <= w_now (q_w q) /\ (forall q', In q' l -> w_now (q_w q') = w_now (q_w q) -> q_w q' = q_w q) /\ in_time (w_now (q_w q)) l
  end.
(** [L] has with each symbol those it comes from and those noted in its namespace; the cells they were written by are known. *)
Definition complete (w : world) (L : list nat) : Prop := forall s, In s L ->
  (forall p l ts, In (p, l) (y_parents (w_sym w s)) -> In p L /\ (In ts l \/ In ts (y_updated (w_sym w p)) -> w_pos w ts <> None)) /\
  (forall m, In m (y_members (w_sym w s)) -> In m L).
(** No namespace contains itself, in however many steps. *)
Definition nested (w : world) : Prop := exists rank : nat -> nat, forall s m, In m (y_members (w_sym w s)) -> (rank m < rank s)%nat.
