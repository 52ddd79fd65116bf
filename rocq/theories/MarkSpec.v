(** What the marks `$`, `$$` and `$:` mean, in terms of where they stand in a reference and of what
    happened in the session. *)
From Coq Require Import List Arith Bool ZArith.
From Verif Require Import Base MarkModel.
Import ListNotations.

(** * Marks in one reference *)

(** The parts of a reference for which there are symbols, first one first. *)
Definition sym_of (t : triple) : nat := fst (fst t).
Definition atom_of (t : triple) : atom := snd (fst t).

Definition dollar (t : triple) : Prop := a_reac (atom_of t) = true.
Definition ddollar (t : triple) : Prop := a_casc (atom_of t) = true.
Definition stop (t : triple) : Prop := a_block (atom_of t) = true.
Definition marked (t : triple) : Prop := dollar t \/ ddollar t.

(** At most one mark in front of a name. *)
Definition single (a : atom) : Prop :=
  (a_reac a = true -> a_casc a = false /\ a_block a = false) /\
  (a_casc a = true -> a_block a = false).

Definition at_or_before (ts : list triple) (i : nat) (P : triple -> Prop) : Prop :=
  exists j t, j <= i /\ nth_error ts j = Some t /\ P t.
Definition before (ts : list triple) (i : nat) (P : triple -> Prop) : Prop :=
  exists j t, j < i /\ nth_error ts j = Some t /\ P t.
Definition at_or_after (ts : list triple) (i : nat) (P : triple -> Prop) : Prop :=
  exists j t, i <= j /\ nth_error ts j = Some t /\ P t.

(** No `$` or `$$` stands in front of a `$:`. *)
Definition stops_first (ts : list triple) : Prop :=
  forall i t, nth_error ts i = Some t -> stop t -> ~ before ts i marked.

(** A `$:` with no `$` or `$$` in front of it. *)
Definition lone_stop (ts : list triple) (i : nat) : Prop :=
  exists t, nth_error ts i = Some t /\ stop t /\ ~ before ts i marked.

(** Since the last change of the symbol it was stored with `$:` (or it was never changed at all, as
    far as is known). *)
Definition held (W : world) (s : nat) : Prop :=
  match dget (w_blocked W) s with
  | Some n => (w_stamp W s <= n)%Z
  | None => (w_stamp W s <= -1)%Z
  end.

(** Some part up to [i] is marked `$:` or held. *)
Definition hushed (W : world) (ts : list triple) (i : nat) : Prop :=
  exists j t, j <= i /\ nth_error ts j = Some t /\ (stop t \/ held W (sym_of t)).

(** Recorded as stored with `$` or `$$`. *)
Definition stored (W : world) (s : nat) : Prop := In s (w_deep W) \/ In s (w_deep_last W).

(** * Marks in the target of a store *)

(** What a store with these marks does to symbol [s]: nothing after it is marked `$:` … *)
Definition marks_deep (ts : list triple) (s : nat) (P : triple -> Prop) : Prop :=
  exists i t, nth_error ts i = Some t /\ sym_of t = s /\ P t /\ ~ at_or_after ts i stop.
Definition marks (ts : list triple) (s : nat) (P : triple -> Prop) : Prop :=
  exists i t, nth_error ts i = Some t /\ sym_of t = s /\ P t /\
              at_or_after ts i marked /\ ~ at_or_after ts i stop.
(** … or something is. *)
Definition stops (ts : list triple) (s : nat) : Prop :=
  exists i t, nth_error ts i = Some t /\ sym_of t = s /\ at_or_after ts i stop.

Definition by_dollar (t : triple) : Prop := dollar t /\ ~ ddollar t.

(** * Histories *)

(** How many cells have been run. *)
Fixpoint count (h : list event) : Z :=
  match h with
  | [] => 0
  | Begin _ :: h' => 1 + count h'
  | _ :: h' => count h'
  end%Z.

Definition is_begin (e : event) : Prop := match e with Begin _ => True | _ => False end.
Definition is_cleanup (e : event) : Prop := match e with Cleanup => True | _ => False end.
Definition is_end (e : event) : Prop := match e with EndStmt => True | _ => False end.

(** An update that is carried out. *)
Definition goes_through (u : upd) : Prop :=
  u_same_import u = false /\ (u_mutated u && u_immutable u = false).

(** The event gives symbol [s] a new value that has nothing to do with the old one. *)
Definition overwritten (s : nat) (e : event) : Prop :=
  match e with
  | Update _ u => goes_through u /\ u_sym u = s /\ u_overwrite u = true /\
                  ~ In s (u_deps u) /\ u_cyclic u = false
  | _ => False
  end.

(** The event is a store whose target is marked in this way for [s]. *)
Definition store_event (Q : list triple -> Prop) (e : event) : Prop :=
  match e with Mark E sc ch => Q (walk E sc ch) | _ => False end.

(** [P] held of some event and [C] of none after it. *)
Definition since (h : list event) (P C : event -> Prop) : Prop :=
  exists h1 e h2, h = h1 ++ e :: h2 /\ P e /\ forall e', In e' h2 -> ~ C e'.

(** Some statement of the cell that runs has changed [s], and is done. *)
Definition changed_in_run (h : list event) (s : nat) : Prop :=
  exists h1 G u h2 h3, h = h1 ++ Update G u :: h2 ++ EndStmt :: h3 /\
    (u_same_import u = true \/ u_mutated u && u_immutable u = false) /\ In s (u_seen u) /\
    (forall e, In e h2 -> ~ is_end e) /\ (forall e, In e h3 -> ~ is_begin e).

(** Run number [n] stored [s] with `$:`, and no later run did. *)
Definition stopped_in (h : list event) (s : nat) (n : Z) : Prop :=
  exists h1 E sc ch h2, h = h1 ++ Mark E sc ch :: h2 /\ n = count h1 /\
    stops (walk E sc ch) s /\ ~ changed_in_run h1 s /\
    forall h3 E' sc' ch' h4, h2 = h3 ++ Mark E' sc' ch' :: h4 ->
      stops (walk E' sc' ch') s ->
      changed_in_run (h1 ++ Mark E sc ch :: h3) s.

(** The event gives [s] the current timestamp. *)
Definition stamps (s : nat) (e : event) : Prop :=
  match e with
  | Update _ u => (u_same_import u = true \/ u_mutated u && u_immutable u = false) /\
                  In s (u_stamped u)
  | Mark E sc ch => exists i t, nth_error (walk E sc ch) i = Some t /\ sym_of t = s /\
                      snd t = None /\ marked t /\ ~ at_or_after (walk E sc ch) i stop
  | _ => False
  end.

(** Run number [n] was the last to do so. *)
Definition stamped_in (h : list event) (s : nat) (n : Z) : Prop :=
  exists h1 e h2, h = h1 ++ e :: h2 /\ n = count h1 /\ stamps s e /\
                  forall e', In e' h2 -> ~ stamps s e'.

(** Run number [n] was the last run of cell [c]; -1: it was never run. *)
Definition last_run (h : list event) (c : nat) (n : Z) : Prop :=
  (exists h1 h2, h = h1 ++ Begin c :: h2 /\ n = (count h1 + 1)%Z /\ ~ In (Begin c) h2) \/
  (~ In (Begin c) h /\ n = (-1)%Z).

(** The previous run of the cell that runs. *)
Definition previous_run (h : list event) (p : Z) : Prop :=
  (exists h1 c h2, h = h1 ++ Begin c :: h2 /\ last_run h1 c p /\
                   forall e, In e h2 -> ~ is_begin e) \/
  ((forall e, In e h -> ~ is_begin e) /\ p = (-1)%Z).

(** The run at which the frontend last ended a round of reactive executions; -1: never. *)
Definition cleaned (h : list event) (k : Z) : Prop :=
  (exists h1 h2, h = h1 ++ Cleanup :: h2 /\ k = count h1 /\
                 forall e, In e h2 -> ~ is_cleanup e) \/
  ((forall e, In e h -> ~ is_cleanup e) /\ k = (-1)%Z).

(** * Cascades *)

(** Symbol [t] is a part of [s] or of something around [s]. *)
Definition member (G : graph) (s t : nat) : Prop := In t (g_members G s).
Definition part_or_around (G : graph) (s t : nat) : Prop :=
  exists c, (c = s \/ In c (g_containing G s)) /\ reach (member G) c t.
(** … or of something around that, and so on. *)
Definition connected (G : graph) (s t : nat) : Prop :=
  exists c, reach (fun a b => In b (g_containing G a)) s c /\ reach (member G) c t.
(** Symbol [t] is a part of [s], or [s] of [t]. *)
Definition part_or_whole (G : graph) (s t : nat) : Prop :=
  reach (member G) s t \/ reach (member G) t s.

(** The value of [s] comes, in run [n], from something marked `$$`: it was stored by a statement
    with such a mark on either side, or it was computed from a symbol to which this happened after
    the previous run of the cell and after the last round ended. [R]: which other symbols stand for
    a symbol that is used. *)
Inductive cascades (R : graph -> nat -> nat -> Prop) : list event -> nat -> Z -> Prop :=
| c_load h G u : goes_through u -> u_casc u = Some true ->
    cascades R (h ++ [Update G u]) (u_sym u) (count h)
| c_from h G u d t m p k : goes_through u -> u_casc u = Some false ->
    In d (u_deps u) -> d <> u_sym u -> R G d t ->
    (t = u_sym u -> ~ overwritten t (Update G u)) ->
    cascades R h t m -> previous_run h p -> cleaned h k -> (p < m)%Z -> (k < m)%Z ->
    cascades R (h ++ [Update G u]) (u_sym u) (count h)
| c_store h E sc ch s : marks_deep (walk E sc ch) s ddollar ->
    cascades R (h ++ [Mark E sc ch]) s (count h)
| c_keep h e s m : cascades R h s m -> ~ overwritten s e ->
    cascades R (h ++ [e]) s m.

(** What is around and in the symbols in use is among them. *)
Definition closed (G : graph) : Prop :=
  forall s t, In s (g_syms G) -> In t (g_members G s) \/ In t (g_containing G s) ->
    In t (g_syms G).
(** What is around something around a symbol is around the symbol. *)
Definition nested (G : graph) : Prop :=
  forall s c d, In c (g_containing G s) -> In d (g_containing G c) ->
    d = s \/ In d (g_containing G s).
Definition nested_event (e : event) : Prop :=
  match e with Update G _ => nested G | _ => True end.
Definition graph_ok (e : event) : Prop :=
  match e with
  | Update G u => closed G /\ forall d, In d (u_deps u) -> In d (g_syms G)
  | _ => True
  end.
