(** Which functions run when a cell runs, and what they read. *)
From Coq Require Import List Arith Bool.
From Verif Require Import Base ChainModel.
Import ListNotations.

(** The symbols that a reference goes through, such as a and a.b for [a.b]. *)
Definition through (b : ref) : list nat := map (fun p => fst (fst p)) (found b).

(** [runs w l n i]: symbol [i] is called in statement [n] of the cell, or in a function that runs
    from there. *)
Inductive runs (w : world) (l : list cell_ref) (n : nat) : nat -> Prop :=
| runs_cell b i : In (b, n) l -> In i (through b) -> called w i = true -> runs w l n i
| runs_body i f b j : runs w l n i -> dget (defs w) i = Some f -> In b (refs f) ->
    In j (through b) -> called w j = true -> runs w l n j.

(** A reference of the cell; or of the body of a function that runs. *)
Definition in_cell (l : list cell_ref) (b : ref) : Prop := exists n, In (b, n) l.
Definition in_body (w : world) (l : list cell_ref) (f : fn) (b : ref) : Prop :=
  exists n i, runs w l n i /\ dget (defs w) i = Some f /\ In b (refs f).

(** Reading it through variables that are not local to the cell or to the function. *)
Definition reads (w : world) (l : list cell_ref) (i : nat) : Prop :=
  (exists b, in_cell l b /\ killed b = false /\ In i (through b)) \/
  (exists f b, in_body w l f b /\ killed b = false /\ In i (through b)).

(** Functions that are found under local names were defined when this cell ran last. *)
Definition locals_current (w : world) (l : list cell_ref) : Prop :=
  (forall b i, in_cell l b -> killed b = true -> In i (through b) -> called w i = true ->
     here w i = true) /\
  (forall f b i, in_body w l f b -> killed b = true -> In i (through b) -> called w i = true ->
     here w i = true).

(** What [i] is asked for is there, and is no method that changes it. *)
Definition safe (w : world) (i : nat) : Prop :=
  if next_called w i then is_mutating w i = false else missing w i = false.

(** Reactivity. [cascades w l i]: [i] is called with cascading reactivity, on its own account or
    because the function that calls it is. [hot w l i]: [i] is called reactively. *)
Definition casc_itself (w : world) (b : ref) (i : nat) (c : bool) : Prop :=
  c = true \/ (killed b = false /\ sym_cascading w i = true).
Definition hot_itself (w : world) (b : ref) (i : nat) (r : bool) : Prop :=
  (r = true /\ is_lhs_ref w i = false) \/ (killed b = false /\ deep_reactive w i = true).

Inductive cascades (w : world) (l : list cell_ref) : nat -> Prop :=
| c_cell b i r c : in_cell l b -> In (i, r, c) (found b) -> called w i = true ->
    casc_itself w b i c -> cascades w l i
| c_body f b i r c : in_body w l f b -> In (i, r, c) (found b) -> called w i = true ->
    casc_itself w b i c -> cascades w l i
| c_chain i f b j : cascades w l i -> dget (defs w) i = Some f -> In b (refs f) ->
    In j (through b) -> called w j = true -> cascades w l j.

Inductive hot (w : world) (l : list cell_ref) : nat -> Prop :=
| h_casc i : is_blocking w i = false -> cascades w l i -> hot w l i
| h_cell b i r c : in_cell l b -> In (i, r, c) (found b) -> called w i = true ->
    is_blocking w i = false -> hot_itself w b i r -> hot w l i
| h_body f b i r c : in_body w l f b -> In (i, r, c) (found b) -> called w i = true ->
    is_blocking w i = false -> hot_itself w b i r -> hot w l i
| h_chain i f b j : hot w l i -> dget (defs w) i = Some f -> In b (refs f) ->
    In j (through b) -> called w j = true -> is_blocking w j = false -> is_lhs_ref w j = false ->
    hot w l j.

(** The last symbol of a reference. *)
Definition ends (b : ref) (i : nat) : Prop := exists l, through b = l ++ [i].
