(** What is to be as before after a run, and what holds between runs. *)

From Coq Require Import List Bool Arith.
From Verif Require Import Base RunModel.
Import ListNotations.

(** Classes with one base class at most; the three places that are patched beside
    tracer classes have none. *)
Definition single_inheritance (O : outside) : Prop :=
  (forall x, exists r, mro O x = x :: r) /\ (forall x, NoDup (mro O x)) /\
  (forall x y, In y (mro O x) -> exists pre, mro O x = pre ++ mro O y) /\
  mro O PYC = [PYC] /\ mro O BASE = [BASE] /\ mro O SHELL = [SHELL].

(** No tracer comes before one that is derived from it (or before itself). *)
Definition derived_first (O : outside) (ts : list nat) : Prop :=
  ForallOrdPairs (fun t u => ~ In t (mro O u)) ts.

Definition tracers_only (ts : list nat) : Prop := forall t, In t ts -> t <> PYC /\ t <> BASE /\ t <> SHELL.

(** The tracers of a run. *)
Definition tracers_of (O : outside) (H : how) (w : world) : list nat :=
  with_manager O (wanted O (negb (capturing H)) (hk w)).

(** The transformers in effect. *)
Definition ast_transformers (P : patched) : option (list nat) := dget (lists P) (ast_at P).
Definition input_transformers (P : patched) : option (list nat) := dget (lists P) (input_at P).

(** What one sees of patched things: every attribute of every class, and the
    transformers. *)
Definition looks_same (O : outside) (P P' : patched) : Prop :=
  (forall c a, lookup O P' c a = lookup O P c a) /\
  ast_transformers P' = ast_transformers P /\
  input_transformers P' = input_transformers P.

(** The cell does not touch what is patched (it may make lists of its own). *)
Definition untouched (P P' : patched) : Prop :=
  (forall c a, own P' c a = own P c a) /\
  (forall n l, dget (lists P) n = Some l -> dget (lists P') n = Some l) /\
  ast_at P' = ast_at P /\ input_at P' = input_at P.

Definition leaves_alone (cell : M nat) : Prop :=
  forall w w' r, cell w = (w', r) -> untouched (pt w) (pt w').

(** Everything that is patched is there. *)
Definition complete (O : outside) (P : patched) : Prop :=
  (forall t, lookup O P t PASSES <> None /\ lookup O P t CHECKER <> None) /\
  lookup O P PYC EXEC <> None /\ lookup O P PYC EVAL <> None /\
  lookup O P BASE EXEC <> None /\ lookup O P BASE EVAL <> None /\
  lookup O P SHELL LINE <> None /\ lookup O P SHELL CELL <> None /\
  ast_transformers P <> None /\ input_transformers P <> None.

(** Between runs no tracer is on and the path has no entry of pyccolo. *)
Definition foreign (m : list entry) : Prop := forall e, In e m -> is_finder e = false.
Definition quiet (w : world) : Prop := enabled (hk w) = [] /\ foreign (meta (hk w)).

(** Before the first run. *)
Definition start (O : outside) (w : world) : Prop :=
  complete O (pt w) /\ quiet w /\ saved (hk w) = [] /\ callbacks (hk w) = [].

(** What a cell may do to the hooks: register and deregister tracers, which marks
    them for cleanup, and change what is on the path behind pyccolo's entries. *)
Definition polite (cell : M nat) : Prop :=
  leaves_alone cell /\
  forall w w' r, cell w = (w', r) ->
    (exists x, r = Done x) /\
    enabled (hk w') = enabled (hk w) /\ callbacks (hk w') = callbacks (hk w) /\
    saved (hk w') = saved (hk w) /\ made (hk w') = made (hk w) /\
    (pending (hk w') = true \/
     (pending (hk w') = pending (hk w) /\ registered (hk w') = registered (hk w))) /\
    (forall fs m, meta (hk w) = fs ++ m -> (forall e, In e fs -> is_finder e = true) -> foreign m ->
       exists m', meta (hk w') = fs ++ m' /\ foreign m').

(** The world once [ret] is unbound. *)
Definition begun (w : world) : world := mkWorld (pt w) (hk w) None (kept w).

(** A cell that looks around. *)
Definition look : M world := fun w => (w, Done w).

(** What is seen by a cell run in [w]: [d]. *)
Definition seen (O : outside) (syntax : bool) (w d : world) : Prop :=
  exists w', tracing_context no_faults O false true syntax look w = (w', Done d).

(** Names of registered tracers are different. *)
Definition names_differ (O : outside) (l : list nat) : Prop :=
  NoDup (map (name_of O) l).

(** Faults come after the cell only, and are exceptions. *)
Definition late (F : faults) : Prop :=
  forall p e, F p = Some e -> caught e = true /\ (p = PFinish \/ p = PAfter).
