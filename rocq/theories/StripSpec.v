(** What an uninstrumented copy of a function should be. *)
Require Import List Bool Arith.
Import ListNotations.
Require Import Verif.Base Verif.StripModel.

(** ** What a function runs *)

(** [g] is what a global variable, or a variable of a closure, that [o] uses, refers to. *)
Definition refers (h : heap) (o g : nat) : Prop :=
  exists f, dget (fns h) o = Some f /\
    ((exists x, In x (co f) /\ dget (ns_of h (ns f)) x = Some g) \/
     (exists x c, In (x, c) (cells f) /\ dget (cts h) c = Some g)).

Inductive reaches (h : heap) (o : nat) : nat -> Prop :=
| reaches_refl : reaches h o o
| reaches_step g g' : reaches h o g -> refers h g g' -> reaches h o g'.

(** Neither the object nor anything it refers to, directly or not, is instrumented. *)
Definition clean (h : heap) (o : nat) : Prop :=
  forall g f, reaches h o g -> dget (fns h) g = Some f -> instr f = false.

(** ** What a function does

    Its code, with what its variables refer to, to any depth; instrumented or not. *)
Inductive tree := Cut | Value (o : nat)
  | Code (c : nat) (globals closure : list (nat * option tree)).

Fixpoint view (n : nat) (h : heap) (o : nat) : tree :=
  match n with
  | 0 => Cut
  | S n =>
      match dget (fns h) o with
      | None => Value o
      | Some f =>
          Code (code f)
            (map (fun x => (x, option_map (view n h) (dget (ns_of h (ns f)) x))) (co f))
            (map (fun p => (fst p, option_map (view n h) (dget (cts h) (snd p)))) (cells f))
      end
  end.

(** ** Heaps *)

(** Numbers that are used are not those that are used next. *)
Definition sound (h : heap) : Prop :=
  (forall o f, dget (fns h) o = Some f -> o < nobj h /\ ns f < nns h /\
     forall x c, In (x, c) (cells f) -> c < ncell h) /\
  (forall s d x v, dget (nss h) s = Some d -> s < nns h /\ (dget d x = Some v -> v < nobj h)) /\
  (forall c v, dget (cts h) c = Some v -> c < ncell h /\ v < nobj h).

(** ** Functions that use each other without sharing *)

Section Shape.
Variables (h : heap) (src : nat -> source).

(** Nothing is known of its source. *)
Definition unknown (o : nat) : Prop := deco (src o) = None /\ alts (src o) = [].

(** The first source works. *)
Definition works (o : nat) : Prop :=
  deco (src o) = Some true \/ deco (src o) = None /\ exists l, alts (src o) = true :: l.

(** The global variables of a function that are defined. *)
Definition globals (f : fn) : list nat :=
  flat_map (fun x => match dget (ns_of h (ns f)) x with Some g => [g] | None => [] end) (co f).

(** [grows o S]: [S] are the functions with a source that [o] uses; none of them is used in more
    than one place, or by itself. What has no source runs no instrumented code. No closures. *)
Inductive grows : nat -> list nat -> Prop :=
| grows_leaf o : unknown o -> clean h o -> grows o []
| grows_fun o f Ss : works o -> dget (fns h) o = Some f -> cells f = [] ->
    all_grow (globals f) Ss -> NoDup (o :: concat Ss) -> grows o (o :: concat Ss)
with all_grow : list nat -> list (list nat) -> Prop :=
| grow_nil : all_grow [] []
| grow_cons o os S Ss : grows o S -> all_grow os Ss -> all_grow (o :: os) (S :: Ss).
End Shape.
