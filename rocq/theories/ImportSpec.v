(** What C104 means. *)
From Coq Require Import List Arith Bool.
From Verif Require Import Base ImportModel.
Import ListNotations.

(** What Python binds: the name and its object.  [import a.b] binds [a]; the
    object that [from p import n] gives is [att p n]. *)
Definition binds (w : world) (att : list nat -> nat -> option nat) (i : stmt) : option (nat * nat) :=
  match i with
  | Import [] _ => None
  | Import (c :: r) None => option_map (fun o => (c, o)) (sysmods w [c])
  | Import p (Some a) => option_map (fun o => (a, o)) (sysmods w p)
  | From p n a => option_map (fun o => (match a with Some a => a | None => n end, o)) (att p n)
  end.

Definition bind (env : nat -> option nat) (x o : nat) : nat -> option nat :=
  fun y => if y =? x then Some o else env y.

(** The variables after the statement. *)
Definition after (w : world) (att : list nat -> nat -> option nat) (i : stmt)
    (env : nat -> option nat) : nat -> option nat :=
  match binds w att i with Some (x, o) => bind env x o | None => env end.

(** The program and the tracer, over a list of import statements; one that binds
    nothing has raised. *)
Fixpoint session (w : world) (att : list nat -> nat -> option nat) (is : list stmt)
    (env : nat -> option nat) (s : st) : (nat -> option nat) * st :=
  match is with
  | [] => (env, s)
  | i :: is =>
      match binds w att i with
      | None => session w att is env s
      | Some _ => let env1 := after w att i env in session w att is env1 (trace w env1 i s)
      end
  end.

(** The symbol of a variable. *)
Definition var (s : st) (x : nat) : option nat := get s (Frame, Bare x).

(** All variables that have a symbol have the object of the symbol. *)
Definition in_sync (env : nat -> option nat) (s : st) : Prop :=
  forall x o, var s x = Some o -> env x = Some o.

(** A statement is plain: under [as], or [import a] -- no dot without [as]. *)
Definition simple (i : stmt) : Prop :=
  match i with Import (_ :: _ :: _) None => False | _ => True end.

(** The package under whose name a symbol is made without [as]. *)
Definition top (w : world) (i : stmt) : option nat :=
  match as_name i, module_of w i with
  | None, Some m => match name_of w m with c :: _ => Some c | [] => None end
  | _, _ => None
  end.

(** A statement does no harm if that package is what its name stands for when
    the statement is done, and, for [import a.b], if [a] was nothing else
    before. *)
Definition harmless (w : world) (env env1 : nat -> option nat) (i : stmt) : Prop :=
  (forall c, top w i = Some c -> forall o, sysmods w [c] = Some o -> env1 c = Some o) /\
  (forall c r, i = Import (c :: r) None -> r <> [] -> env c = None \/ env c = sysmods w [c]).

Fixpoint all_harmless (w : world) (att : list nat -> nat -> option nat) (is : list stmt)
    (env : nat -> option nat) : Prop :=
  match is with
  | [] => True
  | i :: is => harmless w env (after w att i env) i /\ all_harmless w att is (after w att i env)
  end.
