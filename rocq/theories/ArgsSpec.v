(** How Python binds the arguments of a call to parameters. *)
From Coq Require Import List Arith Bool.
From Verif Require Import Base ArgsModel.
Import ListNotations.

(** The parameters that take positional arguments. A method called on an instance gets that
    instance as its first. *)
Definition takers (method : bool) (d : fundef) : list nat :=
  if method then tl (d_pos d ++ d_args d) else d_pos d ++ d_args d.

(** Argument number [i] of the call is the expression [e]; nothing before it is starred. *)
Definition argument_is (c : call) (i e : nat) : Prop :=
  nth_error (c_args c) i = Some (Plain e) /\
  forall j, j < i -> exists e', nth_error (c_args c) j = Some (Plain e').

Definition by_position (method : bool) (d : fundef) (c : call) (p e : nat) : Prop :=
  exists i, nth_error (takers method d) i = Some p /\ argument_is c i e.

Definition by_keyword (d : fundef) (c : call) (p e : nat) : Prop :=
  In (Some p, e) (c_keywords c) /\ In p (d_args d ++ d_kwonly d).

(** [e] is the default of [p]: the defaults belong to the last positional parameters. *)
Definition default_of (d : fundef) (p e : nat) : Prop :=
  exists i, nth_error (d_defaults d) i = Some e /\
    nth_error (d_pos d ++ d_args d)
      (length (d_pos d ++ d_args d) - length (d_defaults d) + i) = Some p.

(** Parameter [p] gets the value of expression [e]. *)
Definition receives (method : bool) (d : fundef) (c : call) (p e : nat) : Prop :=
  by_position method d c p e \/ by_keyword d c p e \/
  (default_of d p e /\ In p (takers method d) /\
   (forall e', ~ by_position method d c p e') /\ (forall e', ~ by_keyword d c p e')).

(** Definitions that Python accepts. *)
Definition valid_def (d : fundef) : Prop :=
  NoDup (d_pos d ++ definition_args d) /\ length (d_defaults d) <= length (d_pos d ++ d_args d).

(** Calls that Python accepts for [d], without starred arguments: every argument finds a parameter
    and no parameter is given twice. *)
Definition valid_call (method : bool) (d : fundef) (c : call) : Prop :=
  (forall a, In a (c_args c) -> exists e, a = Plain e) /\
  (forall k, In k (c_keywords c) -> exists p, fst k = Some p /\
     (d_kwarg d = None -> In p (d_args d ++ d_kwonly d))) /\
  (d_vararg d = None -> length (c_args c) <= length (takers method d)) /\
  NoDup (map fst (c_keywords c)) /\
  (forall p e e', by_position method d c p e -> ~ by_keyword d c p e').

(** [method] is what the code takes it for: whether the first parameter is called "self" and has
    no default. *)
Definition self_first (method : bool) (d : fundef) : Prop :=
  (method = true <->
   exists ps, d_pos d ++ d_args d = 0 :: ps /\ length (d_defaults d) <= length ps).

(** Only parameters of the ordinary kind. *)
Definition ordinary (d : fundef) : Prop :=
  d_pos d = [] /\ d_kwonly d = [] /\ d_vararg d = None /\ d_kwarg d = None.

(** If any parameter has a default, only such parameters are given by keyword. *)
Definition only_defaults_named (d : fundef) (c : call) : Prop :=
  d_defaults d <> [] -> forall p e, by_keyword d c p e -> exists e', default_of d p e'.

(** Parameters with defaults are given by keyword, and only they if there are any. *)
Definition conventional (method : bool) (d : fundef) (c : call) : Prop :=
  (forall p e e', default_of d p e -> ~ by_position method d c p e') /\ only_defaults_named d c.

(** What the variadic parameters collect. *)
Definition collects (method : bool) (d : fundef) (c : call) (p e : nat) : Prop :=
  (d_vararg d = Some p /\ exists i, length (takers method d) <= i /\ argument_is c i e) \/
  (d_kwarg d = Some p /\ exists q, In (Some q, e) (c_keywords c) /\ ~ In q (d_args d ++ d_kwonly d)).
