(** How Python reads such a name. *)
From Coq Require Import String Ascii List ZArith Bool DecimalString.
From Verif Require Import NameModel.
Import ListNotations.
Local Open Scope string_scope.

(** A step of a reference: an attribute ([false]) or a subscript ([true]). *)
Definition step : Type := bool * name.

Definition letter (c : ascii) : bool :=
  let n := nat_of_ascii c in
  ((Nat.leb 65 n && Nat.leb n 90) || (Nat.leb 97 n && Nat.leb n 122) || Nat.eqb n 95)%bool.
Definition identifier (s : string) : bool :=
  match s with
  | EmptyString => false
  | String c r => (letter c && all (fun d => (letter d || (Nat.leb 48 (nat_of_ascii d) && Nat.leb (nat_of_ascii d) 57))%bool) r)%bool
  end.

(** The reader: names, attributes, and integers as subscripts.  An identifier as a
    subscript is a variable, so that it is no constant reference. *)
Inductive mode := Ident | Sub | After.
Fixpoint scan (m : mode) (acc s : string) : option (list step) :=
  match s with
  | EmptyString =>
      match m with
      | Ident => if identifier acc then Some [(false, NStr acc)] else None
      | Sub => None
      | After => Some []
      end
  | String c r =>
      match m with
      | Ident =>
          if (c =? ".")%char then
            if identifier acc then option_map (cons (false, NStr acc)) (scan Ident "" r) else None
          else if (c =? "[")%char then
            if identifier acc then option_map (cons (false, NStr acc)) (scan Sub "" r) else None
          else scan Ident (acc ++ String c "") r
      | Sub =>
          if (c =? "]")%char then
            match NilZero.int_of_string acc with
            | Some d => option_map (cons (true, NInt (Z.of_int d))) (scan After "" r)
            | None => None
            end
          else scan Sub (acc ++ String c "") r
      | After =>
          if (c =? ".")%char then scan Ident "" r
          else if (c =? "[")%char then scan Sub "" r
          else None
      end
  end.
Definition read (s : string) : option (list step) := scan Ident "" s.

(** Steps by attributes with ordinary names and by integers. *)
Definition ordinary (st : step) : Prop :=
  match st with
  | (false, NStr s) => identifier s = true
  | (true, NInt _) => True
  | _ => False
  end.

(** The namespace that a step leads to: it has the step's name, and its object was
    first bound in the way of the step, or the step is an integer that is not negative. *)
Definition named (n : ns) (st : step) : Prop :=
  scope_name n = show (snd st) /\
  (first_sub n = fst st \/ match snd st with NInt z => (0 <= z)%Z | NStr _ => False end).
