(** What the symbols for the elements of a list should be. *)
Require Import List ZArith Bool Arith.
Import ListNotations.
Require Import Verif.Base Verif.ElemModel.
Local Open Scope Z_scope.

(** Each symbol belongs to an element and describes it. *)
Definition mirrors (t : st) : Prop :=
  forall i y, zget (t_syms t) i = Some y -> 0 <= i /\ nth_error (t_list t) (Z.to_nat i) = Some (s_obj y).
(** Each element has a symbol that describes it. *)
Definition covers (t : st) : Prop :=
  forall i o, nth_error (t_list t) i = Some o ->
    exists y, zget (t_syms t) (Z.of_nat i) = Some y /\ s_obj y = o.
(** No symbol for a negative position. *)
Definition natural (t : st) : Prop := forall i y, zget (t_syms t) i = Some y -> 0 <= i.

(** Positions that are understood. [inside]: for [insert], from 0 to the length. *)
Definition inside (l : list nat) (o : op) : Prop :=
  match o with
  | Insert pos _ plain => 0 <= pos <= len l /\ plain = true
  | Pop (Some i) | Del i => -1 <= i
  | _ => True
  end.
Definition no_bare_pop (o : op) : Prop := o <> Pop None.

(** All operations are [inside], each for the list that it meets. *)
Fixpoint all_inside (eqb : nat -> nat -> bool) (os : list op) (l : list nat) : Prop :=
  match os with
  | [] => True
  | o :: os => inside l o /\ all_inside eqb os (match exec eqb o l with Some l' => l' | None => l end)
  end.

(** Where an element goes when the operation succeeds; [None]: it is removed. *)
Definition goes (eqb : nat -> nat -> bool) (o : op) (l : list nat) (i : Z) : option Z :=
  let without j := if i <? j then Some i else if i =? j then None else Some (i - 1) in
  let back j := if j <? 0 then j + len l else j in
  match o with
  | Append _ | Extend _ => Some i
  | Insert pos _ _ => if i <? pos then Some i else Some (i + 1)
  | Remove v => match find eqb v l with Some j => without (Z.of_nat j) | None => Some i end
  | Pop None => without (len l - 1)
  | Pop (Some j) | Del j => without (back j)
  | Clear => None
  end.

(** Operations that only add elements at the end. *)
Definition adds (o : op) : Prop := match o with Append _ | Extend _ => True | _ => False end.
