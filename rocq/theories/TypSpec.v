(** What it means for a value to have a type, and what the text of an annotation
    means.  Nothing here refers to how annotations are computed. *)

From Coq Require Import List Bool Arith ZArith String Permutation.
From Verif Require Import TypModel.
Import ListNotations.
Local Open Scope string_scope.
Local Open Scope nat_scope.
Local Open Scope list_scope.

(** A value has a type.  As for static type checkers, an integer may stand where
    a float is asked for. *)
Inductive has_type : value -> ty -> Prop :=
| H_none : has_type VNone (TCls CNone)
| H_int z : has_type (VInt z) (TCls CInt)
| H_int_float z : has_type (VInt z) (TCls CFloat)
| H_float z : has_type (VFloat z) (TCls CFloat)
| H_str s : has_type (VStr s) (TCls CStr)
| H_inst u : has_type (VInst u) (TCls (CUser u))
| H_class c : has_type (VClass c) (TApp HType [TCls c])
| H_list_any l : has_type (VList l) (TBare HList)
| H_list l t : (forall x, In x l -> has_type x t) -> has_type (VList l) (TApp HList [t])
| H_set_any l : has_type (VSet l) (TBare HSet)
| H_set l t : (forall x, In x l -> has_type x t) -> has_type (VSet l) (TApp HSet [t])
| H_dict_any l : has_type (VDict l) (TBare HDict)
| H_dict l k t :
    (forall p, In p l -> has_type (fst p) k) -> (forall p, In p l -> has_type (snd p) t) ->
    has_type (VDict l) (TApp HDict [k; t])
| H_tuple_any l : has_type (VTuple l) (TBare HTuple)
| H_tuple l ts : Forall2 has_type l ts -> has_type (VTuple l) (TApp HTuple ts)
| H_tuple_of l t :
    (forall x, In x l -> has_type x t) -> has_type (VTuple l) (TApp HTuple [t; TEll])
| H_union v ts t : In t ts -> has_type v t -> has_type v (TApp HUnion ts).

(** The types a type is a choice of. *)
Definition choices (t : ty) : list ty :=
  match t with TApp HUnion ts => ts | _ => [t] end.

(** [t] names the types that occur among the values, no more and no fewer, where
    [E] says of which single type a value is: every value is of one of the
    choices (an integer of [float] if need be), every choice is there for some
    value, and [int] is not offered beside [float]. *)
Definition names_exactly (E : value -> ty -> Prop) (l : list value) (t : ty) : Prop :=
  (forall x, In x l ->
     exists a, In a (choices t) /\
       (E x a \/ (a = TCls CFloat /\ exists z, x = VInt z))) /\
  (forall a, In a (choices t) -> exists x, In x l /\ E x a) /\
  ~ (In (TCls CInt) (choices t) /\ In (TCls CFloat) (choices t)).

(** [t] is the precise type of a value: its own class for what is not a
    container, an unsubscripted alias only for an empty container, else exactly
    the types of the contents. *)
Inductive exact : value -> ty -> Prop :=
| X_none : exact VNone (TCls CNone)
| X_int z : exact (VInt z) (TCls CInt)
| X_float z : exact (VFloat z) (TCls CFloat)
| X_str s : exact (VStr s) (TCls CStr)
| X_inst u : exact (VInst u) (TCls (CUser u))
| X_class c : exact (VClass c) (TApp HType [TCls c])
| X_list_empty : exact (VList []) (TBare HList)
| X_list l t : l <> [] -> names_exactly exact l t -> exact (VList l) (TApp HList [t])
| X_set_empty : exact (VSet []) (TBare HSet)
| X_set l t : l <> [] -> names_exactly exact l t -> exact (VSet l) (TApp HSet [t])
| X_dict_empty : exact (VDict []) (TBare HDict)
| X_dict l k t :
    l <> [] -> names_exactly exact (map fst l) k -> names_exactly exact (map snd l) t ->
    exact (VDict l) (TApp HDict [k; t])
| X_tuple_empty : exact (VTuple []) (TBare HTuple)
| X_tuple l ts :
    l <> [] -> List.length l <= 3 -> Forall2 exact l ts ->
    exact (VTuple l) (TApp HTuple ts)
| X_tuple_of l t :
    3 < List.length l -> names_exactly exact l t ->
    exact (VTuple l) (TApp HTuple [t; TEll]).

(** A Python that iterates over sets in any order, and whose cache of aliases
    answers with an equal alias. *)
Definition fair (W : world) : Prop :=
  (forall l, Permutation l (iter W l)) /\ (forall t, ty_eq t (cached W t) = true).

(** A cache that does not answer with an alias spelled differently. *)
Definition plain_cache (W : world) : Prop := forall t, cached W t = t.

(** What a name stands for to whoever reads a text. *)
Inductive meaning := MHead (h : head) | MOptional | MClass (c : cls).

(** The names in sight, plain or after a module. *)
Definition scope := option string -> string -> option meaning.

(** What the text of an annotation means: [None] is the type of [None], other
    names are looked up, aliases may be subscripted with texts between
    brackets and commas. *)
Inductive means (G : scope) : list tok -> ty -> Prop :=
| E_none : means G [Nm None "None"] (TCls CNone)
| E_class m n c :
    ~ (m = None /\ n = "None") -> G m n = Some (MClass c) -> means G [Nm m n] (TCls c)
| E_bare m n h :
    ~ (m = None /\ n = "None") -> G m n = Some (MHead h) -> h <> HUnion ->
    means G [Nm m n] (TBare h)
| E_app m n h s ts :
    G m n = Some (MHead h) -> means_all G h s ts ->
    means G (Nm m n :: LB :: s ++ [RB]) (TApp h ts)
| E_optional m n s t :
    G m n = Some MOptional -> means G s t ->
    means G (Nm m n :: LB :: s ++ [RB]) (TApp HUnion [t; TCls CNone])
with means_all (G : scope) : head -> list tok -> list ty -> Prop :=
| E_one h s t : means G s t -> means_all G h s [t]
| E_more h s t s' ts :
    means G s t -> means_all G h s' ts -> means_all G h (s ++ CM :: s') (t :: ts)
| E_of s t : means G s t -> means_all G HTuple (s ++ [CM; Nm None "..."]) [t; TEll].

(** The aliases are in sight, as after [from typing import *]. *)
Definition knows_typing (G : scope) : Prop :=
  (forall h, G None (head_name h) = Some (MHead h)) /\
  G None "Optional" = Some MOptional /\ G None "..." = None.

(** A class is in sight under the name that is written for it: by its plain name
    if it is built in or from the notebook, after its module if it is not; and it
    is not called "None". *)
Definition sees_class (G : scope) (c : cls) : Prop :=
  c_name c <> "None" /\
  G (if String.eqb (c_mod c) "typing" || String.eqb (c_mod c) "builtins"
        || String.eqb (c_mod c) "__main__" then None else Some (c_mod c)) (c_name c)
  = Some (MClass c).

(** The classes of the parts of a value. *)
Inductive class_in : cls -> value -> Prop :=
| I_inst u : class_in (CUser u) (VInst u)
| I_class c : class_in c (VClass c)
| I_int z : class_in CInt (VInt z)
| I_float z : class_in CFloat (VFloat z)
| I_str s : class_in CStr (VStr s)
| I_list c x l : In x l -> class_in c x -> class_in c (VList l)
| I_set c x l : In x l -> class_in c x -> class_in c (VSet l)
| I_tuple c x l : In x l -> class_in c x -> class_in c (VTuple l)
| I_key c p l : In p l -> class_in c (fst p) -> class_in c (VDict l)
| I_val c p l : In p l -> class_in c (snd p) -> class_in c (VDict l).

(** A name stands for a class only if the class is not nested in another: a nested
    one is reached as an attribute. *)
Definition no_nested (G : scope) : Prop :=
  forall m n u, G m n = Some (MClass (CUser u)) -> u_outer u = [].
