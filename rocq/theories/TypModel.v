(** Type annotations derived from values: [get_type_annotation] and
    [make_annotation_string], core/ipyflow/data_model/utils/annotation_utils.py.

    Values are finite trees: a list that contains itself, on which the code
    recurses without end, is not represented.  Of a class only what the code
    reads of it is kept: its module, its own name, and (for the statements
    only) the names of the classes it is nested in.  Python 3.10 to 3.13 is
    taken for what [typing]'s objects answer to [__name__], [__args__] and
    [==]. *)

From Coq Require Import List Bool Arith ZArith String.
Import ListNotations.
Local Open Scope string_scope.
Local Open Scope nat_scope.
Local Open Scope list_scope.

(** A class that is none of the primitive types of annotation_utils.py 5: what
    [__module__], the enclosing part of [__qualname__], and [__name__] hold (read
    at annotation_utils.py 85-86, 101-103; the enclosing part is not read by the
    code). *)
Record user := mkUser { u_mod : string; u_outer : list string; u_name : string }.

(** annotation_utils.py 5: [_PRIMITIVE_TYPES], and all other classes. *)
Inductive cls := CInt | CFloat | CStr | CNone | CUser (u : user).

Fixpoint strs_eqb (a b : list string) : bool :=
  match a, b with
  | [], [] => true
  | x :: a', y :: b' => String.eqb x y && strs_eqb a' b'
  | _, _ => false
  end.

Definition cls_eqb (a b : cls) : bool :=
  match a, b with
  | CInt, CInt | CFloat, CFloat | CStr, CStr | CNone, CNone => true
  | CUser u, CUser w =>
      String.eqb (u_mod u) (u_mod w) && strs_eqb (u_outer u) (u_outer w)
      && String.eqb (u_name u) (u_name w)
  | _, _ => false
  end.

(** [__module__] and [__name__] of a class (annotation_utils.py 85-86, 101). *)
Definition c_mod (c : cls) : string :=
  match c with CUser u => u_mod u | _ => "builtins" end.

Definition c_name (c : cls) : string :=
  match c with
  | CInt => "int" | CFloat => "float" | CStr => "str" | CNone => "NoneType"
  | CUser u => u_name u
  end.

(** annotation_utils.py 6-11: [_CONTAINER_TYPES]; with [Type] (line 77) and
    [Union] (lines 33, 35). *)
Inductive head := HList | HSet | HDict | HTuple | HType | HUnion.

Definition head_eqb (a b : head) : bool :=
  match a, b with
  | HList, HList | HSet, HSet | HDict, HDict | HTuple, HTuple
  | HType, HType | HUnion, HUnion => true
  | _, _ => false
  end.

Definition is_union (h : head) : bool := head_eqb h HUnion.

(** The values annotations are made for, by [type(obj)] (annotation_utils.py
    53-79).  [VInst u] is an object whose type is the class [u], which is none
    of the primitive and container types and not [type]; a class whose metaclass
    is not [type] is a [VInst] of its metaclass. *)
Inductive value :=
| VNone
| VInt (z : Z)
| VFloat (z : Z)
| VStr (s : string)
| VInst (u : user)
| VClass (c : cls)
| VList (l : list value)
| VSet (l : list value)
| VTuple (l : list value)
| VDict (l : list (value * value)).

(** The annotations: classes, unsubscripted and subscripted aliases of
    [typing] ([__args__] is the argument list, absent of an unsubscripted one),
    and the [...] in [Tuple[t, ...]]. *)
Inductive ty :=
| TCls (c : cls)
| TBare (h : head)
| TApp (h : head) (args : list ty)
| TEll.

(** [==] of [typing]'s objects: two unions are equal when they have the same
    set of alternatives, anything else when it has equal arguments in order. *)
Fixpoint ty_eq (a b : ty) {struct a} : bool :=
  match a, b with
  | TCls c, TCls d => cls_eqb c d
  | TBare h, TBare g => head_eqb h g
  | TEll, TEll => true
  | TApp h xs, TApp g ys =>
      head_eqb h g &&
      if is_union h then
        forallb (fun x => existsb (fun y => ty_eq x y) ys) xs
        && forallb (fun y => existsb (fun x => ty_eq x y) xs) ys
      else
        (fix all2 xs ys {struct xs} :=
           match xs, ys with
           | [], [] => true
           | x :: xs', y :: ys' => ty_eq x y && all2 xs' ys'
           | _, _ => false
           end) xs ys
  | _, _ => false
  end.

(** What the code leaves open: the order in which a Python set is iterated, and
    which of several equal aliases the cache of [typing] returns when an alias
    is subscripted. *)
Record world := mkWorld { iter : list ty -> list ty; cached : ty -> ty }.

(** The distinct members of a list, as [set(types)] keeps them (annotation_utils.py
    22) and as [Union] does of its parameters.  Of equal ones the last is kept;
    Python's [Union] keeps the first, which is the same where, as here, its
    parameters come from a set. *)
Fixpoint distinct (l : list ty) : list ty :=
  match l with
  | [] => []
  | x :: r =>
      let d := distinct r in
      if existsb (fun y => ty_eq x y) d then d else x :: d
  end.

(** [Union[...]] takes the alternatives of a parameter that is a union itself. *)
Definition alternatives (t : ty) : list ty :=
  match t with TApp HUnion args => args | _ => [t] end.

(** [typing.Union[params]]: flattened, without repetitions, and the parameter
    itself when only one is left. *)
Definition mk_union (W : world) (params : list ty) : ty :=
  match distinct (flat_map alternatives params) with
  | [t] => t
  | l => cached W (TApp HUnion l)
  end.

(** [container_type[...]] of one of [typing]'s aliases. *)
Definition subscript (W : world) (h : head) (args : list ty) : ty :=
  cached W (TApp h args).

(** annotation_utils.py 21-36: [_resolve_container_types]. *)
Definition resolve (W : world) (h : head) (types : list ty) : ty :=
  let used0 := distinct types in
  let none_seen := existsb (fun t => ty_eq t (TCls CNone)) used0 in
  let used1 := filter (fun t => negb (ty_eq t (TCls CNone))) used0 in
  let used2 :=
    if existsb (fun t => ty_eq t (TCls CFloat)) used1
    then filter (fun t => negb (ty_eq t (TCls CInt))) used1 else used1 in
  let wrap ret :=
    let ret := if none_seen then mk_union W [ret; TCls CNone] else ret in
    subscript W h [ret] in
  match used2 with
  | [] => if none_seen then subscript W h [TCls CNone] else TBare h
  | [t] => wrap t
  | _ => wrap (mk_union W (iter W used2))
  end.

(** [getattr(ann, "__args__", None)] (annotation_utils.py 43, 64-65). *)
Definition args_of (t : ty) : option (list ty) :=
  match t with TApp _ args => Some args | _ => None end.

(** annotation_utils.py 39-47: [_resolve_tuple_types].  [None] is an
    [AttributeError]: the unsubscripted alias has no [__args__]. *)
Definition resolve_tuple (W : world) (types : list ty) : option ty :=
  if List.length types =? 0 then Some (TBare HTuple)
  else if List.length types <=? 3 then Some (subscript W HTuple types)
  else match args_of (resolve W HList types) with
       | None => None
       | Some [t] => Some (subscript W HTuple [t; TEll])
       | Some _ => Some (subscript W HTuple types)
       end.

(** annotation_utils.py 56-72: the branch of [get_type_annotation] for
    dictionaries.  [None]: [Dict[...]] of a parameter that is a tuple, which
    [typing] rejects; it is for arguments of more than one. *)
Definition resolve_dict (W : world) (keys vals : list ty) : option ty :=
  match args_of (resolve W HList keys), args_of (resolve W HList vals) with
  | Some [k], Some [v] => Some (subscript W HDict [k; v])
  | Some _, Some _ => None
  | _, _ => Some (TBare HDict)
  end.

Fixpoint all_some {A} (l : list (option A)) : option (list A) :=
  match l with
  | [] => Some []
  | x :: r =>
      match x, all_some r with
      | Some a, Some b => Some (a :: b)
      | _, _ => None
      end
  end.

(** annotation_utils.py 14-18, 50-79: [_get_contained_type_annotations] and
    [get_type_annotation]. *)
Fixpoint annotation (W : world) (v : value) : option ty :=
  match v with
  | VNone => Some (TCls CNone)
  | VInt _ => Some (TCls CInt)
  | VFloat _ => Some (TCls CFloat)
  | VStr _ => Some (TCls CStr)
  | VInst u => Some (TCls (CUser u))
  | VClass c => Some (subscript W HType [TCls c])
  | VList l => option_map (resolve W HList) (all_some (map (annotation W) l))
  | VSet l => option_map (resolve W HSet) (all_some (map (annotation W) l))
  | VTuple l =>
      match all_some (map (annotation W) l) with
      | Some ts => resolve_tuple W ts
      | None => None
      end
  | VDict l =>
      match all_some (map (fun p => let '(k, _) := p in annotation W k) l),
            all_some (map (fun p => let '(_, x) := p in annotation W x) l) with
      | Some ks, Some vs => resolve_dict W ks vs
      | _, _ => None
      end
  end.

(** The text of an annotation, in pieces: a name with the module written before
    it if there is one, a bracket, or the [", "] between two arguments. *)
Inductive tok := Nm (m : option string) (n : string) | LB | CM | RB.

(** The [__name__] of the aliases (annotation_utils.py 85-86). *)
Definition head_name (h : head) : string :=
  match h with
  | HList => "List" | HSet => "Set" | HDict => "Dict" | HTuple => "Tuple"
  | HType => "Type" | HUnion => "Union"
  end.

Definition is_none (t : ty) : bool := ty_eq t (TCls CNone).

(** annotation_utils.py 101-103: the module is written unless it is one of three. *)
Definition module_part (c : cls) : option string :=
  if String.eqb (c_mod c) "typing" || String.eqb (c_mod c) "builtins"
     || String.eqb (c_mod c) "__main__"
  then None else Some (c_mod c).

Fixpoint join (l : list (list tok)) : list tok :=
  match l with
  | [] => []
  | [s] => s
  | s :: r => s ++ CM :: join r
  end.

(** annotation_utils.py 105-120: the name and the arguments that are written for
    an alias that has some.  The [__name__] of a union of two of which one is
    [None] is "Optional".  The arguments are given both as annotations and as
    their texts. *)
Definition written (h : head) (args : list ty) (texts : list (list tok))
  : string * list (list tok) :=
  let name :=
    if is_union h && (List.length args =? 2) && existsb is_none args
    then "Optional" else head_name h in
  if is_union h && negb (List.length args =? 0) && is_none (last args TEll) then
    let texts := if List.length args =? 2 then removelast texts else texts in
    ((if List.length texts =? 1 then "Optional" else name), texts)
  else (name, texts).

(** annotation_utils.py 82-123: [make_annotation_string]; [srt] is [sorted] on
    the texts of the alternatives (line 121). *)
Fixpoint render (srt : list (list tok) -> list (list tok)) (t : ty) : list tok :=
  match t with
  | TCls c =>
      if cls_eqb c CNone then [Nm None "None"]
      else [Nm (module_part c) (c_name c)]
  | TBare h => [Nm None (head_name h)]
  | TEll => [Nm None "..."]
  | TApp h args =>
      let '(name, texts) := written h args (map (render srt) args) in
      match texts with
      | [] => [Nm None name]
      | _ => Nm None name :: LB
             :: join (if String.eqb name "Union" then srt texts else texts) ++ [RB]
      end
  end.
