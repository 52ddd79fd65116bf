(** Annotations that declare which arguments of a function are mutated, and what is done at a call. *)
Require Import List Arith ZArith Bool.
Import ListNotations.
Require Import Verif.Base.
Local Open Scope nat_scope.

(** Names are numbers; these two are special in annotations (annotations/compiler.py:86, 91). *)
Definition n_module := 0.
Definition n_self := 1.

(** [ast.arguments]: [func.args]. [vararg] and [kwarg] are the names after the stars. *)
Record signature := mkSig { posonly : list nat; regular : list nat; vararg : option nat; kwonly : list nat; kwarg : option nat }.

(** An argument of a call as the tracer records it: the symbols that its expression resolves to (a set, in its order of
    iteration; [None] is a member if something has no symbol), tracing/ipyflow_tracer.py:1147-1168. The object itself is
    not needed. A call has no starred arguments here. *)
Definition argument := list (option nat).
Record calls := mkCall { positional : list argument; keywords : dict argument }.

(** What a handler class does when it is run. *)
Inductive handler :=
| HModule (overwrite : bool)   (* ModuleMutation, ModuleUpsert *)
| HCaller (overwrite : bool)   (* CallerMutation, CallerUpsert *)
| HArg (pos : option Z) (name : option nat) (overwrite : bool)  (* MutateArgument *)
| HNamed (n : nat)             (* a handler class that is registered under that name *)
| HMulti (hs : list (option handler)). (* MultiHandler; None: Python's None *)

(** annotations/compiler.py:33-38 *)
Definition mutate_argument (pos : option Z) (name : option nat) (overwrite : bool) : res handler :=
  match pos, name with None, None => Err ValueError | _, _ => Ok (HArg pos name overwrite) end.

Fixpoint index_of (p : nat) (l : list nat) (i : nat) : option nat :=
  match l with [] => None | q :: l => if q =? p then Some i else index_of p l (S i) end.

(** annotations/compiler.py:69-80 *)
Definition arg_position (sg : signature) (p : nat) (is_method : bool) : res (option Z * bool) :=
  match index_of p (posonly sg ++ regular sg ++ kwonly sg) 0 with
  | None => Err ValueError
  | Some i =>
      Ok (if length (posonly sg) + length (regular sg) <=? i then None else Some (Z.of_nat i - (if is_method then 1 else 0))%Z,
          i <? length (posonly sg))
  end.

(** annotations/compiler.py:83-103. Ok None: Python's None is returned (a function, and the name self). *)
Definition mutate_name_handler (sg : signature) (is_method : bool) (p : nat) (overwrite : bool) : res (option handler) :=
  if p =? n_module then Ok (Some (HModule overwrite))
  else if p =? n_self then Ok (if is_method then Some (HCaller overwrite) else None)
  else rbind (arg_position sg p is_method) (fun '(pos, is_posonly) =>
         rmap Some (mutate_argument pos (if is_posonly : bool then None else Some p) overwrite)).

(** The return annotation, as far as the compiler looks at it: a name; [Mutate[..]] or [UpsertSymbol[..]] with a name
    or a tuple (members that are no names are None); something else in brackets after a name; in brackets after
    something that is no name; anything else; nothing. *)
Inductive returns :=
| RName (n : nat) | RMutate (overwrite : bool) (p : nat) | RMutateTuple (overwrite : bool) (ps : list (option nat)) | RMutateOther
| RSubscript | RSubscriptOther | ROther | RNone.
Record function := mkFun { f_sig : signature; f_returns : returns; f_names : list nat }.

Fixpoint names_of (ps : list (option nat)) : option (list nat) :=
  match ps with
  | [] => Some []
  | None :: _ => None
  | Some p :: ps => match names_of ps with Some l => Some (p :: l) | None => None end
  end.

(** annotations/compiler.py:106-154. [known]: whether a handler of that name is registered. For a tuple, the handlers
    before a member that is no name are made and thrown away: if making one of them raises, that is raised; both are ValueError. *)
Definition compile_function (known : nat -> bool) (f : function) (is_method : bool) : res (option handler) :=
  match f_returns f with
  | RNone | ROther => Err TypeError
  | RName n => if known n then Ok (Some (HNamed n)) else Err ValueError
  | RMutate overwrite p => mutate_name_handler (f_sig f) is_method p overwrite
  | RMutateTuple overwrite ps =>
      match names_of ps with
      | None => Err ValueError
      | Some l => rmap (fun hs => Some (HMulti hs))
                    (rfold (fun hs p => rmap (fun h => hs ++ [h]) (mutate_name_handler (f_sig f) is_method p overwrite)) l [])
      end
  | RMutateOther | RSubscript => Err ValueError
  | RSubscriptOther => Ok None
  end.

(** annotations/compiler.py:223-237 (and 176-191 for the functions of a class). *)
Definition compile_all (known : nat -> bool) (is_method : bool) (fs : list function) : dict (option handler) :=
  fold_left (fun d f =>
    match compile_function known f is_method with
    | Ok h => fold_left (fun d n => dset d n h) (f_names f) d
    | Err _ => d
    end) fs [].

(** What is updated: the caller, the module, or a symbol, and whether it is overwritten (else mutated). *)
Inductive target := TModule | TCaller | TSymbol (s : nat).
Definition update : Type := target * bool.

(** Python's [l[i]] *)
Definition py_nth {A} (l : list A) (i : Z) : res A :=
  let j := if (i <? 0)%Z then (i + Z.of_nat (length l))%Z else i in
  if (j <? 0)%Z then Err IndexError else of_option IndexError (nth_error l (Z.to_nat j)).

(** annotations/compiler.py:41-53 *)
Definition handle_argument (pos : option Z) (name : option nat) (overwrite : bool) (c : calls) : res (list update) :=
  let syms :=
    match (match name with Some n => dget (keywords c) n | None => None end), pos with
    | Some syms, _ => Ok (Some syms)
    | None, Some i => if (i <? Z.of_nat (length (positional c)))%Z then rmap Some (py_nth (positional c) i) else Ok (Some [None])
    | None, None => Ok None
    end in
  rmap (fun o => match o with
                 | Some (Some s :: _) => [(TSymbol s, overwrite)]
                 | _ => [] end) syms.

(** Running a handler: annotations/compiler.py:61-64; tracing/external_calls/base_handlers.py (ModuleMutation, CallerMutation and
    the like, here only what they are about). A handler of another name does something that is not modelled: nothing here. *)
Fixpoint handle (h : handler) (c : calls) : res (list update) :=
  match h with
  | HModule o => Ok [(TModule, o)]
  | HCaller o => Ok [(TCaller, o)]
  | HArg pos name o => handle_argument pos name o c
  | HNamed _ => Ok []
  | HMulti hs => (fix go hs := match hs with
                               | [] => Ok []
                               | None :: _ => Err AttributeError
                               | Some h :: hs => rbind (handle h c) (fun a => rmap (fun b => a ++ b) (go hs))
                               end) hs
  end.
