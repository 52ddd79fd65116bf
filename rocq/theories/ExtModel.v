(** Calls of functions and methods that the tracer does not look into: which handler a call gets, how the
    handler comes by the arguments and the result of its call, and what it marks as changed.
    Code: core/ipyflow/tracing/external_calls/__init__.py, external_calls/base_handlers.py,
    core/ipyflow/tracing/ipyflow_tracer.py 299-321, 1105-1282, core/ipyflow/annotations/compiler.py 338-360,
    core/ipyflow/data_model/statement.py 700-723.

    Objects, symbols, names and functions are numbers. Left out: tracing switched off and on again (area
    Trace), statements run more than once, how the symbols of an argument are found (area Rval), what
    [update_deps] does (areas Sym and Upd), what list methods do to elements (area Elem), handlers of
    single arguments (area Anno), [calling_symbol], which no caller passes on. *)
From Coq Require Import List Arith Bool.
From Verif Require Import Base.
Import ListNotations.

(** The object None. *)
Definition none := 0.

(** * Which handler a call gets *)

(** Handler classes: base_handlers.py 222-338. [KOther] stands for the handlers of list methods and of
    single arguments. *)
Inductive kind :=
| KNoop | KNotYet | KStandard | KCallerMutation | KCallerUpsert
| KModuleMutation | KModuleUpsert | KArgMutate | KOther (n : nat).

(** What Python and the tracer know of objects. [bound f] is the class of [f.__self__] and [f.__name__],
    if [f] has both; [attr c m] is [getattr(c, m, None)]. [by_function] and [by_method] are the two
    registries; [modname c] is the string [c.__module__]. [is_plain] holds of lists, sets, dicts and
    immutable primitives, [is_excepted] of modules whose name starts with one of base_handlers.py
    227-239. *)
Record env := {
  is_module : nat -> bool;
  is_logging : nat -> bool;
  is_main : nat -> bool;
  is_print : nat -> bool;
  is_logger : nat -> bool;
  is_type : nat -> bool;
  type_of : nat -> nat;
  mro : nat -> list nat;
  bound : nat -> option (nat * nat);
  attr : nat -> nat -> option nat;
  modname : nat -> nat;
  hashable : nat -> bool;
  is_plain : nat -> bool;
  is_excepted : nat -> bool;
  by_function : nat -> option kind;
  by_method : nat -> nat -> option kind;
  aliases : nat -> list nat;
  is_class : nat -> bool;
  sym_name : nat -> nat;
  is_anonymous : nat -> bool;
  parents : nat -> list nat
}.

(** What is known of a call before its arguments are evaluated: the module of the function's symbol, the
    object before the dot or the bracket, the function, the method's name, and the name before the dot if
    what stands there is a name. ipyflow_tracer.py 1191-1247, base_handlers.py 179-186. *)
Record call := {
  c_module : option nat;
  c_object : option nat;
  c_function : option nat;
  c_method : option nat;
  c_base : option nat
}.

(** external_calls/__init__.py 33-42: a bound method stands for the function of its class. *)
Definition canonical (E : env) (f : nat) : nat :=
  match bound E f with
  | Some (c, m) => match attr E c m with Some g => g | None => f end
  | None => f
  end.

(** external_calls/__init__.py 80-84: the first class with a handler for the method. *)
Fixpoint find_method (E : env) (m : nat) (cs : list nat) : option (nat * kind) :=
  match cs with
  | [] => None
  | c :: cs' => match by_method E c m with Some k => Some (c, k) | None => find_method E m cs' end
  end.

(** A handler class with the module and the object it is created with. *)
Record target := { t_kind : kind; t_module : option nat; t_caller : option nat }.

Definition test (f : nat -> bool) (o : option nat) : bool :=
  match o with Some x => f x | None => false end.

(** external_calls/__init__.py 24-101. The second [isinstance(caller_self, ModuleType)] (64-65) is never
    true. An unhashable function is the TypeError of 72. *)
Definition resolve (E : env) (default : bool) (c : call) : option target :=
  let f := option_map (canonical E) (c_function c) in
  let module_first := test (is_module E) (c_object c) in
  let m := if module_first then match c_module c with None => c_object c | Some x => Some x end
           else c_module c in
  let self := if module_first then None else c_object c in
  if test (is_logging E) m || test (is_main E) m || test (is_print E) f then None
  else if test (is_logging E) self || test (is_logger E) self then None
  else if test (fun o => existsb (is_class E) (aliases E (type_of E o))) self then None
  else if test (fun _ => true) self && negb (test (fun _ => true) (c_method c)) then None
  else if test (fun g => negb (hashable E g)) f then None
  else
    let found_f := match f with Some g => by_function E g | None => None end in
    let '(found, m') :=
      match found_f, self, c_method c with
      | None, Some o, Some n =>
          if is_type E o then (None, m)
          else match find_method E n (mro E (type_of E o)) with
               | Some (cls, k) => (Some k, Some (modname E cls))
               | None => (None, m)
               end
      | k, _, _ => (k, m)
      end in
    match found with
    | None => if default then Some {| t_kind := KStandard; t_module := m'; t_caller := self |} else None
    | Some KNoop => None
    | Some KNotYet => Some {| t_kind := KStandard; t_module := m'; t_caller := self |}
    | Some k => Some {| t_kind := k; t_module := m'; t_caller := self |}
    end.

(** compiler.py 338-360: handlers of classes, then handlers of functions; later ones replace earlier ones.
    [classes] has a handler for each class and method, [functions] for each function object. *)
Definition register_method (att : nat -> nat -> option nat)
    (r : (nat -> option kind) * (nat -> nat -> option kind)) (s : nat * nat * kind)
    : (nat -> option kind) * (nat -> nat -> option kind) :=
  let '(c, m, k) := s in
  (match att c m with
   | Some f => fun g => if g =? f then Some k else fst r g
   | None => fst r
   end,
   fun c' m' => if (c' =? c) && (m' =? m) then Some k else snd r c' m').

Definition register_function (r : (nat -> option kind) * (nat -> nat -> option kind)) (s : nat * kind)
    : (nat -> option kind) * (nat -> nat -> option kind) :=
  let '(f, k) := s in ((fun g => if g =? f then Some k else fst r g), snd r).

Definition register (att : nat -> nat -> option nat) (classes : list (nat * nat * kind))
    (functions : list (nat * kind)) : (nat -> option kind) * (nat -> nat -> option kind) :=
  fold_left register_function functions
    (fold_left (register_method att) classes (fun _ => None, fun _ _ => None)).

(** * How handlers come by arguments and results *)

(** An argument: its value and the symbols it resolves to. base_handlers.py 28 *)
Definition argument : Type := nat * list nat.

(** base_handlers.py 88-107. [h_call] says which call the handler was created for; [h_ret] is None as
    long as it is [not_yet_defined]. *)
Record handler := {
  h_call : nat;
  h_args : list argument;
  h_kwargs : dict argument;
  h_ret : option nat
}.

Definition new_handler (i : nat) : handler := {| h_call := i; h_args := []; h_kwargs := []; h_ret := None |}.

(** base_handlers.py 131-150 *)
Definition process (k : option nat) (a : argument) (h : handler) : handler :=
  match k with
  | None => {| h_call := h_call h; h_args := h_args h ++ [a]; h_kwargs := h_kwargs h; h_ret := h_ret h |}
  | Some n => {| h_call := h_call h; h_args := h_args h; h_kwargs := dset (h_kwargs h) n a; h_ret := h_ret h |}
  end.

(** base_handlers.py 152-153 *)
Definition process_return (v : nat) (h : handler) : handler :=
  {| h_call := h_call h; h_args := h_args h; h_kwargs := h_kwargs h; h_ret := Some v |}.

(** The fields of a level of the tracer's call stack that matter here: the candidates saved on the lexical
    call stack (innermost first), [external_calls] and [is_external_call_pending_return].
    ipyflow_tracer.py 200-229 *)
Record level := { lexical : list (option handler); external : list handler; pending : bool }.
Definition level0 : level := {| lexical := []; external := []; pending := false |}.

(** The current level, the levels saved on the call stack, and the handlers that have been run: one list
    for each statement that finished. *)
Record state := { cur : level; saved : list level; done : list (list handler) }.
Definition state0 : state := {| cur := level0; saved := []; done := [] |}.

Inductive event :=
| BeforeCall (i : nat) (no_args : bool)
| Argument (k : option nat) (a : argument) (last : bool)
| AfterCall (v : nat)
| Enter
| Leave
| AfterStmt.

(** _resolve_external_call: ipyflow_tracer.py 1105-1113. The handler is an object that the stack and the list
    share; after this it changes only through the list. *)
Definition to_external (l : level) : level :=
  match lexical l with
  | Some h :: _ => {| lexical := lexical l; external := external l ++ [h]; pending := true |}
  | _ => l
  end.

(** [self.external_calls[-1].process_return(retval)] *)
Fixpoint on_last (f : handler -> handler) (hs : list handler) : res (list handler) :=
  match hs with
  | [] => Err IndexError
  | [h] => Ok [f h]
  | h :: hs' => rmap (cons h) (on_last f hs')
  end.

(** ipyflow_tracer.py 1236-1249. [has i] says that call [i] gets a handler; it is saved and a new lexical
    level begins. *)
Definition before_call (has : nat -> bool) (i : nat) (no_args : bool) (l : level) : level :=
  let l' := {| lexical := (if has i then Some (new_handler i) else None) :: lexical l;
               external := external l; pending := pending l |} in
  if no_args then to_external l' else l'.

(** ipyflow_tracer.py 1115-1170 *)
Definition on_argument (k : option nat) (a : argument) (last : bool) (l : level) : level :=
  match lexical l with
  | Some h :: r =>
      let l' := {| lexical := Some (process k a h) :: r; external := external l; pending := pending l |} in
      if last then to_external l' else l'
  | _ => l
  end.

(** ipyflow_tracer.py 1258-1281 *)
Definition after_call (v : nat) (l : level) : res level :=
  let r := match lexical l with [] => [] | _ :: r => r end in
  if pending l then
    rmap (fun hs => {| lexical := r; external := hs; pending := false |})
         (on_last (process_return v) (external l))
  else Ok {| lexical := r; external := external l; pending := false |}.

(** [Enter] and [Leave]: a traced function is called (ipyflow_tracer.py 333-356) and left, also by an
    exception (474-476). [AfterStmt]: statement.py 700-723, ipyflow_tracer.py 299-321; the lexical stack
    stays. *)
Definition step (has : nat -> bool) (e : event) (s : state) : res state :=
  match e with
  | BeforeCall i z => Ok {| cur := before_call has i z (cur s); saved := saved s; done := done s |}
  | Argument k a z => Ok {| cur := on_argument k a z (cur s); saved := saved s; done := done s |}
  | AfterCall v => rmap (fun l => {| cur := l; saved := saved s; done := done s |}) (after_call v (cur s))
  | Enter => Ok {| cur := level0; saved := cur s :: saved s; done := done s |}
  | Leave => match saved s with
             | [] => Err IndexError
             | l :: r => Ok {| cur := l; saved := r; done := done s |}
             end
  | AfterStmt => Ok {| cur := {| lexical := lexical (cur s); external := []; pending := false |};
                       saved := saved s; done := done s ++ [external (cur s)] |}
  end.

Definition run (has : nat -> bool) (es : list event) (s : state) : res state :=
  rfold (fun s e => step has e s) es s.

(** * What a handler marks as changed *)

(** A call of [update_deps]: the symbol, the new dependencies, [overwrite], [mutated], and
    [propagate_to_namespace_descendents]. *)
Record update := { u_sym : nat; u_deps : list nat; u_overwrite : bool; u_mutated : bool; u_descend : bool }.

(** base_handlers.py 122-129 *)
Definition union_args (args : list argument) (kwargs : list argument) : list nat :=
  fold_left supd (map snd (args ++ kwargs)) [].
Definition arg_syms (h : handler) : list nat := union_args (h_args h) (map snd (h_kwargs h)).

(** _mutate_calling_symbol: base_handlers.py 204-211 *)
Definition mutate (deps : list nat) (s : nat) : update :=
  {| u_sym := s; u_deps := deps; u_overwrite := false; u_mutated := true; u_descend := true |}.

(** base_handlers.py 170-192, with propagation *)
Definition mutate_caller (E : env) (base self : option nat) (deps : list nat) : list update :=
  match self with
  | None => []
  | Some o =>
      let named := match base with
                   | Some n => filter (fun s => sym_name E s =? n) (aliases E o)
                   | None => []
                   end in
      map (mutate deps) (if is_nil named then aliases E o else named)
  end.

(** base_handlers.py 194-202 *)
Definition mutate_module (E : env) (m : option nat) (deps : list nat) : list update :=
  match m with Some x => map (mutate deps) (aliases E x) | None => [] end.

(** ArgMutate.handle: base_handlers.py 338-345 *)
Definition mutate_args (E : env) (syms : list nat) : list update :=
  map (fun s => {| u_sym := s; u_deps := []; u_overwrite := false; u_mutated := true; u_descend := false |})
      (filter (fun s => negb (is_anonymous E s)) syms).

(** CallerUpsert.handle and ModuleUpsert.handle: base_handlers.py 283-310. Without an object it is the
    symbols of None that are looked up. *)
Definition upsert (E : env) (o : option nat) (deps : list nat) : list update :=
  map (fun s => {| u_sym := s; u_deps := deps; u_overwrite := true; u_mutated := false; u_descend := true |})
      (aliases E (match o with Some x => x | None => none end)).

(** base_handlers.py 262-275: of the arguments after the first, what depends on the first. *)
Definition depending (E : env) (first : list nat) (a : argument) : list argument :=
  match filter (fun s => existsb (fun f => memb f (parents E s)) first) (snd a) with
  | [] => []
  | syms => [(fst a, syms)]
  end.

Definition returned (h : handler) (v : nat) : bool :=
  match h_ret h with Some r => r =? v | None => false end.

(** StandardMutation.handle: base_handlers.py 242-275 *)
Definition handle_standard (E : env) (base : option nat) (t : target) (h : handler) : list update :=
  match t_caller t with
  | Some o =>
      if returned h none || returned h o then mutate_caller E base (Some o) (arg_syms h) else []
  | None =>
      match t_module t with
      | Some m =>
          if returned h none then
            mutate_module E (Some m) (arg_syms h) ++
            match h_args h with
            | [] => []
            | (v, syms) :: rest =>
                if is_excepted E m || is_plain E v then []
                else mutate_args E (union_args ((v, syms) :: flat_map (depending E syms) rest)
                                               (map snd (h_kwargs h)))
            end
          else []
      | None => []
      end
  end.

(** The [handle] of a handler class; base_handlers.py 278-310, 338-345. [KNoop] and [KNotYet] are never
    created. *)
Definition handle (E : env) (base : option nat) (t : target) (h : handler) : list update :=
  match t_kind t with
  | KStandard => handle_standard E base t h
  | KCallerMutation => mutate_caller E base (t_caller t) (arg_syms h)
  | KCallerUpsert => upsert E (t_caller t) (arg_syms h)
  | KModuleMutation => mutate_module E (t_module t) (arg_syms h)
  | KModuleUpsert => upsert E (t_module t) (arg_syms h)
  | KArgMutate => mutate_args E (arg_syms h)
  | KNoop | KNotYet | KOther _ => []
  end.

(** What the calls of a finished statement mark as changed: statement.py 701-703. [facts i] is what is known
    of call [i]. *)
Definition has_handler (E : env) (facts : nat -> call) (i : nat) : bool :=
  match resolve E true (facts i) with Some _ => true | None => false end.

Definition handle_all (E : env) (facts : nat -> call) (hs : list handler) : list update :=
  flat_map (fun h => match resolve E true (facts (h_call h)) with
                     | Some t => handle E (c_base (facts (h_call h))) t h
                     | None => []
                     end) hs.
