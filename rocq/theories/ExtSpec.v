(** What the theorems about library calls say, apart from how the tracer keeps its books: programs as trees
    of calls, which calls a statement completes with which arguments and results, and which symbols a call
    may have changed. *)
From Coq Require Import List Arith Bool.
From Verif Require Import Base ExtModel.
Import ListNotations.

(** * Programs *)

(** An expression, as far as calls matter. [Seq a b] evaluates [a] and then [b]; [Fail] raises an exception.
    [Call r i a c] evaluates the receiver [r], then the arguments [a], then runs call [i], in the course
    of which the bodies [c] of traced functions run: the called function itself, or callbacks. An argument
    has a keyword or none, and the value and symbols that it turns out to have. *)
Inductive expr :=
| Leaf
| Fail
| Seq (a b : expr)
| Call (r : expr) (i : nat) (a : args) (c : callee)
with args :=
| ANil
| ACons (k : option nat) (v : argument) (e : expr) (r : args)
with callee :=
| CNil
| CCons (b : block) (r : callee)
with block :=
| BNil
| BCons (caught : bool) (e : expr) (r : block).

Scheme expr_mut := Induction for expr Sort Prop
with args_mut := Induction for args Sort Prop
with callee_mut := Induction for callee Sort Prop
with block_mut := Induction for block Sort Prop.
Combined Scheme program_ind from expr_mut, args_mut, callee_mut, block_mut.

Definition a_nil (a : args) : bool := match a with ANil => true | _ => false end.

(** The events of a program, and whether it completes. [out i] is the result of call [i], None if it
    raises. A statement that raises is not finished; if the exception is caught, its block goes on. *)
Fixpoint events (out : nat -> option nat) (e : expr) : list event * bool :=
  match e with
  | Leaf => ([], true)
  | Fail => ([], false)
  | Seq a b =>
      let '(x, ok) := events out a in
      if ok then let '(y, ok') := events out b in (x ++ y, ok') else (x, false)
  | Call r i a c =>
      let '(x, ok) := events out r in
      if ok then
        let '(y, ok') := events_args out a in
        if ok' then
          match out i with
          | Some v => (x ++ BeforeCall i (a_nil a) :: y ++ events_callee out c ++ [AfterCall v], true)
          | None => (x ++ BeforeCall i (a_nil a) :: y ++ events_callee out c, false)
          end
        else (x ++ BeforeCall i (a_nil a) :: y, false)
      else (x, false)
  end
with events_args (out : nat -> option nat) (a : args) : list event * bool :=
  match a with
  | ANil => ([], true)
  | ACons k v e r =>
      let '(x, ok) := events out e in
      if ok then let '(y, ok') := events_args out r in (x ++ Argument k v (a_nil r) :: y, ok')
      else (x, false)
  end
with events_callee (out : nat -> option nat) (c : callee) : list event :=
  match c with
  | CNil => []
  | CCons b r => Enter :: fst (events_block out b) ++ Leave :: events_callee out r
  end
with events_block (out : nat -> option nat) (b : block) : list event * bool :=
  match b with
  | BNil => ([], true)
  | BCons caught e r =>
      let '(x, ok) := events out e in
      if ok then let '(y, ok') := events_block out r in (x ++ AfterStmt :: y, ok')
      else if caught then let '(y, ok') := events_block out r in (x ++ y, ok')
      else (x, false)
  end.

(** The call sites of a program, with their arguments. *)
Fixpoint sites (e : expr) : list (nat * args) :=
  match e with
  | Leaf | Fail => []
  | Seq a b => sites a ++ sites b
  | Call r i a c => sites r ++ sites_args a ++ sites_callee c ++ [(i, a)]
  end
with sites_args (a : args) : list (nat * args) :=
  match a with ANil => [] | ACons _ _ e r => sites e ++ sites_args r end
with sites_callee (c : callee) : list (nat * args) :=
  match c with CNil => [] | CCons b r => sites_block b ++ sites_callee r end
with sites_block (b : block) : list (nat * args) :=
  match b with BNil => [] | BCons _ e r => sites e ++ sites_block r end.

(** The positional arguments of a call in order, and the keyword arguments. *)
Fixpoint positional (a : args) : list argument :=
  match a with
  | ANil => []
  | ACons None v _ r => v :: positional r
  | ACons (Some _) _ _ r => positional r
  end.
Fixpoint keyword (a : args) : list (nat * argument) :=
  match a with
  | ANil => []
  | ACons None _ _ r => keyword r
  | ACons (Some n) v _ r => (n, v) :: keyword r
  end.

(** Python does not accept a repeated keyword. *)
Definition keywords_differ (p : list (nat * args)) : Prop :=
  forall i a, In (i, a) p -> NoDup (map fst (keyword a)).

(** No call site is evaluated twice. *)
Definition sites_differ (p : list (nat * args)) : Prop := NoDup (map fst p).

(** What an expression completes: the calls with handlers in the order in which they return. *)
Definition completed (i : nat) (a : args) (v : nat) : handler :=
  {| h_call := i; h_args := positional a; h_kwargs := keyword a; h_ret := Some v |}.

Fixpoint own (has : nat -> bool) (out : nat -> option nat) (e : expr) : list handler :=
  match e with
  | Leaf | Fail => []
  | Seq a b => own has out a ++ own has out b
  | Call r i a _ =>
      own has out r ++ own_args has out a ++
      match has i, out i with true, Some v => [completed i a v] | _, _ => [] end
  end
with own_args (has : nat -> bool) (out : nat -> option nat) (a : args) : list handler :=
  match a with ANil => [] | ACons _ _ e r => own has out e ++ own_args has out r end.

(** What each statement of a program completes, in the order in which the statements finish, if no
    exception is raised: statements of called functions before the statement with the call. *)
Fixpoint finished (has : nat -> bool) (out : nat -> option nat) (e : expr) : list (list handler) :=
  match e with
  | Leaf | Fail => []
  | Seq a b => finished has out a ++ finished has out b
  | Call r i a c => finished has out r ++ finished_args has out a ++ finished_callee has out c
  end
with finished_args (has : nat -> bool) (out : nat -> option nat) (a : args) : list (list handler) :=
  match a with ANil => [] | ACons _ _ e r => finished has out e ++ finished_args has out r end
with finished_callee (has : nat -> bool) (out : nat -> option nat) (c : callee) : list (list handler) :=
  match c with CNil => [] | CCons b r => finished_block has out b ++ finished_callee has out r end
with finished_block (has : nat -> bool) (out : nat -> option nat) (b : block) : list (list handler) :=
  match b with
  | BNil => []
  | BCons _ e r => finished has out e ++ own has out e :: finished_block has out r
  end.

(** Nothing raises an exception. *)
Fixpoint no_fail (e : expr) : Prop :=
  match e with
  | Leaf => True
  | Fail => False
  | Seq a b => no_fail a /\ no_fail b
  | Call r _ a c => no_fail r /\ no_fail_args a /\ no_fail_callee c
  end
with no_fail_args (a : args) : Prop :=
  match a with ANil => True | ACons _ _ e r => no_fail e /\ no_fail_args r end
with no_fail_callee (c : callee) : Prop :=
  match c with CNil => True | CCons b r => no_fail_block b /\ no_fail_callee r end
with no_fail_block (b : block) : Prop :=
  match b with BNil => True | BCons _ e r => no_fail e /\ no_fail_block r end.

Definition quiet (out : nat -> option nat) (b : block) : Prop :=
  no_fail_block b /\ forall i a, In (i, a) (sites_block b) -> out i <> None.

(** The statements of a block that complete, whatever happens to the others. *)
Fixpoint completes (out : nat -> option nat) (b : block) : list expr :=
  match b with
  | BNil => []
  | BCons caught e r =>
      if snd (events out e) then e :: completes out r
      else if caught then completes out r else []
  end.

(** * What a call may have changed *)

(** A symbol stands for the object that a method is called on. If the object is called by a name, and a
    symbol of the object has that name, only such symbols do. *)
Definition stands_for (E : env) (base : option nat) (o s : nat) : Prop :=
  In s (aliases E o) /\
  match base with
  | Some n => sym_name E s = n \/ forall s', In s' (aliases E o) -> sym_name E s' <> n
  | None => True
  end.

(** The symbols that the arguments of a call resolve to. *)
Definition arg_symbol (h : handler) (s : nat) : Prop :=
  (exists a, In a (h_args h) /\ In s (snd a)) \/ (exists k a, In (k, a) (h_kwargs h) /\ In s (snd a)).

(** A function of a module that returns None may have changed its first argument, unless it is of a plain
    type or the module is one that only draws; with it the symbols among the further arguments that depend on
    the first, and those of the keyword arguments. *)
Definition may_change_argument (E : env) (m : nat) (h : handler) (s : nat) : Prop :=
  exists v syms rest,
    h_args h = (v, syms) :: rest /\ is_plain E v = false /\ is_excepted E m = false
    /\ is_anonymous E s = false
    /\ (In s syms
        \/ (exists a f, In a rest /\ In s (snd a) /\ In f syms /\ In f (parents E s))
        \/ (exists k a, In (k, a) (h_kwargs h) /\ In s (snd a))).

(** * Which handler a call should have *)

(** The nearest class, in the order of method resolution, that has an annotation for the method. *)
Inductive nearest (ann : nat -> nat -> option kind) (m : nat) : list nat -> option (nat * kind) -> Prop :=
| nearest_nil : nearest ann m [] None
| nearest_here c cs k : ann c m = Some k -> nearest ann m (c :: cs) (Some (c, k))
| nearest_later c cs o : ann c m = None -> nearest ann m cs o -> nearest ann m (c :: cs) o.

(** A call of method [m] on object [o] that is not left to itself from the start: the object is no module and
    no logger, its class is not defined in the notebook, and the function is not [print], not of [__main__]
    or [logging], and can be looked up. *)
Record reaches (E : env) (c : call) (o m : nat) : Prop := {
  r_object : c_object c = Some o;
  r_method : c_method c = Some m;
  r_no_module : is_module E o = false;
  r_no_logging : is_logging E o = false;
  r_no_logger : is_logger E o = false;
  r_no_notebook : forall s, In s (aliases E (type_of E o)) -> is_class E s = false;
  r_module : forall x, c_module c = Some x -> is_logging E x = false /\ is_main E x = false;
  r_function : forall f, c_function c = Some f ->
                 is_print E (canonical E f) = false /\ hashable E (canonical E f) = true
}.

(** What an annotation asks for: NoopCallHandler asks for no handler, and without an annotation, as with
    MutatingMethodEventNotYetImplemented, the standard handler decides by the result. *)
Definition asked (o : option kind) : option kind :=
  match o with
  | None | Some KNotYet => Some KStandard
  | Some KNoop => None
  | Some k => Some k
  end.

Definition kind_of (t : option target) : option kind := option_map t_kind t.

(** The registries hold what is registered from annotations of classes and of functions. *)
Definition registered (E : env) (classes : list (nat * nat * kind)) (functions : list (nat * kind)) : Prop :=
  (forall f, by_function E f = fst (register (attr E) classes functions) f)
  /\ forall c m, by_method E c m = snd (register (attr E) classes functions) c m.
