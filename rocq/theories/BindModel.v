(** Which names a statement is recorded to bind, and what each is recorded to depend on.
    Code: core/ipyflow/analysis/symbol_edges.py, core/ipyflow/analysis/utils.py,
    core/ipyflow/data_model/statement.py 585-715, core/ipyflow/tracing/symbol_resolver.py.

    One scope, and names as targets: attributes, subscripts, unpacking and starred targets are the
    subject of other areas. A symbol is known by its name, because one scope reuses the symbol of a
    name (scope.py 383-396). Left out: the stamps of usages, propagation, modules' own symbols,
    imports with a dot or a star. *)
From Coq Require Import List Arith Bool.
From Verif Require Import Base.
Import ListNotations.

(** Expressions. [EOp k a b] is any expression that evaluates its operands in order and has no case of
    its own in the visitors; more operands are nested pairs. [EAnd] evaluates its second operand only
    if the first is true, [EIf] one of the last two. [ENamed] is [x := e]. A lambda has the
    expression of its defaults and its body. *)
Inductive expr :=
| EName (x : nat)
| EConst (k : nat)
| EOp (k : nat) (a b : expr)
| EAnd (a b : expr)
| EIf (c a b : expr)
| ENamed (x : nat) (e : expr)
| ELambda (k : nat) (ds body : expr).

(** Statements. A body is a statement built with [SSeq] and [SSkip]. [SDef] has the expression of its
    defaults and of its decorators, [SClass] of its bases, keywords and decorators; their bodies do not
    matter here. [SExpr] is any other simple statement made of expressions. *)
Inductive stmt :=
| SSkip
| SSeq (a b : stmt)
| SExpr (e : expr)
| SAssign (xs : list nat) (e : expr)
| SAug (x : nat) (k : nat) (e : expr)
| SAnn (x : nat) (ann : expr) (o : option expr)
| SFor (x : nat) (e : expr) (body : stmt)
| SIf (e : expr) (a b : stmt)
| SWhile (e : expr) (body : stmt)
| SWith (e : expr) (o : option nat) (body : stmt)
| SDef (x k : nat) (ds dec : expr)
| SClass (x k : nat) (bases kws dec : expr)
| SImport (x m : nat).

(** The second half of an edge: an expression, None (a bare annotation), the node of a def or a class,
    or the alias of an import. *)
Inductive node :=
| NExpr (e : expr)
| NNone
| NDef (ds dec : expr)
| NClass (bases dec : expr)
| NAlias.

Notation edge := (nat * node)%type.

(** GetSymbolEdges on expressions, in the order in which edges are appended: symbol_edges.py 28-46.
    Nothing stops the visitor at a lambda: mixins.py 8-12 is about its arguments only. *)
Fixpoint walk (e : expr) : list edge :=
  match e with
  | EName _ | EConst _ => []
  | EOp _ a b | EAnd a b => walk a ++ walk b
  | EIf c a b => walk c ++ walk a ++ walk b
  | ENamed x e => (x, NExpr e) :: walk e
  | ELambda _ ds body => walk ds ++ walk body
  end.

(** GetSymbolEdges on statements: symbol_edges.py 48-113. Statements without a case (while, and
    assignments inside one) are visited as a whole. *)
Fixpoint walk_stmt (s : stmt) : list edge :=
  match s with
  | SSkip => []
  | SSeq a b => walk_stmt a ++ walk_stmt b
  | SExpr e => walk e
  | SAssign _ e => walk e
  | SAug x _ e => (x, NExpr e) :: walk e
  | SAnn x _ (Some e) => (x, NExpr e) :: walk e
  | SAnn x _ None => [(x, NNone)]
  | SFor x e _ => (x, NExpr e) :: walk e
  | SIf e _ _ => walk e
  | SWhile e body => walk e ++ walk_stmt body
  | SWith e (Some x) _ => [(x, NExpr e)]
  | SWith _ None _ => []
  | SDef x _ ds dec => (x, NDef ds dec) :: walk ds ++ walk dec
  | SClass x _ bases _ dec => (x, NClass bases dec) :: walk bases ++ walk dec
  | SImport x _ => [(x, NAlias)]
  end.

(** get_symbol_edges: symbol_edges.py 21-26, 116-121. *)
Definition edges (s : stmt) : list edge := rev (walk_stmt s).

(** ContainsNamedExprVisitor: utils.py 10-26. It goes into bodies too. *)
Fixpoint named (e : expr) : bool :=
  match e with
  | EName _ | EConst _ => false
  | EOp _ a b | EAnd a b => named a || named b
  | EIf c a b => named c || named a || named b
  | ENamed _ _ => true
  | ELambda _ ds body => named ds || named body
  end.

Definition named_opt (o : option expr) : bool := match o with Some e => named e | None => false end.

Fixpoint named_stmt (s : stmt) : bool :=
  match s with
  | SSkip => false
  | SSeq a b => named_stmt a || named_stmt b
  | SExpr e => named e
  | SAssign _ e => named e
  | SAug _ _ e => named e
  | SAnn _ ann o => named ann || named_opt o
  | SFor _ e body => named e || named_stmt body
  | SIf e a b => named e || named_stmt a || named_stmt b
  | SWhile e body => named e || named_stmt body
  | SWith e _ body => named e || named_stmt body
  | SDef _ _ ds dec => named ds || named dec
  | SClass _ _ bases kws dec => named bases || named kws || named dec
  | SImport _ _ => false
  end.

(** stmt_contains_lval: utils.py 29-48. *)
Definition contains_lval (s : stmt) : bool :=
  match s with
  | SAssign _ _ | SAnn _ _ _ | SAug _ _ _ | SClass _ _ _ _ _ | SDef _ _ _ _ | SFor _ _ _
  | SImport _ _ | SWith _ _ _ => true
  | _ => named_stmt s
  end.

(** The symbol of a name: what it depends on, and the statement that last updated it. *)
Record sym := { deps : list nat; stamp : nat }.

(** The names that the resolver of right-hand sides finds in an expression: symbol_resolver.py 77-80 and
    the default visit, which meets the target of [:=] too; a lambda resolves to its own symbol, which
    is left out here (197-198). *)
Fixpoint names (e : expr) : list nat :=
  match e with
  | EName x => [x]
  | EConst _ => []
  | EOp _ a b | EAnd a b => names a ++ names b
  | EIf c a b => names c ++ names a ++ names b
  | ENamed x e => x :: names e
  | ELambda _ _ _ => []
  end.

(** The same for the node of an edge: symbol_resolver.py 235-249, 275-293. *)
Definition node_names (n : node) : list nat :=
  match n with
  | NExpr e => names e
  | NNone | NAlias => []
  | NDef ds dec => names ds ++ names dec
  | NClass bases dec => names bases ++ names dec
  end.

(** resolve_rval_symbols for names: those that have a symbol (ipyflow_tracer.py 625-630). What the static
    analysis adds when nothing was found (281-292) looks the same names up, and is left out. *)
Definition resolve (t : dict sym) (n : node) : list nat :=
  filter (fun x => match dget t x with Some _ => true | None => false end) (node_names n).

(** upsert_symbol_for_name and update_deps, as far as parents and stamps go: scope.py 283-326,
    symbol.py 1042-1059, 1098. *)
Definition upsert (now : nat) (overwrite : bool) (t : dict sym) (x : nat) (ds : list nat) : dict sym :=
  let old := match dget t x with Some r => deps r | None => [] end in
  let over := overwrite && negb (memb x ds)
              && negb (existsb (fun d => match dget t d with
                                         | Some r => memb x (deps r) | None => false end) ds) in
  let ds := sdiff ds [x] in
  dset t x {| deps := supd (if over then [] else old) ds; stamp := now |}.

(** One edge: statement.py 613, 639-660, and 342-375, 396-405 for assignments. [live]: is the name
    bound in the frame? If not, the lookup of its object raises KeyError and the edge is skipped
    (ipyflow_tracer.py 537-542). *)
Definition record (now : nat) (live : nat -> bool) (overwrite : bool) (t : dict sym) (ed : edge)
  : dict sym :=
  let (x, n) := ed in
  let ds := resolve t n in
  if live x then upsert now overwrite t x ds else t.

Definition record_all (now : nat) (live : nat -> bool) (overwrite : bool) (eds : list edge)
  (t : dict sym) : dict sym :=
  fold_left (record now live overwrite) eds t.

(** _make_lval_symbols_old: statement.py 599-660. The assertion 608: an exception in a handler is
    swallowed outside developer mode, with nothing recorded. *)
Definition make_old (now : nat) (live : nat -> bool) (s : stmt) (t : dict sym) : dict sym :=
  let eds := edges s in
  match s with
  | SDef _ _ _ _ | SClass _ _ _ _ _ =>
    if length eds =? 1 then record_all now live true eds t else t
  | SAug _ _ _ => record_all now live false eds t
  | _ => record_all now live true eds t
  end.

(** _make_lval_symbols and _handle_store: statement.py 567-574, 592-597. The right-hand side is
    resolved again for each target (525). *)
Definition make_lvals (now : nat) (live : nat -> bool) (s : stmt) (t : dict sym) : dict sym :=
  match s with
  | SAssign xs e => record_all now live true (map (fun x => (x, NExpr e)) xs) t
  | SFor x e _ => record_all now live true [(x, NExpr e)] t
  | _ => make_old now live s t
  end.

(** handle_dependencies: statement.py 700-711, without the external calls and del. *)
Definition finish (now : nat) (live : nat -> bool) (s : stmt) (t : dict sym) : dict sym :=
  if contains_lval s then make_lvals now live s t else t.

(** Is the statement recorded when its body is entered (ipyflow_tracer.py 1592-1599), rather than when it
    is over (1501-1519)? *)
Definition early (s : stmt) : bool :=
  match s with SFor _ _ _ | SIf _ _ _ | SWith _ _ _ => true | _ => false end.
