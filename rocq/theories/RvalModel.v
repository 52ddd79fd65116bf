(** Which symbols the right-hand side of a statement is resolved to.
    Code: core/ipyflow/tracing/symbol_resolver.py, core/ipyflow/tracing/ipyflow_tracer.py 500-508, 616-632,
    core/ipyflow/analysis/mixins.py.

    Expressions only: the cases of the visitor for statements (211-272) are left out; so are the
    timestamps that a usage sets (the usages themselves are logged). [visit_Subscript] extends the
    list that the tracer keeps for the node in place (160): here it extends a copy. *)
From Coq Require Import List Arith Bool.
From Verif Require Import Base.
Import ListNotations.

(** Names, attributes, constants, symbols and nodes are numbers. Every node but a name carries its
    number. [Op] is any expression without a case of its own in the visitor (operators, comparisons,
    conditional expressions, f-strings, sets, slices, :=); [Lit] a list, tuple or dict (keys first);
    [Call] has the values of its keywords among its arguments. A comprehension has its targets, the
    expressions of its head (one or two) and its generators, each an iterable and its conditions. *)
Inductive expr :=
| Name (x : nat)
| Const (n k : nat)
| Op (n : nat) (es : list expr)
| Lit (n : nat) (es : list expr)
| Call (n : nat) (f : expr) (args : list expr)
| Attr (n : nat) (e : expr) (a : nat)
| Sub (n : nat) (e i : expr)
| Starred (n : nat) (e : expr)
| Lambda (n : nat)
| Comp (n : nat) (targets head : list expr) (gens : list (expr * list expr)).

(** What the visitor asks others: the symbol for a name in the scope of the frame, the symbols that
    the tracer has loaded for a node (node_id_to_loaded_symbols), and the symbol under a key in the
    namespace of a symbol's object. *)
Record env := {
  lookup : nat -> option nat;
  loaded : nat -> list nat;
  field : nat -> nat -> option nat }.

Definition of_opt (o : option nat) : list nat := match o with Some s => [s] | None => [] end.

Definition id_of (e : expr) : option nat :=
  match e with
  | Name _ => None
  | Const n _ | Op n _ | Lit n _ | Call n _ _ | Attr n _ _ | Sub n _ _ | Starred n _ | Lambda n
  | Comp n _ _ _ => Some n
  end.

(** resolve_loaded_symbols with _partial_resolve_ref: ipyflow_tracer.py 500-508, 616-632. *)
Definition resolve (v : env) (e : expr) : list nat :=
  let e := match e with Starred _ e' => e' | _ => e end in
  match e with
  | Name x => of_opt (lookup v x)
  | _ => match id_of e with Some n => loaded v n | None => [] end
  end.

(** The visitor's fields: [symbols], [dead], and the log of usages. *)
Record st := { syms : list nat; dead : list nat; used : list nat }.

(** _add_to_resolved: symbol_resolver.py 58-75. [kill] is _in_kill_context, [upd] is
    update_usage_info. *)
Definition add (kill upd extend usage : bool) (l : list nat) (s : st) : st :=
  if kill then {| syms := syms s; dead := supd (dead s) l; used := used s |}
  else if upd then
    let l := filter (fun x => negb (memb x (dead s))) l in
    {| syms := if extend then syms s ++ l else syms s; dead := dead s;
       used := if usage then used s ++ l else used s |}
  else s.

Definition extend (l : list nat) (s : st) : st :=
  {| syms := syms s ++ l; dead := dead s; used := used s |}.

Definition is_call (e : expr) : bool := match e with Call _ _ _ => true | _ => false end.
Definition is_chain (e : expr) : bool := match e with Attr _ _ _ | Sub _ _ _ => true | _ => false end.

(** resolve_slice_to_constant, as far as the visitor goes on with it: 163-165. *)
Definition key_of (i : expr) : option nat := match i with Const _ k => Some k | _ => None end.

(** The end of visit_Attribute and visit_Subscript: 124-130, 142-148, 165-186. [l]: what the value
    resolves to without side effects. *)
Definition fallback (v : env) (kill upd : bool) (l : list nat) (k : option nat) (s : st) : st :=
  match k, l with
  | Some k, [y] =>
    match field v y k with Some z => add kill upd true true [z] s | None => s end
  | _, _ => s
  end.

(** The visitor: 77-210. The visit of an expression without side effects, 39-44, is a visit with an
    empty list of symbols, nothing dead, and usages off. *)
Fixpoint visit (v : env) (kill upd : bool) (e : expr) (s : st) : st :=
  let quiet := fun e' => syms (visit v false false e' {| syms := []; dead := []; used := [] |}) in
  let all := fun es s => fold_left (fun s e' => visit v kill upd e' s) es s in
  match e with
  | Name x => add kill upd true true (resolve v e) s
  | Const _ _ => s
  | Op _ es => all es s
  | Lit n es =>
    match loaded v n with
    | [] => all es s
    | l => add kill upd true true l s
    end
  | Call n f args =>
    let s := if is_chain f then visit v kill upd f s else s in
    let s := add kill upd true true (resolve v f) s in
    let s := add kill upd true true (loaded v n) s in
    all args s
  | Attr n e' a =>
    let s := if is_call e' then visit v kill upd e' s else s in
    match loaded v n with
    | [] => fallback v kill upd (quiet e') (Some a) s
    | l => add kill upd true false l s
    end
  | Sub n e' i =>
    let s := if is_call e' then visit v kill upd e' s else s in
    let s := add kill upd false true (loaded v n) s in
    match loaded v n ++ quiet i with
    | [] => fallback v kill upd (quiet e') (key_of i) s
    | l => extend l s
    end
  | Starred _ _ => extend (resolve v e) s
  | Lambda n => extend (loaded v n) s
  | Comp _ ts hd gens =>
    (* killed_context: 46-56 *)
    let before := dead s in
    let s1 := fold_left (fun s e' => visit v true upd e' s) ts
                {| syms := syms s; dead := []; used := used s |} in
    let fresh := sdiff (dead s1) before in
    let s2 := {| syms := syms s1; dead := supd before (dead s1); used := used s1 |} in
    (* 209-219 *)
    let s3 := all hd s2 in
    let s4 := fold_left (fun s (g : expr * list expr) =>
                fold_left (fun s e' => visit v kill upd e' s) (snd g) (visit v kill upd (fst g) s))
                gens s3 in
    {| syms := syms s4; dead := sdiff (dead s4) fresh; used := used s4 |}
  end.

(** resolve_rval_symbols: 275-293, for an expression, updating usage information. [static]: what the
    static analysis finds, which is asked only if nothing was found. *)
Definition rvals (v : env) (static : list nat) (e : expr) : list nat :=
  match syms (visit v false true e {| syms := []; dead := []; used := [] |}) with
  | [] => static
  | l => l
  end.

(** The usages recorded on the way. *)
Definition usages (v : env) (static : list nat) (e : expr) : list nat :=
  let s := visit v false true e {| syms := []; dead := []; used := [] |} in
  match syms s with [] => used s ++ static | _ => used s end.

(** resolve_rval_symbols without updating usage information (275-293 with should_update_usage_info
    off), as the arguments of calls to libraries are resolved: ipyflow_tracer.py 1147-1167. *)
Definition arg_syms (v : env) (static : list nat) (e : expr) : list nat :=
  match syms (visit v false false e {| syms := []; dead := []; used := [] |}) with
  | [] => static
  | l => l
  end.
