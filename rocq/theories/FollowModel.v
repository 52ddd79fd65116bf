(** Model of how a chain of attributes, subscripts and calls is followed:
    [core/ipyflow/tracing/ipyflow_tracer.py], [attrsub_tracer],
    [_clear_info_and_maybe_lookup_or_create_complex_symbol],
    [after_complex_symbol], [before_call], [after_call] and
    [resolve_store_data_for_target].

    The program is a set of expressions evaluated in a fixed world: what each
    name is bound to, what each attribute or subscript of each object gives
    and what each call returns.  Objects, names, attributes, subscript values
    and AST node ids are numbers; object 0 is [None].  Evaluation emits the
    events in the order of [core/test/test_trace_events.py] lines 455-490:
    the value of a subscript, then its slice, then [before_subscript_load].

    Left out: tracing of the bodies of called functions, classes defined in
    the notebook (whose namespaces are cloned for their instances), module
    symbols, usage records, and namespaces' names. *)
From Coq Require Import List Arith Bool.
From Verif Require Import Base.
Import ListNotations.

(** [ipyflow/data_model/symbol.py] lines 96-160: a symbol is found by its
    scope, its name and whether it is a subscript.  [KAnon o] is the name
    ["<anonymous_symbol_%d>" % id(obj)] of [ipyflow_tracer.py] line 1032. *)
Inductive key := KAttr (k : nat) | KSub (i : nat) | KAnon (o : nat).

(** Either the scope of the current frame ([cur_frame_original_scope],
    [ipyflow_tracer.py] line 218) or the namespace of an object
    ([flow().namespaces], lines 646-649). *)
Inductive scope := SFrame | SNs (o : nat).

Definition sym : Type := scope * key.

(** What Python gives: names, attributes and subscripts, calls; [oksub]: the
    subscript values of a type in [SubscriptIndices.types]
    ([ipyflow_tracer.py] lines 975-983). *)
Record world := mkW {
  env : nat -> option nat;
  fld : nat -> key -> option nat;
  callr : nat -> list nat -> option nat;
  oksub : nat -> bool
}.

(** Expressions.  [ELoad n c]: a "complex symbol", the chain [c] whose top
    node has id [n]. *)
Inductive expr :=
| EConst (o : nat)
| EName (x : nat)
| ELoad (n : nat) (c : chain)
with chain :=
| CBase (e : expr)
| CAttr (c : chain) (k : nat)
| CSub (c : chain) (e : expr)
| CCall (c : chain) (a : args)
with args :=
| ANil
| ACons (e : expr) (a : args).

(** [ipyflow_tracer.py] lines 188-231: the fields of the tracer used here.
    [loaded]: [node_id_to_loaded_symbols], as the log of what is appended;
    [calls]: the log of the external call candidates (lines 1225-1243: the
    object and the attribute taken to be called, and the function);
    [stored]: [node_id_to_saved_store_data]; [lex]: [lexical_call_stack]. *)
Record st := mkS {
  syms : list (sym * nat);
  first : option nat;
  top : option nat;
  saved : option (nat * key);
  active : scope;
  loaded : list (nat * sym);
  calls : list (option (nat * key) * nat);
  stored : list (nat * (nat * key));
  lex : list (option nat * option nat * option (nat * key))
}.

(** Equality of symbols' places. *)
Definition key_eqb (a b : key) : bool :=
  match a, b with
  | KAttr x, KAttr y => x =? y
  | KSub x, KSub y => x =? y
  | KAnon x, KAnon y => x =? y
  | _, _ => false
  end.
Definition scope_eqb (a b : scope) : bool :=
  match a, b with
  | SFrame, SFrame => true
  | SNs x, SNs y => x =? y
  | _, _ => false
  end.
Definition sym_eqb (a b : sym) : bool :=
  scope_eqb (fst a) (fst b) && key_eqb (snd a) (snd b).

(** [ipyflow/data_model/scope.py] lines 120-127,
    [lookup_symbol_by_name_this_indentation]: the object of the symbol. *)
Fixpoint slook (l : list (sym * nat)) (y : sym) : option nat :=
  match l with
  | [] => None
  | (z, o) :: r => if sym_eqb y z then Some o else slook r y
  end.

(** [scope.py] lines 282-343, [upsert_symbol_for_name], and [symbol.py] lines
    710-740, [update_obj_ref]: the symbol's object is set. *)
Definition sput (y : sym) (o : nat) (s : st) : st :=
  mkS ((y, o) :: syms s) (first s) (top s) (saved s) (active s)
      (loaded s) (calls s) (stored s) (lex s).

Definition set_saved (v : option (nat * key)) (s : st) : st :=
  mkS (syms s) (first s) (top s) v (active s) (loaded s) (calls s) (stored s) (lex s).
Definition set_active (v : scope) (s : st) : st :=
  mkS (syms s) (first s) (top s) (saved s) v (loaded s) (calls s) (stored s) (lex s).
Definition load (n : nat) (y : sym) (s : st) : st :=
  mkS (syms s) (first s) (top s) (saved s) (active s)
      (loaded s ++ [(n, y)]) (calls s) (stored s) (lex s).

(** [ipyflow_tracer.py] lines 777-817,
    [_clear_info_and_maybe_lookup_or_create_complex_symbol]. *)
Definition clear_lookup (o : nat) (s : st) : option sym * st :=
  match saved s with
  | None => (None, s)
  | Some (p, k) =>
      let s1 := set_saved None s in
      let y := (SNs p, k) in
      match slook (syms s1) y with
      | None => (Some y, sput y o s1)
      | Some o1 => if o1 =? o then (Some y, s1) else (Some y, sput y o s1)
      end
  end.

(** [scope.py] lines 84-118 and 128-150, [get]: the name in the active scope, else in the
    scope of the frame (the scopes between them are left out). *)
Definition get_name (s : st) (x : nat) : option sym :=
  match slook (syms s) (active s, KAttr x) with
  | Some _ => Some (active s, KAttr x)
  | None =>
      match slook (syms s) (SFrame, KAttr x) with
      | Some _ => Some (SFrame, KAttr x)
      | None => None
      end
  end.

(** [ipyflow_tracer.py] lines 930-936: the symbol of the object. *)
Definition sym_for (o : nat) (nm : option nat) (s : st) : option sym * st :=
  let (so, s1) := clear_lookup o s in
  match so, nm with
  | None, Some x => (get_name s1 x, s1)
  | _, _ => (so, s1)
  end.

(** [ipyflow_tracer.py] lines 938-972: the symbol of the attribute is only
    looked up if the symbol of the object is known to be for that object, and
    is then loaded at the top node of the chain. *)
Definition note (n o : nat) (k : key) (so : option sym) (s : st) : st :=
  let found :=
    match so with
    | Some y =>
        match slook (syms s) y with
        | Some o1 =>
            if o1 =? o then
              match slook (syms s) (SNs o, k) with
              | Some _ => true
              | None => false
              end
            else false
        | None => false
        end
    | None => false
    end in
  let t := match top s with Some m => m | None => n end in
  let s1 := mkS (syms s) (match first s with Some f => Some f | None => Some o end)
                (Some t) (saved s) (active s) (loaded s) (calls s) (stored s) (lex s) in
  if found then load t (SNs o, k) s1 else s1.

(** [ipyflow_tracer.py] lines 975-983: whether the data of a load are saved.
    Lists and tuples of subscripts count as one value. *)
Definition supported (W : world) (k : key) : bool :=
  match k with
  | KSub i => oksub W i
  | _ => true
  end.

(** [ipyflow_tracer.py] lines 1020-1046: before a call the symbol of the
    object is loaded too, made if there is none: in the active scope, under
    the name of the object with the [is_subscript] of the event. *)
Definition receiver (o : nat) (nm : option nat) (k : key) (so : option sym) (s : st) : st :=
  let (y, s1) :=
    match so with
    | Some y => (y, s)
    | None =>
        let kk := match nm with
                  | None => KAnon o
                  | Some x => match k with KSub _ => KSub x | _ => KAttr x end
                  end in
        ((active s, kk), sput (active s, kk) o s)
    end in
  match top s1 with
  | Some t => load t y s1
  | None => s1
  end.

(** [ipyflow_tracer.py] lines 910-1048, [attrsub_tracer] for loads. *)
Definition attrsub (W : world) (n o : nat) (nm : option nat) (k : key) (cc : bool) (s : st) : st :=
  if o =? 0 then s
  else
    let (so, s1) := sym_for o nm s in
    let s2 := note n o k so s1 in
    if supported W k then
      let s3 := set_saved (Some (o, k)) s2 in
      let s4 := if cc then receiver o nm k so s3 else s3 in
      set_active (SNs o) s4
    else set_active (SNs o) s2.

(** The same for stores: lines 984-1000. *)
Definition attrsub_store (W : world) (n o : nat) (nm : option nat) (k : key) (s : st) : st :=
  if o =? 0 then s
  else
    let (so, s1) := sym_for o nm s in
    let s2 := note n o k so s1 in
    let s3 :=
      if supported W k then
        mkS (syms s2) (first s2) (top s2) (saved s2) (active s2)
            (loaded s2) (calls s2) ((n, (o, k)) :: stored s2) (lex s2)
      else s2 in
    set_active (SNs o) s3.

(** [ipyflow_tracer.py] lines 1050-1069, [after_complex_symbol]; the flag is
    false when the assertion of line 1057 fails. *)
Definition after_complex (o : nat) (s : st) : bool * st :=
  let reset s := mkS (syms s) None None None SFrame (loaded s) (calls s) (stored s) (lex s) in
  match first s with
  | None => (true, reset s)
  | Some _ =>
      match top s with
      | None => (false, reset s)
      | Some t =>
          let (so, s1) := clear_lookup o s in
          (true, reset (match so with Some y => load t y s1 | None => s1 end))
      end
  end.

(** [ipyflow_tracer.py] lines 1195-1248, [before_call]: the saved data are
    taken for what is called, and the state of the chain is pushed. *)
Definition before_call (f : nat) (s : st) : st :=
  mkS (syms s) None None None SFrame (loaded s)
      (calls s ++ [(saved s, f)]) (stored s) ((first s, top s, None) :: lex s).

(** [ipyflow_tracer.py] lines 1259-1282, [after_call]. *)
Definition after_call (s : st) : st :=
  match lex s with
  | [] => s
  | (f, t, v) :: r =>
      mkS (syms s) f t v (active s) (loaded s) (calls s) (stored s) r
  end.

(** [obj_name]: the name, if the object is one. *)
Definition name_of (c : chain) : option nat :=
  match c with
  | CBase (EName x) => Some x
  | _ => None
  end.

(** Evaluation, with the events; [AttributeError] stands for any exception of
    the program, [AssertionError] is the tracer's own. *)
Fixpoint ev_expr (W : world) (e : expr) (s : st) : res nat * st :=
  match e with
  | EConst o => (Ok o, s)
  | EName x =>
      match env W x with
      | Some o => (Ok o, s)
      | None => (Err AttributeError, s)
      end
  | ELoad n c =>
      match ev_chain W n c false s with
      | (Ok o, s1) =>
          let (ok, s2) := after_complex o s1 in
          if ok then (Ok o, s2) else (Err AssertionError, s2)
      | (Err x, s1) => (Err x, s1)
      end
  end
with ev_chain (W : world) (n : nat) (c : chain) (cc : bool) (s : st) : res nat * st :=
  match c with
  | CBase e => ev_expr W e s
  | CAttr d k =>
      match ev_chain W n d false s with
      | (Ok o, s1) =>
          let s2 := attrsub W n o (name_of d) (KAttr k) cc s1 in
          match fld W o (KAttr k) with
          | Some v => (Ok v, s2)
          | None => (Err AttributeError, s2)
          end
      | (Err x, s1) => (Err x, s1)
      end
  | CSub d e =>
      match ev_chain W n d false s with
      | (Ok o, s1) =>
          match ev_expr W e s1 with
          | (Ok i, s2) =>
              let s3 := attrsub W n o (name_of d) (KSub i) cc s2 in
              match fld W o (KSub i) with
              | Some v => (Ok v, s3)
              | None => (Err AttributeError, s3)
              end
          | (Err x, s2) => (Err x, s2)
          end
      | (Err x, s1) => (Err x, s1)
      end
  | CCall d a =>
      match ev_chain W n d true s with
      | (Ok f, s1) =>
          match ev_args W a (before_call f s1) with
          | (Ok l, s2) =>
              match callr W f l with
              | Some v => (Ok v, after_call s2)
              | None => (Err AttributeError, s2)
              end
          | (Err x, s2) => (Err x, s2)
          end
      | (Err x, s1) => (Err x, s1)
      end
  end
with ev_args (W : world) (a : args) (s : st) : res (list nat) * st :=
  match a with
  | ANil => (Ok [], s)
  | ACons e r =>
      match ev_expr W e s with
      | (Ok o, s1) =>
          match ev_args W r s1 with
          | (Ok l, s2) => (Ok (o :: l), s2)
          | (Err x, s2) => (Err x, s2)
          end
      | (Err x, s1) => (Err x, s1)
      end
  end.

(** Targets of assignments: an attribute or a subscript of a chain. *)
Inductive target := TAttr (n : nat) (c : chain) (k : nat) | TSub (n : nat) (c : chain) (e : expr).

(** The events of one target. *)
Definition ev_target (W : world) (t : target) (s : st) : res unit * st :=
  match t with
  | TAttr n c k =>
      match ev_chain W n c false s with
      | (Ok o, s1) => (Ok tt, attrsub_store W n o (name_of c) (KAttr k) s1)
      | (Err x, s1) => (Err x, s1)
      end
  | TSub n c e =>
      match ev_chain W n c false s with
      | (Ok o, s1) =>
          match ev_expr W e s1 with
          | (Ok i, s2) => (Ok tt, attrsub_store W n o (name_of c) (KSub i) s2)
          | (Err x, s2) => (Err x, s2)
          end
      | (Err x, s1) => (Err x, s1)
      end
  end.

(** The targets of an assignment one after the other, each in the world it
    finds. *)
Fixpoint ev_targets (l : list (world * target)) (s : st) : res unit * st :=
  match l with
  | [] => (Ok tt, s)
  | (W, t) :: r =>
      match ev_target W t s with
      | (Ok _, s1) => ev_targets r s1
      | (Err x, s1) => (Err x, s1)
      end
  end.

(** [ipyflow_tracer.py] lines 299-308, [after_stmt_reset_hook]. *)
Definition after_stmt (s : st) : st :=
  mkS (syms s) None None None SFrame (loaded s) (calls s) (stored s) (lex s).

Definition is_sub (k : key) : bool := match k with KSub _ => true | _ => false end.

(** [namespace.py] lines 371-375: a symbol of the namespace, of the same
    kind, has the object. *)
Definition contains (s : st) (p : nat) (sub : bool) (v : nat) : bool :=
  existsb (fun x =>
             match fst x with
             | (SNs q, k) =>
                 (q =? p) && Bool.eqb (is_sub k) sub &&
                 match slook (syms s) (fst x) with
                 | Some o => o =? v
                 | None => false
                 end
             | _ => false
             end) (syms s).

(** [namespace.py] lines 360-377, [get_earliest_ancestor_containing]; the
    list is the namespace followed by its [namespace_parent_scope], that
    one's, and so on. *)
Fixpoint earliest (s : st) (l : list nat) (sub : bool) (v : nat) : option nat :=
  match l with
  | [] => None
  | p :: r =>
      match earliest s r sub v with
      | Some q => Some q
      | None => if contains s p sub v then Some p else None
      end
  end.

(** [ipyflow_tracer.py] lines 544-608, [resolve_store_data_for_target]: the
    namespace and the name under which the value [v] is recorded. *)
Fixpoint slot (n : nat) (l : list (nat * (nat * key))) : option (nat * key) :=
  match l with
  | [] => None
  | (m, d) :: r => if n =? m then Some d else slot n r
  end.
Definition resolve_store (above : nat -> list nat) (n v : nat) (s : st) : res (nat * key) :=
  match slot n (stored s) with
  | None => Err KeyError
  | Some (o, k) =>
      if v =? 0 then Ok (o, k)
      else
        match earliest s (o :: above o) (is_sub k) v with
        | Some p => Ok (p, k)
        | None => Ok (o, k)
        end
  end.
