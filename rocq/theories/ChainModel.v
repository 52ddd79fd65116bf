(** The symbols that are live in a cell, through the functions it calls.
    Code: core/ipyflow/analysis/live_refs.py 487-660 (get_live_symbols_and_cells_for_references,
    _compute_call_chain_live_symbols_and_cells), with core/ipyflow/analysis/resolved_symbols.py.

    The references in the cell and in the bodies of functions, and the symbols they resolve to,
    are given. What is asked about a symbol at its place in a reference is given by tables over
    numbers, each number standing for a symbol with its atom, the next atom and the counter of the
    statement; only the atom's flags for reactivity, which are changed on the way, are explicit.
    Two such symbols that differ in the flags of the next atom alone are not told apart, which
    matters only for how often a body is visited. *)
From Coq Require Import List Arith Bool.
From Verif Require Import Base.
Import ListNotations.

(** ResolvedSymbol: resolved_symbols.py 18-34. [reac], [casc]: is_reactive and
    is_cascading_reactive of its atom; [dead]: is_killed. *)
Record rsym := { id : nat; reac : bool; casc : bool; dead : bool }.

(** LiveSymbolRef with what gen_resolved_symbols yields for it in the scope in question:
    symbol_ref.py 485-540. [root]: the first atom of the chain, if it is a name. [found]: number
    and flags of each symbol, from the first in the chain to the last. *)
Record ref := { root : option nat; killed : bool; found : list (nat * bool * bool) }.

(** gen_resolved_symbols sets is_killed of all: symbol_ref.py 534-536. *)
Definition resolved (b : ref) : list rsym :=
  map (fun '(i, r, c) => {| id := i; reac := r; casc := c; dead := killed b |}) (found b).

(** A function: the parameters that get_definition_args lists, and the references that are live in
    its body, compute_live_dead_symbol_refs: live_refs.py 600-605. *)
Record fn := { params : list nat; refs : list ref }.

(** [defs]: those symbols whose func_def_stmt is a function or lambda, live_refs.py 594-598.
    [called]: atom.is_callpoint, [next_called]: that of the next atom. [here]: the shallow timestamp
    is that of the cell. [cell_of]: the cell of the timestamp. [builtin]: builtins and
    _RESOLVER_EXCEPTIONS, live_refs.py 39. [mode]: the execution mode is reactive. The others are
    named like the properties in resolved_symbols.py and symbol.py that they stand for;
    [missing]: an item that is not there, resolved_symbols.py 161-182. *)
Record world := {
  defs : dict fn;
  called : nat -> bool; next_called : nat -> bool; is_anonymous : nat -> bool;
  is_lhs_ref : nat -> bool; is_blocking : nat -> bool; sym_cascading : nat -> bool;
  deep_reactive : nat -> bool; is_mutating : nat -> bool; missing : nat -> bool;
  here : nat -> bool; cell_of : rsym -> nat;
  builtin : nat -> bool; mode : bool }.

(** resolved_symbols.py 108-113; the liveness timestamp is never None here. *)
Definition is_live (r : rsym) : bool := negb (dead r).

(** resolved_symbols.py 80-86. *)
Definition is_cascading_reactive (w : world) (r : rsym) : bool :=
  casc r || (is_live r && sym_cascading w (id r)).

(** resolved_symbols.py 88-96. *)
Definition is_reactive (w : world) (r : rsym) : bool :=
  if is_blocking w (id r) then false
  else (reac r && negb (is_lhs_ref w (id r))) || is_cascading_reactive w r ||
       (is_live r && deep_reactive w (id r)).

(** resolved_symbols.py 147-182, for live symbols. *)
Definition is_unsafe (w : world) (r : rsym) : bool :=
  if next_called w (id r) then is_mutating w (id r) && (is_reactive w r || mode w)
  else missing w (id r).

(** Equality of the items of the worklist. *)
Definition item := (rsym * nat)%type.
Definition rsym_eqb (a b : rsym) : bool :=
  (id a =? id b) && Bool.eqb (reac a) (reac b) && Bool.eqb (casc a) (casc b) &&
  Bool.eqb (dead a) (dead b).
Definition item_eqb (a b : item) : bool := rsym_eqb (fst a) (fst b) && (snd a =? snd b).
Definition item_in (x : item) (l : list item) : bool := existsb (item_eqb x) l.

(** What the loops collect. [work]: the worklist, its end first. [uses]: the calls of
    update_usage_info, number of the symbol and statement. *)
Record st := { work : list item; live : list rsym; unresolved : list ref; uses : list (nat * nat) }.

(** live_refs.py 629-636: flags are passed on from the called symbol. *)
Definition pass_on (w : world) (c r : rsym) : rsym :=
  {| id := id r; casc := casc r || is_cascading_reactive w c;
     reac := reac r || is_reactive w c; dead := dead r |}.

(** The body of the loop over resolved symbols: live_refs.py 619-643. The boolean: did_resolve. *)
Definition follow (w : world) (c : rsym) (n : nat) (b : ref) (a : st * bool) (r : rsym) : st * bool :=
  if killed b && negb (here w (id r)) then a
  else
    let r := pass_on w c r in
    let s := fst a in
    let s := if called w (id r)
             then {| work := (r, n) :: work s; live := live s; unresolved := unresolved s;
                     uses := uses s |}
             else s in
    let s := if is_anonymous w (id r) then s
             else if is_live r && negb (is_unsafe w r)
             then {| work := work s; live := live s ++ [r]; unresolved := unresolved s;
                     uses := uses s |}
             else s in
    (s, true).

(** The last symbol that the loop saw. *)
Definition last_of (l : list rsym) : option rsym := last (map Some l) None.

Definition use (upd : bool) (b : ref) (n : nat) (s : st) : st :=
  match last_of (resolved b) with
  | Some r =>
    if upd && negb (killed b)
    then {| work := work s; live := live s; unresolved := unresolved s;
            uses := uses s ++ [(id r, n)] |}
    else s
  | None => s
  end.

(** One reference in the body of a called function: live_refs.py 607-655. *)
Definition body_ref (w : world) (upd : bool) (f : fn) (c : rsym) (n : nat) (s : st) (b : ref) : st :=
  let known := match root b with
               | Some x => negb (killed b) && (memb x (params f) || builtin w x)
               | None => false
               end in
  let (s, did) := fold_left (follow w c n b) (resolved b) (s, known) in
  let s := use upd b n s in
  if negb did && negb (killed b)
  then {| work := work s; live := live s; unresolved := unresolved s ++ [b]; uses := uses s |}
  else s.

(** The worklist: live_refs.py 579-660. *)
Fixpoint chase (fuel : nat) (w : world) (upd : bool) (seen : list item) (s : st) : res (list item * st) :=
  match fuel with
  | O => Err OutOfFuel
  | S k =>
    match work s with
    | [] => Ok (seen, s)
    | x :: rest =>
      let s := {| work := rest; live := live s; unresolved := unresolved s; uses := uses s |} in
      if item_in x seen then chase k w upd seen s
      else match dget (defs w) (id (fst x)) with
           | None => chase k w upd seen s
           | Some f =>
             chase k w upd (x :: seen)
               (fold_left (body_ref w upd f (fst x) (snd x)) (refs f) s)
           end
    end
  end.

(** live_refs.py 656-660: the cells of the functions seen. *)
Definition live_cells (w : world) (seen : list item) : list nat :=
  map (fun x => cell_of w (fst x)) (filter (fun x => is_live (fst x)) seen).

(** A reference in the cell itself, with the counter of its statement. *)
Definition cell_ref := (ref * nat)%type.

(** live_refs.py 498-521: whether symbols that are unsafe are let pass. [in_order]: the flow order;
    positions of the current cell, the cell, and its parents; without [pos] there is no cell. *)
Definition allow_unsafe (in_order : bool) (pos : option nat) (current : nat) (parents : list nat) : bool :=
  match pos with
  | Some p =>
    if in_order then
      if p <=? current then true
      else current <? fold_left Nat.min parents p
    else false
  | None => false
  end.

(** The loop over resolved symbols: live_refs.py 532-551. The booleans: did_resolve, and whether
    usage is to be updated. [used]: used_symbols of the cell. *)
Definition own (w : world) (unsafe : bool) (used : nat -> bool) (b : cell_ref)
    (a : st * bool * bool) (r : rsym) : st * bool * bool :=
  let '(s, did, upd) := a in
  let upd := upd && negb (used (id r)) in
  if killed (fst b) && negb (here w (id r)) then (s, did, upd)
  else
    let s := if called w (id r)
             then {| work := (r, snd b) :: work s; live := live s; unresolved := unresolved s;
                     uses := uses s |}
             else s in
    let s := if is_live r && (unsafe || negb (is_unsafe w r))
             then {| work := work s; live := live s ++ [r]; unresolved := unresolved s;
                     uses := uses s |}
             else s in
    (s, true, upd).

(** One reference in the cell: live_refs.py 522-564. *)
Definition own_ref (w : world) (unsafe upd : bool) (used : nat -> bool) (s : st) (b : cell_ref) : st :=
  let known := match root (fst b) with Some x => builtin w x | None => false end in
  let '(s, did, upd) := fold_left (own w unsafe used b) (resolved (fst b)) (s, known, upd) in
  let s := use upd (fst b) (snd b) s in
  if negb did && negb (killed (fst b))
  then {| work := work s; live := live s; unresolved := unresolved s ++ [fst b]; uses := uses s |}
  else s.

(** get_live_symbols_and_cells_for_references: live_refs.py 487-576, with the usages recorded. *)
Definition references (fuel : nat) (w : world) (unsafe upd : bool) (used : nat -> bool)
    (l : list cell_ref) : res (list rsym * list nat * list ref * list (nat * nat)) :=
  let s := fold_left (own_ref w unsafe upd used) l
             {| work := []; live := []; unresolved := []; uses := [] |} in
  rmap (fun p : list item * st =>
          (live (snd p), live_cells w (fst p), unresolved (snd p), uses (snd p)))
    (chase fuel w upd [] s).
