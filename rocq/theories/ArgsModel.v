(** The symbols made for the parameters of a function when it is called.
    Code: core/ipyflow/data_model/symbol.py 819-933.

    Names and expressions are numbers; the name 0 is "self". The symbols that an expression loads
    (resolve_loaded_symbols) are not expanded: a parameter is matched with the expression.
    Left out: the values of the parameters, log messages, and the cases in which no call node is
    found at all (property getters, subscripts, tracing switched off): 879-909. *)
From Coq Require Import List Arith Bool.
From Verif Require Import Base.
Import ListNotations.

(** The [ast.arguments] of a definition. [d_defaults] are the defaults of the last parameters of
    [d_pos ++ d_args], as in Python's ast. *)
Record fundef := {
  d_pos : list nat;       (* posonlyargs *)
  d_args : list nat;      (* args *)
  d_kwonly : list nat;    (* kwonlyargs; their defaults (kw_defaults) are never read *)
  d_vararg : option nat;
  d_kwarg : option nat;
  d_defaults : list nat }.

(** A positional argument of a call, starred or not. *)
Inductive argument := Plain (e : nat) | Star (e : nat).

(** An [ast.Call]: arguments and keywords; a keyword without name is [**e]. *)
Record call := { c_args : list argument; c_keywords : list (option nat * nat) }.

(** [l[-n:]], where [-0] is 0. *)
Definition last_n (n : nat) (l : list nat) : list nat :=
  if n =? 0 then l else skipn (length l - n) l.

(** [l[:-n]] for n > 0. *)
Definition but_last_n (n : nat) (l : list nat) : list nat := firstn (length l - n) l.

(** get_definition_args: symbol.py 819-830. *)
Definition definition_args (d : fundef) : list nat :=
  d_args d ++ d_kwonly d ++
  match d_vararg d with Some v => [v] | None => [] end ++
  match d_kwarg d with Some v => [v] | None => [] end.

(** The zip of 858-864, which stops at a starred argument. *)
Fixpoint zip_args (ps : list nat) (es : list argument) : list (nat * nat) :=
  match ps, es with
  | p :: ps', Plain e :: es' => (p, e) :: zip_args ps' es'
  | _, _ => []
  end.

(** _match_call_args_with_definition_args: symbol.py 832-878. *)
Definition matches (d : fundef) (c : call) : list (nat * nat) :=
  let n := length (d_defaults d) in
  let kwargs := last_n n (d_args d) in
  let known := fun k : option nat * nat =>
    match fst k with Some x => memb x kwargs | None => false end in
  if negb (forallb known (c_keywords c)) then []
  else
    let defs := if n =? 0 then d_args d else but_last_n n (d_args d) in
    let defs := match defs with 0 :: ps => ps | _ => defs end in
    let given := flat_map (fun k : option nat * nat =>
                   match fst k with Some x => [(x, snd k)] | None => [] end) (c_keywords c) in
    let seen := map fst given in
    zip_args defs (c_args c) ++ given ++
    filter (fun pe : nat * nat => negb (memb (fst pe) seen))
      (combine (last_n n (d_args d)) (d_defaults d)).

(** create_symbols_for_call_args: symbol.py 910-933. The symbols in the new scope, each with the
    expression it depends on, if any. *)
Definition parameters (d : fundef) (c : call) : dict (option nat) :=
  let ms := matches d c in
  let s1 := fold_left (fun s (pe : nat * nat) => dset s (fst pe) (Some (snd pe))) ms [] in
  fold_left (fun s p => if memb p (map fst ms) then s else dset s p None) (definition_args d) s1.
