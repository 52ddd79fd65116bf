(** Model of how elements of containers are matched with the parts of literals and of unpacking targets:
    tracing/utils.py:15-37, data_model/statement.py:420-575, tracing/ipyflow_tracer.py:1300-1380. *)
Require Import List Arith Bool.
Import ListNotations.
Require Import Verif.Base.

(** [match_container_obj_or_namespace_with_literal_nodes], utils.py:15-37, for sequences. [l]: what is
    left of the container, [n]: its length, [i]: position, [k]: [cur_elt_idx + 1], [cur]: [cur_node].
    Result: what is yielded, and the exception that ends the generator. Subtraction never goes below zero:
    [i < n], and [k] counts elements of [elts] that exist. *)
Section Match.
Context {A E : Type}.
Variable starred : E -> bool.
Variable elts : list E.
Definition stays (cur : option E) (n i k : nat) : option E :=
  match cur with
  | Some e => if (negb (starred e) || (n - i <=? length elts - k))%bool then None else Some e
  | None => None
  end.
Fixpoint match_loop (n i k : nat) (cur : option E) (l : list A) : list (nat * A * E) * option err :=
  match l with
  | [] => ([], None)
  | o :: l =>
      match stays cur n i k with
      | Some e => let '(r, x) := match_loop n (S i) k cur l in ((i, o, e) :: r, x)
      | None =>
          match nth_error elts k with
          | None => ([], Some IndexError)
          | Some e => let '(r, x) := match_loop n (S i) (S k) (Some e) l in ((i, o, e) :: r, x)
          end
      end
  end.
Definition match_nodes (l : list A) : list (nat * A * E) * option err := match_loop (length l) 0 0 None l.
End Match.

(** The same for dicts, utils.py:21-24: [zip] ends with the shorter one. *)
Definition match_dict {I E : Type} (items : list I) (nodes : list E) : list (I * E) := combine items nodes.

(** Targets of assignments. Starred targets are names here. *)
Inductive target := TName (x : nat) | TStar (x : nat) | TSeq (ts : list target).
Definition is_star (t : target) : bool := match t with TStar _ => true | _ => false end.

(** Objects and symbols are numbers. [so y]: the object of a symbol. A namespace belongs to a dict or to a
    sequence and has symbols for some positions. *)
Record nspace := mkNs { n_dict : bool; n_syms : nat -> option nat }.
Record world := mkWorld {
  so : nat -> nat;
  len_of : nat -> nat;
  ns_of : nat -> option nspace
}.

(** What is recorded: a name with the symbols that it depends on; a starred name with one symbol
    or none for each position. *)
Inductive rec := ROne (x : nat) (deps : list nat) | RMany (x : nat) (deps : list (option nat)).

(** [_handle_store_target_tuple_unpack_from_deps], statement.py:420-436. *)
Fixpoint from_deps (deps : list nat) (t : target) : list rec :=
  match t with
  | TName x | TStar x => [ROne x deps]
  | TSeq ts => flat_map (from_deps deps) ts
  end.

Section Handle.
Variable w : world.
(** Iteration of a namespace, namespace.py:104-125. *)
Definition entries (o : nat) (n : nspace) : list (option nat) := map (n_syms n) (seq 0 (len_of w o)).
Definition opt_list {A} (d : option A) : list A := match d with Some y => [y] | None => [] end.

(** [_handle_store_target_tuple_unpack_from_namespace], statement.py:480-527: the loop. [inner]: the
    recursive call. [star]: [saved_starred_node] and [saved_starred_deps]. [e0]: the exception of the generator. *)
Fixpoint consume (inner : list target -> nat -> nspace -> list rec * option err) (extra : list nat)
    (ps : list (nat * option nat * target)) (e0 : option err) (star : option (nat * list (option nat)))
  : list rec * option err :=
  match ps with
  | [] =>
      match e0 with
      | Some e => ([], Some e)
      | None => (match star with Some (x, ds) => [RMany x ds] | None => [] end, None)
      end
  | (_, d, t) :: ps =>
      match t with
      | TStar x =>
          consume inner extra ps e0 (Some (x, match star with Some (_, ds) => ds ++ [d] | None => [d] end))
      | TName x =>
          let '(r, e) := consume inner extra ps e0 star in (ROne x (opt_list d ++ extra) :: r, e)
      | TSeq ts =>
          match d with
          | None => ([], Some AttributeError)
          | Some y =>
              match ns_of w (so w y) with
              | None => let '(r, e) := consume inner extra ps e0 star in
                        (flat_map (from_deps (y :: extra)) ts ++ r, e)
              | Some n =>
                  match inner ts (so w y) n with
                  | (r1, Some e) => (r1, Some e)
                  | (r1, None) => let '(r, e) := consume inner extra ps e0 star in (r1 ++ r, e)
                  end
              end
          end
      end
  end.
(** [fuel]: depth of the target. A dict among the sequences: utils.py:23. *)
Fixpoint from_ns (fuel : nat) (extra : list nat) (ts : list target) (o : nat) (n : nspace) : list rec * option err :=
  match fuel with
  | 0 => ([], Some OutOfFuel)
  | S fuel =>
      if n_dict n then ([], Some AssertionError)
      else let '(ps, e) := match_nodes is_star ts (entries o n) in
           consume (from_ns fuel extra) extra ps e None
  end.
Fixpoint depth (t : target) : nat :=
  match t with TSeq ts => S (fold_right (fun t m => max (depth t) m) 0 ts) | _ => 0 end.
(** [_handle_store_target], statement.py:529-560, for an assignment to a list or tuple. [rhs]: the
    assigned object, [deps]: the symbols of the value, [call]: the value is a call. *)
Definition store_target (ts : list target) (rhs : nat) (deps : list nat) (call : bool) : list rec * option err :=
  match ns_of w rhs with
  | None => (flat_map (from_deps deps) ts, None)
  | Some n => from_ns (depth (TSeq ts)) (if call then deps else []) ts rhs n
  end.
End Handle.

(** Parts of a literal, with the symbols found for their nodes. *)
Inductive part := PPlain (syms : list nat) | PStar (syms : list nat).
Definition part_star (p : part) : bool := match p with PStar _ => true | _ => false end.
(** [after_literal], ipyflow_tracer.py:1318-1365: the elements with their dependencies. [idx]:
    [starred_idx + 1]; [sns]: [starred_namespace]. *)
Fixpoint literal_loop (w : world) (ps : list (nat * nat * part)) (idx : nat) (sns : option nspace)
  : list (nat * nat * list nat) :=
  match ps with
  | [] => []
  | (i, o, PPlain syms) :: ps => (i, o, syms) :: literal_loop w ps idx sns
  | (i, o, PStar syms) :: ps =>
      let sns := if idx =? 0 then match syms with y :: _ => ns_of w (so w y) | [] => None end else sns in
      let dep := match sns with Some n => opt_list (n_syms n idx) | None => [] end in
      (i, o, dep) :: literal_loop w ps (S idx) sns
  end.
Definition after_literal (w : world) (parts : list part) (literal : list nat) : list (nat * nat * list nat) * option err :=
  let '(ps, e) := match_nodes part_star parts literal in (literal_loop w ps 0 None, e).
