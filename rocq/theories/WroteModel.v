(** Model of what a cell is recorded to write: [core/ipyflow/data_model/scope.py]
    lines 336-367 (the end of [upsert_symbol_for_name]),
    [core/ipyflow/tracing/ipyflow_tracer.py] lines 1528-1530 (the end of
    [after_stmt]) and [core/ipyflow/data_model/symbol.py] lines 606-612 and
    1311-1325.

    Symbols and namespaces are numbers.  Left out: the rest of
    [upsert_symbol_for_name], and how [is_static_write] is computed (lines
    228-280): it is given with each write. *)
From Coq Require Import List Arith Bool.
From Verif Require Import Base.
Import ListNotations.

(** The namespaces at the time of a write.  [space]: [Symbol.namespace];
    [inside]: [containing_namespace] (symbol.py 606-612); [below]: what
    [all_symbols_this_indentation] of a namespace gives (namespace.py
    330-346), with the symbols of the class of an instance. *)
Record world := mkW {
  space : nat -> option nat;
  inside : nat -> option nat;
  below : nat -> list nat
}.

(** symbol.py 1311-1325, [get_namespace_symbols] with [recurse=True].  The
    fuel is Python's stack; the set [seen] is passed on. *)
Fixpoint gen (f : nat) (w : world) (s : nat) (seen : list nat) : res (list nat * list nat) :=
  match f with
  | 0 => Err OutOfFuel
  | S f =>
      match space w s with
      | None => Ok ([], seen)
      | Some n =>
          if memb s seen then Ok ([], seen)
          else
            (fix go (l : list nat) (seen : list nat) : res (list nat * list nat) :=
               match l with
               | [] => Ok ([], seen)
               | y :: r =>
                   match gen f w y seen with
                   | Err x => Err x
                   | Ok (a, seen1) =>
                       match go r seen1 with
                       | Err x => Err x
                       | Ok (b, seen2) => Ok (y :: a ++ b, seen2)
                       end
                   end
               end) (below w n) (s :: seen)
      end
  end.

(** cell.py 120-123: [static_writes], [dynamic_writes] and
    [_pending_dynamic_writes] of the current cell. *)
Record cell := mkC { stat : list nat; dyn : list nat; pending : list nat }.

Definition discard (y : nat) (l : list nat) : list nat :=
  filter (fun z => negb (z =? y)) l.

Definition same (a b : option nat) : bool :=
  match a, b with
  | None, None => true
  | Some x, Some y => x =? y
  | _, _ => false
  end.

(** scope.py 356-366: one round of the loop.  The second branch is about
    [sym], not [subsym]. *)
Definition round (w : world) (s : nat) (static : bool) (c : cell) (y : nat) : cell :=
  if same (inside w y) (space w s) then
    if static && negb (memb y (dyn c)) then
      mkC (sadd y (stat c)) (dyn c) (discard y (pending c))
    else
      mkC (discard s (stat c)) (dyn c) (sadd s (pending c))
  else c.

(** scope.py 350-366: the symbol and all symbols below it. *)
Definition write (f : nat) (w : world) (s : nat) (static : bool) (c : cell) : res cell :=
  match gen f w s [] with
  | Err x => Err x
  | Ok (l, _) => Ok (fold_left (round w s static) (s :: l) c)
  end.

(** ipyflow_tracer.py 1528-1530. *)
Definition done (c : cell) : cell := mkC (stat c) (supd (dyn c) (pending c)) [].

(** A run of a cell: writes, and ends of statements. *)
Inductive event := Write (w : world) (s : nat) (static : bool) | Done.

Definition step (f : nat) (c : cell) (e : event) : res cell :=
  match e with
  | Write w s b => write f w s b c
  | Done => Ok (done c)
  end.

Fixpoint run (f : nat) (c : cell) (es : list event) : res cell :=
  match es with
  | [] => Ok c
  | e :: r => match step f c e with Ok c1 => run f c1 r | Err x => Err x end
  end.

Definition empty : cell := mkC [] [] [].
