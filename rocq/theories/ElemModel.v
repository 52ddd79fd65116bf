(** Model of the symbols for the elements of a list, and of the calls and statements that change the
    list: tracing/external_calls/list_handlers.py, base_handlers.py:312-331,
    data_model/namespace.py:287-328, data_model/statement.py:580-591 and 700-710. *)
Require Import List ZArith Bool Arith.
Import ListNotations.
Require Import Verif.Base.
Local Open Scope Z_scope.

(** Objects are numbers. A symbol has an identity and describes an object. *)
Record sym := mkSym { s_id : nat; s_obj : nat }.

(** [_subscript_symbol_by_name] for integer keys. The order of its entries is not modelled. *)
Definition syms := list (Z * sym).
Fixpoint zget (d : syms) (k : Z) : option sym :=
  match d with
  | [] => None
  | (k', v) :: d => if k =? k' then Some v else zget d k
  end.
Definition zdel (d : syms) (k : Z) : syms := filter (fun p => negb (fst p =? k)) d.
Definition zset (d : syms) (k : Z) (v : sym) : syms := (k, v) :: zdel d k.

(** [range(a, b)] *)
Definition range (a b : Z) : list Z := map (fun i => a + Z.of_nat i) (seq 0 (Z.to_nat (b - a))).
Definition len (l : list nat) : Z := Z.of_nat (length l).

(** [_remap_sym], namespace.py:287-301, without the update of dependents. *)
Definition remap (s : syms) (from to : Z) : syms :=
  match zget s from with
  | None => s
  | Some y => zset (zdel s from) to y
  end.
(** [shuffle_symbols_upward_from], namespace.py:303-306; [l]: the list now. *)
Definition upward (l : list nat) (s : syms) (pos : Z) : syms :=
  fold_left (fun s i => remap s (i - 1) i) (rev (range (pos + 1) (len l))) s.
(** [_shuffle_symbols_downward_to], namespace.py:308-311. *)
Definition downward (l : list nat) (s : syms) (pos : Z) : syms :=
  fold_left (fun s i => remap s i (i - 1)) (range (pos + 1) (len l + 1)) s.
(** [delete_symbol_for_name], namespace.py:313-328, for a subscript. *)
Definition delete (l : list nat) (s : syms) (name : Z) : syms :=
  let name := match zget s name with
              | None => if name =? -1 then len l else name
              | Some _ => name
              end in
  downward l (zdel s name) name.

(** [upsert_symbol_for_name], scope.py:282-440, as far as the key, identity and object of the symbol go.
    [n]: identity of the next new symbol. *)
Definition upsert (s : syms) (n : nat) (name : Z) (obj : nat) : syms * nat :=
  match zget s name with
  | Some y => (zset s name (mkSym (s_id y) obj), n)
  | None => (zset s name (mkSym n obj), S n)
  end.

(** [obj[i]] *)
Definition index (l : list nat) (i : Z) : option nat :=
  if i <? 0 then (if i + len l <? 0 then None else nth_error l (Z.to_nat (i + len l)))
  else nth_error l (Z.to_nat i).

(** Names in the order of [NamespaceClear], base_handlers.py:321-330: by [n or -1], backwards. *)
Definition or_minus_1 (n : Z) : Z := if n =? 0 then -1 else n.
Fixpoint insert_name (n : Z) (l : list Z) : list Z :=
  match l with
  | [] => [n]
  | m :: l' => if or_minus_1 m <=? or_minus_1 n then n :: l else m :: insert_name n l'
  end.
Definition sort_names (l : list Z) : list Z := fold_right insert_name [] l.

(** What the handlers know when they run at the end of the statement. [HExtend]: the length of the
    list before the arguments were evaluated, list_handlers.py:27-28. [HInsert]: [plain] says that
    there are two positional arguments and that at most one symbol of the second one has the
    inserted object, 50-57. [HRemove]: the position, 74-91, or [None]. [HDel]: [del x[i]]. *)
Inductive handler :=
| HExtend (orig : Z)
| HInsert (pos : Z) (plain : bool)
| HRemove (pos : option Z)
| HClear
| HDel (pos : Z).

(** State: the list, the symbols and the next identity. *)
Record st := mkSt { t_list : list nat; t_syms : syms; t_next : nat }.

(** [handle_namespace] and the like, with the list [l] as it is at the end of the statement. *)
Definition handle (l : list nat) (s : syms) (n : nat) (h : handler) : syms * nat * option err :=
  match h with
  | HExtend orig =>
      let '(s, n) := fold_left (fun sn i => match index l i with
                                            | Some o => upsert (fst sn) (snd sn) i o
                                            | None => sn
                                            end) (range orig (len l)) (s, n) in
      (s, n, None)
  | HInsert pos plain =>
      if plain then
        let s := upward l s pos in
        match index l pos with
        | None => (s, n, Some IndexError)
        | Some o => let '(s, n) := upsert s n pos o in (s, n, None)
        end
      else (s, n, None)
  | HRemove None => (s, n, None)
  | HRemove (Some pos) => (delete l s pos, n, None)
  | HClear => (fold_left (delete l) (sort_names (map fst s)) s, n, None)
  | HDel pos => (delete l s pos, n, None)
  end.
(** The loop, statement.py:700-703: an exception ends it. *)
Fixpoint handle_all (l : list nat) (s : syms) (n : nat) (hs : list handler) : syms * nat :=
  match hs with
  | [] => (s, n)
  | h :: hs =>
      let '(s, n, e) := handle l s n h in
      match e with Some _ => (s, n) | None => handle_all l s n hs end
  end.

(** Python's operations. *)
Inductive op :=
| Append (v : nat)
| Extend (vs : list nat)
| Insert (pos : Z) (v : nat) (plain : bool)
| Remove (v : nat)
| Pop (pos : option Z)
| Clear
| Del (pos : Z).

(** Python's [==], with identity. *)
Section Eq.
Variable eqb : nat -> nat -> bool.
(** [list.index] *)
Fixpoint find (v : nat) (l : list nat) : option nat :=
  match l with
  | [] => None
  | x :: l => if eqb x v then Some 0%nat else match find v l with Some i => Some (S i) | None => None end
  end.
Definition cut (l : list nat) (i : nat) : list nat := firstn i l ++ skipn (S i) l.
Definition put (l : list nat) (i : nat) (v : nat) : list nat := firstn i l ++ v :: skipn i l.
Definition cut_at (l : list nat) (i : Z) : option (list nat) :=
  let j := if i <? 0 then i + len l else i in
  if ((0 <=? j) && (j <? len l))%bool then Some (cut l (Z.to_nat j)) else None.
(** The list afterwards, or [None] if Python raises. Positions of [insert] are clipped. *)
Definition exec (o : op) (l : list nat) : option (list nat) :=
  match o with
  | Append v => Some (l ++ [v])
  | Extend vs => Some (l ++ vs)
  | Insert pos v _ =>
      let j := if pos <? 0 then Z.max 0 (pos + len l) else Z.min pos (len l) in
      Some (put l (Z.to_nat j) v)
  | Remove v => match find v l with Some i => Some (cut l i) | None => None end
  | Pop None => cut_at l (-1)
  | Pop (Some i) => cut_at l i
  | Clear => Some []
  | Del i => cut_at l i
  end.
(** The handler that is created. [before]: the list before the arguments were evaluated;
    [now]: the list when the call is made. *)
Definition handler_of (o : op) (before now : list nat) : handler :=
  match o with
  | Append _ | Extend _ => HExtend (len before)
  | Insert pos _ plain => HInsert pos plain
  | Remove v => HRemove (option_map Z.of_nat (find v now))
  | Pop pos => HRemove pos
  | Clear => HClear
  | Del pos => HDel pos
  end.

(** A statement makes some calls. With each: how many of the calls had been made when its arguments
    were evaluated. [None]: one of them raises.
    A statement is traced once in each execution of a cell; how a loop is made up for afterwards
    (ipyflow_tracer.py:1531-1550) is not modelled. *)
Fixpoint run_calls (hist : list (list nat)) (l : list nat) (cs : list (nat * op))
  : option (list nat * list handler) :=
  match cs with
  | [] => Some (l, [])
  | (k, o) :: cs =>
      match exec o l with
      | None => None
      | Some l' =>
          match run_calls (hist ++ [l']) l' cs with
          | None => None
          | Some (l2, hs) => Some (l2, handler_of o (nth k hist l) l :: hs)
          end
      end
  end.
Definition run_stmt (t : st) (cs : list (nat * op)) : option st :=
  match run_calls [t_list t] (t_list t) cs with
  | None => None
  | Some (l, hs) => let '(s, n) := handle_all l (t_syms t) (t_next t) hs in Some (mkSt l s n)
  end.
(** A statement with one call; if it raises, nothing happens. *)
Definition step (t : st) (o : op) : st :=
  match run_stmt t [(0%nat, o)] with Some t' => t' | None => t end.
Definition steps (os : list op) (t : st) : st := fold_left step os t.
End Eq.
