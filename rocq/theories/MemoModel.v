(** Model of result reuse by [%%memoize]: the comparables of
    core/ipyflow/data_model/symbol.py:1446-1568, and recording and finding earlier runs in
    core/ipyflow/data_model/cell.py:320-360, 568-605. *)
Require Import List ZArith Bool Arith.
Import ListNotations.
Require Import Verif.Base Verif.TimestampModel.
Local Open Scope nat_scope.

(** ** Objects *)

Inductive numkind := KBool | KInt | KFloat.

(** A Python object, by what [make_memoize_comparable_for_obj] (symbol.py:1480-1547) can see
    of it. Contents refer to other objects by id. Texts are numbers, in the order of
    Python's [<]. [OArr] stands for numpy arrays and data frames. [OOther] is any object that
    gets no comparable. Not modelled: functions, classes and widgets. *)
Inductive obj :=
| ONum (k : numkind) (z : Z)
| OStr (s : nat)
| OBytes (s : nat)
| OBytearray (s : nat)
| OList (l : list nat)
| OTuple (l : list nat)
| OSet (l : list nat)
| ODict (l : list (nat * nat))
| OArr (size : nat)
| OOther.

Definition heap := nat -> obj.

(** What is stored for later comparison. Lists, sets, tuples and dicts are copied; a
    [bytearray] and an array are stored themselves (symbol.py:1484-1485, 1530, 1539), so
    they go on changing: [CByteRef] and [CArr] hold the object's id. *)
Inductive comp :=
| CNum (k : numkind) (z : Z)
| CStr (s : nat)
| CBytes (s : nat)
| CByteRef (r : nat)
| CArr (r : nat)
| CList (l : list comp)
| CSet (l : list comp).

(** The comparison that goes with it: [_equal], [_array_equal] / [_dataframe_equal], or what
    [_make_list_eq] returns. *)
Inductive eqf := EqPy | EqArr | EqSeq (l : list eqf).

Definition is_eqpy (e : eqf) : bool := match e with EqPy => true | _ => false end.

(** Python's [==] between comparables, symbol.py:1448-1450, in a heap (for the stored
    references). Simplification: an array equals nothing here; only [_array_equal] compares
    arrays. *)
Fixpoint ceq (h : heap) (a b : comp) {struct a} : bool :=
  match a with
  | CNum _ z => match b with CNum _ z' => Z.eqb z z' | _ => false end
  | CStr s => match b with CStr s' => Nat.eqb s s' | _ => false end
  | CBytes s =>
      match b with
      | CBytes s' => Nat.eqb s s'
      | CByteRef r => match h r with OBytearray s' => Nat.eqb s s' | _ => false end
      | _ => false
      end
  | CByteRef r =>
      match h r with
      | OBytearray s =>
          match b with
          | CBytes s' => Nat.eqb s s'
          | CByteRef r' => match h r' with OBytearray s' => Nat.eqb s s' | _ => false end
          | _ => false
          end
      | _ => false
      end
  | CArr _ => false
  | CList l =>
      match b with
      | CList l' =>
          (fix go (l l' : list comp) : bool :=
             match l, l' with
             | [], [] => true
             | x :: l, y :: l' => (ceq h x y && go l l')%bool
             | _, _ => false
             end) l l'
      | _ => false
      end
  | CSet l =>
      match b with
      | CSet l' =>
          (forallb (fun x => existsb (ceq h x) l') l &&
           forallb (fun y => existsb (fun x => ceq h x y) l) l')%bool
      | _ => false
      end
  end.

(** ** Making comparables *)

(** [<] between dict keys. Keys are taken to be numbers or texts; anything else (and a mix of
    both) raises, as Python does for a mix. *)
Definition key_lt (h : heap) (a b : nat) : res bool :=
  match h a, h b with
  | ONum _ z, ONum _ z' => Ok (Z.ltb z z')
  | OStr s, OStr s' => Ok (Nat.ltb s s')
  | OBytes s, OBytes s' => Ok (Nat.ltb s s')
  | _, _ => Err TypeError
  end.

(** [sorted(obj.items())], symbol.py:1496. Keys differ, so only keys are compared. *)
Fixpoint insert (h : heap) (p : nat * nat) (l : list (nat * nat)) : res (list (nat * nat)) :=
  match l with
  | [] => Ok [p]
  | q :: l' =>
      rbind (key_lt h (fst p) (fst q)) (fun lt =>
        if lt then Ok (p :: l) else rmap (cons q) (insert h p l'))
  end.

Fixpoint sort (h : heap) (l : list (nat * nat)) : res (list (nat * nat)) :=
  match l with
  | [] => Ok []
  | p :: l' => rbind (sort h l') (insert h p)
  end.

Definition result := option (comp * eqf * nat).

(** The loop of symbol.py:1499-1509 over the elements; [one] makes the comparable of one
    element. [None]: no comparable. *)
Fixpoint elems {A} (cap : nat) (one : list nat -> A -> res (result * list nat)) (l : list A)
    (size : nat) (cs : list comp) (es : list eqf) (seen : list nat)
    : res (option (list comp * list eqf * nat) * list nat) :=
  match l with
  | [] => Ok (Some (cs, es, size), seen)
  | a :: l' =>
      rbind (one seen a) (fun r =>
        match fst r with
        | None => Ok (None, snd r)
        | Some (c, e, n) =>
            let size := size + (n + 1) in
            if Nat.ltb cap size then Ok (None, snd r)
            else elems cap one l' size (cs ++ [c]) (es ++ [e]) (snd r)
        end)
  end.

Definition hashable (c : comp) : bool :=
  match c with CList _ | CByteRef _ | CArr _ => false | _ => true end.

(** symbol.py:1510-1517 for a list, tuple or dict. *)
Definition finish_seq (r : option (list comp * list eqf * nat)) : result :=
  match r with
  | None => None
  | Some (cs, es, n) => Some (CList cs, if forallb is_eqpy es then EqPy else EqSeq es, n)
  end.

(** The same for a set: [frozenset(comp)] raises if a comparable is a list, as it is for a
    tuple. *)
Definition finish_set (r : option (list comp * list eqf * nat)) : res result :=
  match r with
  | None => Ok None
  | Some (cs, es, n) =>
      if forallb is_eqpy es then
        if forallb hashable cs then Ok (Some (CSet cs, EqPy, n)) else Err TypeError
      else Ok None
  end.

(** [make_memoize_comparable_for_obj], symbol.py:1480-1547. [seen] is [seen_ids]; [cap] is
    [_MAX_MEMOIZE_COMPARABLE_SIZE]. The fuel stands for Python's stack. *)
Fixpoint mk (cap : nat) (h : heap) (fuel : nat) (seen : list nat) (r : nat)
    : res (result * list nat) :=
  match fuel with
  | O => Err OutOfFuel
  | S f =>
      let seq l seen := elems cap (mk cap h f) l 0 [] [] seen in
      let fresh (k : list nat -> res (result * list nat)) :=
        if memb r seen then Ok (None, seen) else k (sadd r seen) in
      match h r with
      | ONum k z => Ok (Some (CNum k z, EqPy, 1), seen)
      | OStr s => Ok (Some (CStr s, EqPy, 1), seen)
      | OBytes s => Ok (Some (CBytes s, EqPy, 1), seen)
      | OBytearray _ => Ok (Some (CByteRef r, EqPy, 1), seen)
      | OTuple l => rmap (fun x => (finish_seq (fst x), snd x)) (seq l seen)
      | OList l => fresh (fun seen => rmap (fun x => (finish_seq (fst x), snd x)) (seq l seen))
      | OSet l =>
          fresh (fun seen =>
            rbind (seq l seen) (fun x => rmap (fun y => (y, snd x)) (finish_set (fst x))))
      | ODict l =>
          fresh (fun seen =>
            rbind (sort h l) (fun l =>
              rmap (fun x => (finish_seq (fst x), snd x))
                (elems cap (fun seen kv =>
                   rmap (fun x => (finish_seq (fst x), snd x)) (seq [fst kv; snd kv] seen))
                   l 0 [] [] seen)))
      | OArr n => fresh (fun seen => Ok (Some (CArr r, EqArr, n), seen))
      | OOther => fresh (fun seen => Ok (None, seen))
      end
  end.

(** [make_memoize_comparable], symbol.py:1549-1568, for a symbol that is not a function or
    class. *)
Definition comparable (cap : nat) (h : heap) (fuel : nat) (r : nat) : res (option (comp * eqf)) :=
  rmap (fun x => match fst x with
                 | Some (c, e, n) => if Nat.ltb cap n then None else Some (c, e)
                 | None => None
                 end) (mk cap h fuel [] r).

(** Applying the comparison to the current and the stored comparable (cell.py:589).
    [_make_list_eq], symbol.py:1468-1478, walks with [zip]. [npeq] compares an array with a
    stored comparable; it may be any function. Simplification: a stored comparable that is
    not a list makes [zip] raise. *)
Fixpoint apply_eq (npeq : heap -> comp -> comp -> bool) (h : heap) (e : eqf) (cur old : comp)
    : res bool :=
  match e with
  | EqPy => Ok (ceq h cur old)
  | EqArr => Ok (npeq h cur old)
  | EqSeq es =>
      match cur, old with
      | CList l, CList l' =>
          (fix go (es : list eqf) (l l' : list comp) : res bool :=
             match es, l, l' with
             | e :: es, x :: l, y :: l' =>
                 rbind (apply_eq npeq h e x y) (fun b => if b then go es l l' else Ok false)
             | _, _, _ => Ok true
             end) es l l'
      | _, _ => Err TypeError
      end
  end.

(** ** Recording a run *)

(** What is read of symbols: [obj], [timestamp], [memoize_timestamp] (symbol.py:311-313, by
    the object id), [is_import], and [is_user_accessible and containing_scope.is_global]. *)
Record state := mkState {
  heap_of : heap;
  obj_of : nat -> nat;
  ts_of : nat -> ts;
  mem_of : nat -> nat -> option ts;
  import_of : nat -> bool;
  global_of : nat -> bool
}.

(** memoization/__init__.py:27-45. *)
Record minput := mkIn {
  in_sym : nat; in_ts : ts; in_mem : option ts; in_obj : nat; in_comp : option comp
}.
Record moutput := mkOut { out_sym : nat; out_ts : ts; out_val : nat }.
Record mexec := mkExec { ex_in : list minput; ex_out : list moutput; ex_ctr : nat }.

(** [Cell._memoized_executions], cell.py:86: by text and then by counter. One table for all
    cells. *)
Definition table := dict (dict mexec).

Record params := mkP { p_cap : nat; p_fuel : nat; p_npeq : heap -> comp -> comp -> bool }.

(** cell.py:324-346, the inputs; [syms] are the symbols on the cell's parent edges, in the
    order of iteration. [None]: the [return] of line 337. *)
Fixpoint inputs (P : params) (s : state) (ctr : nat) (syms : list nat) (acc : list minput)
    : res (option (list minput)) :=
  match syms with
  | [] => Ok (Some acc)
  | x :: l =>
      if existsb (fun i => Nat.eqb (in_sym i) x) acc then inputs P s ctr l acc
      else if Z.eqb (cell_num (ts_of s x)) (Z.of_nat ctr) then inputs P s ctr l acc
      else if negb (global_of s x) then inputs P s ctr l acc
      else if Z.ltb (Z.of_nat ctr) (cell_num (ts_of s x)) then Ok None
      else
        rbind (comparable (p_cap P) (heap_of s) (p_fuel P) (obj_of s x)) (fun c =>
          inputs P s ctr l
            (acc ++ [mkIn x (ts_of s x) (mem_of s x (obj_of s x)) (obj_of s x)
                       (option_map fst c)]))
  end.

(** cell.py:345-350, the outputs; [shallow] is [shallow_timestamp]. *)
Definition outputs (s : state) (shallow : nat -> ts) (updated : list nat) : list moutput :=
  map (fun x => mkOut x (shallow x) (obj_of s x)) (filter (global_of s) updated).

(** [_maybe_memoize_params], cell.py:320-360. *)
Definition memoize (P : params) (t : table) (s : state) (err : bool) (text ctr : nat)
    (syms : list nat) (shallow : nat -> ts) (updated : list nat) : res table :=
  if err then Ok t
  else
    rmap (fun o => match o with
                   | None => t
                   | Some ins =>
                       dset t text
                         (dset (match dget t text with Some d => d | None => [] end) ctr
                            (mkExec ins (outputs s shallow updated) ctr))
                   end) (inputs P s ctr syms []).

(** ** Finding a run to reuse *)

(** cell.py:583-603, the test of one input. *)
Definition check (P : params) (s : state) (i : minput) : res bool :=
  match in_comp i with
  | Some c =>
      rbind (comparable (p_cap P) (heap_of s) (p_fuel P) (obj_of s (in_sym i))) (fun o =>
        match o with
        | None => Ok false
        | Some (c', e) => apply_eq (p_npeq P) (heap_of s) e c' c
        end)
  | None =>
      Ok (import_of s (in_sym i) ||
          Z.eqb (cell_num (ts_of s (in_sym i))) (cell_num (in_ts i)) ||
          (Nat.eqb (obj_of s (in_sym i)) (in_obj i) &&
           match mem_of s (in_sym i) (obj_of s (in_sym i)) with
           | Some m => ts_eqb m (in_ts i) ||
                       ts_eqb m (match in_mem i with Some t => t | None => ts_uninit end)
           | None => false
           end))%bool
  end.

Fixpoint check_all (P : params) (s : state) (l : list minput) : res bool :=
  match l with
  | [] => Ok true
  | i :: l' => rbind (check P s i) (fun b => if b then check_all P s l' else Ok false)
  end.

(** cell.py:574-605: the loop over earlier runs. *)
Fixpoint find_run (P : params) (s : state) (ctr : nat) (l : list mexec) : res (option mexec) :=
  match l with
  | [] => Ok None
  | e :: l' =>
      if Nat.leb ctr (ex_ctr e) then find_run P s ctr l'
      else rbind (check_all P s (ex_in e)) (fun b =>
        if b then Ok (Some e) else find_run P s ctr l')
  end.

(** [get_memoized_counter], cell.py:568-605, with the entry instead of its counter.
    [memoized]: the cell asked for it and has an earlier version. *)
Definition reuse (P : params) (t : table) (s : state) (memoized : bool) (text ctr : nat)
    : res (option mexec) :=
  if memoized
  then find_run P s ctr (match dget t text with Some d => dvals d | None => [] end)
  else Ok None.

(** interactiveshell.py:525-530: the outputs of the earlier run are put back. Simplification:
    [sym.refresh] is reduced to setting the timestamp. *)
Definition put_back (s : state) (ctr : nat) (o : moutput) : state :=
  mkState (heap_of s)
    (fun x => if Nat.eqb x (out_sym o) then out_val o else obj_of s x)
    (fun x => if Nat.eqb x (out_sym o) then mkTs (Z.of_nat ctr) (stmt_num (out_ts o)) else ts_of s x)
    (mem_of s) (import_of s) (global_of s).

Definition restore (s : state) (ctr : nat) (e : mexec) : state :=
  fold_left (fun s o => put_back s ctr o) (ex_out e) s.
