(** When symbols were written and read: the timestamps of symbols, the versions that `code` shows and
    the dependencies that a use records. Models parts of core/ipyflow/data_model/symbol.py. Symbols
    and namespaces are numbers. A symbol exists from the start, with the timestamp it is created with
    (symbol.py 149-151, 208-222). Overriding timestamps (of widgets: symbol.py 1201) are left out, as
    are the lists of cells to be told of a new timestamp (1361-1362, 1370-1372). *)
From Coq Require Import List Arith Bool ZArith.
From Verif Require Import Base TimestampModel.
Import ListNotations.
Local Open Scope nat_scope.

(** What holds what: [ns_of] the namespace of a symbol's object (symbol.py 606-607), [inside] the
    namespace that a symbol is in (610-614), [own_members] the symbols in a namespace and [inherited]
    those of the class it was cloned from (namespace.py 330-346), [aliases] the symbols whose object
    has the namespace, [is_class] whether a symbol is called `__class__`, [is_module] whether it
    stands for a module or an import. *)
Record heap := {
  syms : list nat; ns_of : nat -> option nat; inside : nat -> option nat;
  own_members : nat -> list nat; inherited : nat -> list nat; aliases : nat -> list nat;
  is_class : nat -> bool; is_module : nat -> bool }.

Definition own_parts (H : heap) (s : nat) : list nat :=
  match ns_of H s with Some n => own_members H n | None => [] end.
Definition parts (H : heap) (s : nat) : list nat :=
  match ns_of H s with Some n => own_members H n ++ inherited H n | None => [] end.
Definition wholes (H : heap) (s : nat) : list nat :=
  match inside H s with Some n => aliases H n | None => [] end.

(** A dependency that is recorded: flow.py 427-451. *)
Record dep := { d_static : bool; d_used : ts; d_upd : ts; d_sym : nat }.

(** Of each symbol: [own] its _timestamp, [upd] its _updated_timestamps, [snap] its
    _snapshot_timestamps, [used] and [live] its timestamp_by_used_time and
    timestamp_by_liveness_time (symbol.py 149-170). [mx]: max_descendent_timestamp of each namespace.
    [deps]: the calls of add_data_dep. *)
Record state := {
  own : nat -> ts; upd : nat -> list ts; snap : nat -> list ts; mx : nat -> ts;
  used : nat -> ts -> option ts; live : nat -> ts -> option ts; deps : list dep }.

Definition ts_max (a b : ts) : ts := if ts_ltb a b then b else a.

(** The recursion that the functions below share: one that has been seen is not entered again. *)
Fixpoint visit {A} (fresh old : nat -> A -> A) (next : nat -> list nat) (fuel : nat)
    (p : list nat * A) (s : nat) : res (list nat * A) :=
  if memb s (fst p) then Ok (fst p, old s (snd p))
  else match fuel with
       | 0 => Err OutOfFuel
       | S f => rfold (visit fresh old next f) (next s) (s :: fst p, fresh s (snd p))
       end.
Definition fuel_of (H : heap) : nat := S (length (syms H)).

(** Symbol._get_initialized_timestamp: symbol.py 277-291. *)
Fixpoint init_ts (H : heap) (S0 : state) (fuel : nat) (seen : list nat) (s : nat) : res ts :=
  if ts_is_initialized (own S0 s) then Ok (own S0 s)
  else match fuel with
       | 0 => Err OutOfFuel
       | S f =>
           match find (fun t => negb (memb t (s :: seen))) (wholes H s) with
           | Some t => init_ts H S0 f (s :: seen) t
           | None => Ok (own S0 s)
           end
       end.

(** Symbol.shallow_timestamp: symbol.py 293-301. *)
Definition shallow (H : heap) (S0 : state) (s : nat) : res ts := init_ts H S0 (fuel_of H) [] s.

(** Symbol.timestamp: symbol.py 315-321. *)
Definition deep (H : heap) (S0 : state) (s : nat) : res ts :=
  rmap (fun t => if is_module H s then t
                 else match ns_of H s with None => t | Some n => ts_max t (mx S0 n) end)
       (shallow H S0 s).

(** What a symbol itself contributes in _compute_namespace_timestamps: symbol.py 328-340. *)
Definition own_stamps (H : heap) (S0 : state) (ub : option ts) (s : nat) : res (list ts) :=
  match ub with
  | None => rbind (shallow H S0 s) (fun a => rmap (fun b => [a; b]) (deep H S0 s))
  | Some u =>
      match find (fun t => ts_leb t u) (rev (snap S0 s)) with
      | Some t => Ok (if ts_is_initialized t then [t] else [])
      | None => Ok []
      end
  end.

(** Symbol._compute_namespace_timestamps: symbol.py 323-352. *)
Definition collect (H : heap) (S0 : state) (ub : option ts) (s : nat) : res (list ts) :=
  let add t (a : res (list ts)) :=
    rbind a (fun l => rmap (fun l' => l ++ l') (own_stamps H S0 ub t)) in
  rbind (visit add add (parts H) (fuel_of H) ([], Ok []) s) snd.

(** Indexing a Python list. *)
Definition py_index (l : list ts) (k : Z) : res ts :=
  let n := Z.of_nat (length l) in
  let i := if (k <? 0)%Z then (n + k)%Z else k in
  if (i <? 0)%Z then Err IndexError
  else of_option IndexError (nth_error l (Z.to_nat i)).

(** Symbol._get_timestamps_for_version: symbol.py 354-363; [defined]: defined_cell_num. *)
Definition for_version (H : heap) (S0 : state) (defined : nat -> Z) (s : nat) (version : Z)
  : res (list ts) :=
  if is_nil (snap S0 s) then rmap (fun t => [t]) (deep H S0 s)
  else
    rbind (py_index (snap S0 s) version) (fun t =>
      if (cell_num t =? -1)%Z then Ok [mkTs (defined s) (stmt_num t)]
      else rmap (filter (fun x => negb (ts_eqb x ts_uninit)))
             (collect H S0 (if (version =? -1)%Z then None else Some t) s)).

Definition set {A} (f : nat -> A) (k : nat) (v : A) : nat -> A :=
  fun x => if x =? k then v else f x.

(** One call of Symbol._take_timestamp_snapshots: symbol.py 1335. *)
Definition snap_one (s : nat) (S0 : state) : state :=
  {| own := own S0; upd := upd S0; snap := set (snap S0) s (snap S0 s ++ [own S0 s]); mx := mx S0;
     used := used S0; live := live S0; deps := deps S0 |}.

(** Symbol._take_timestamp_snapshots: symbol.py 1326-1341. *)
Definition take_snapshots (H : heap) (S0 : state) (s : nat) : res state :=
  rmap snd (visit snap_one (fun _ a => a) (wholes H) (fuel_of H) ([], S0) s).

(** What Symbol.refresh does to the symbol, without the snapshots: symbol.py 1352-1355, 1363-1368. *)
Definition refresh_one (H : heap) (now : ts) (s : nat) (S0 : state) : state :=
  {| own := set (own S0) s now;
     upd := set (upd S0) s (own S0 s :: upd S0 s);
     snap := snap S0;
     mx := match inside H s with
           | Some n => set (mx S0) n (ts_max (mx S0 n) now)
           | None => mx S0
           end;
     used := used S0; live := live S0; deps := deps S0 |}.

(** Symbol.refresh: symbol.py 1343-1402. Snapshots are taken before the namespace around the symbol
    is told; they do not look at it. A symbol called `__class__` that is met twice is refreshed twice
    in the code, to the same effect. *)
Definition refresh (H : heap) (S0 : state) (s : nat) (take descend : bool) (now : ts) : res state :=
  let S1 := refresh_one H now s S0 in
  rbind (if take && (ts_ltb (own S0 s) now || is_nil (snap S0 s))
         then take_snapshots H S1 s else Ok S1) (fun S2 =>
    if descend then
      rmap snd
        (rfold (visit (refresh_one H now) (fun _ a => a)
                    (fun t => if is_class H t then [] else own_parts H t) (fuel_of H))
               (own_parts H s) ([s], S2))
    else Ok S2).

(** sorted(…, reverse=True). *)
Fixpoint insert (t : ts) (l : list ts) : list ts :=
  match l with
  | [] => [t]
  | x :: l' => if ts_leb x t then t :: l else x :: insert t l'
  end.
Definition sort_desc (l : list ts) : list ts := fold_right insert [] l.

(** Symbol.updated_timestamps: symbol.py 225-230. *)
Definition updates (H : heap) (S0 : state) (s : nat) : res (list ts) :=
  rmap (fun i => if ts_is_initialized i then i :: upd S0 s else upd S0 s) (shallow H S0 s).

(** The loop of Symbol.update_usage_info over the updates, with update_usage_info_one_timestamp:
    symbol.py 1240-1257, 1285-1294. Returns the dependencies and is_usage. [visible]: whether the cell
    of a timestamp is in the notebook (cell.py 170-173). *)
Fixpoint use_loop (visible : ts -> bool) (static : bool) (at_ : ts) (s : nat) (l : list ts)
  : list dep * bool :=
  match l with
  | [] => ([], false)
  | u :: l' =>
      if negb (ts_is_initialized u) then use_loop visible static at_ s l'
      else
        let d := {| d_static := static; d_used := at_; d_upd := u; d_sym := s |} in
        if static then
          if visible u then ([d], true)
          else let r := use_loop visible static at_ s l' in (d :: fst r, snd r)
        else if ts_ltb u at_ then ([d], true) else ([], false)
  end.

(** Symbol.update_usage_info without the namespace: symbol.py 1277-1298. A use that is not a usage
    leaves is_usage as the last round set it. *)
Definition use_one (H : heap) (visible : ts -> bool) (static blocking : bool) (at_ : ts)
    (s : nat) (S0 : state) : res state :=
  if blocking then Ok S0
  else
    rbind (shallow H S0 s) (fun i =>
    rmap (fun l =>
      let r := use_loop visible static at_ s (sort_desc l) in
      let note f := if snd r && ts_is_initialized at_
                    then set f s (fun t => if ts_eqb t at_ then Some i else f s t) else f in
      {| own := own S0; upd := upd S0; snap := snap S0; mx := mx S0;
         used := if static then used S0 else note (used S0);
         live := if static then note (live S0) else live S0;
         deps := deps S0 ++ fst r |}) (updates H S0 s)).

(** Symbol.get_namespace_symbols with recurse: symbol.py 1310-1324. The symbol itself comes out only
    if it is one of its own parts. *)
Definition all_parts (H : heap) (s : nat) : res (list nat) :=
  rmap snd (rfold (visit (fun t l => l ++ [t]) (fun t l => l ++ [t]) (parts H) (fuel_of H))
                  (parts H s) ([s], [])).

(** Symbol.update_usage_info: symbol.py 1259-1308. *)
Definition use (H : heap) (visible : ts -> bool) (static blocking exclude_ns : bool) (at_ : ts)
    (S0 : state) (s : nat) : res state :=
  rbind (use_one H visible static blocking at_ s S0) (fun S1 =>
    if exclude_ns then Ok S1
    else rbind (all_parts H s) (fun l =>
           rfold (fun S2 t => use_one H visible static blocking at_ t S2) l S1)).

(** What happens in a session. [Bump]: a namespace is told of a change deep inside
    (update_protocol.py 120, namespace.py 358). *)
Inductive event :=
| Bump (n : nat) (now : ts)
| Refresh (H : heap) (s : nat) (take descend : bool) (now : ts)
| Use (H : heap) (visible : ts -> bool) (static blocking exclude_ns : bool) (at_ : ts) (s : nat).

Definition step (S0 : state) (e : event) : res state :=
  match e with
  | Bump n now =>
      Ok {| own := own S0; upd := upd S0; snap := snap S0; mx := set (mx S0) n now;
            used := used S0; live := live S0; deps := deps S0 |}
  | Refresh H s take descend now => refresh H S0 s take descend now
  | Use H visible static blocking exclude_ns at_ s =>
      use H visible static blocking exclude_ns at_ S0 s
  end.

(** [born]: the timestamps that symbols are created with. *)
Definition state0 (born : nat -> ts) : state :=
  {| own := born; upd := fun _ => []; snap := fun _ => []; mx := fun _ => ts_uninit;
     used := fun _ _ => None; live := fun _ _ => None; deps := [] |}.

Definition run (born : nat -> ts) (h : list event) : res state := rfold step h (state0 born).
