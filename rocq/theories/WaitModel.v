(** Is a symbol waiting for an older one, and is it at a position of the notebook? *)
Require Import List Arith ZArith Bool.
Import ListNotations.
Require Import Verif.Base.
Local Open Scope Z_scope.

(** A symbol as far as it is read here (data_model/symbol.py:124-182). Of timestamps only the counter of the cell is read.
    [y_quiet]: [disable_warnings or _temp_disable_warnings]; [y_ts], [y_req]: [_timestamp] and [required_timestamp];
    [y_members]: [namespace_waiting_symbols] (271-274); [y_parents]: [parents]; [y_updated]: [updated_timestamps] (225-230). *)
Record sy := mkY { y_quiet : bool; y_ts : Z; y_req : Z; y_members : list nat; y_parents : list (nat * list Z); y_updated : list Z }.
(** [w_pos]: [cells().at_timestamp(ts).position] (data_model/cell.py:176-186, 490-516), where None is the KeyError; [w_any]: the flow order
    is ANY_ORDER; [w_min]: [flow().min_timestamp]; [w_now]: [cells().exec_counter()]. *)
Record world := mkW { w_sym : nat -> sy; w_pos : Z -> option Z; w_any : bool; w_min : Z; w_now : Z }.
(** For each symbol [_last_computed_ready_or_waiting_cache_ts] and [_is_ready_or_waiting_at_position_cache], symbol.py:181-182. *)
Definition caches := nat -> Z * (Z -> bool -> option bool).
Definition empty : caches := fun _ => (-1, fun _ _ => None).

(** is_shallow_stale with waiting_timestamp, symbol.py:949-952, 415-416. *)
Definition shallow (w : world) (s : nat) : bool :=
  let y := w_sym w s in if y_quiet y then false else Z.max (y_ts y) (w_min w) <? y_req y.
(** Python's [any] and loops with an early [return True]. *)
Fixpoint any {A} (f : A -> res bool) (l : list A) : res bool :=
  match l with [] => Ok false | x :: l => rbind (f x) (fun b => if b then Ok true else any f l) end.
Fixpoint any_st {A S} (f : S -> A -> res (bool * S)) (l : list A) (st : S) : res (bool * S) :=
  match l with [] => Ok (false, st) | x :: l => rbind (f st x) (fun r => if fst r then Ok r else any_st f l (snd r)) end.
(** is_waiting, symbol.py:937-946. The fuel is Python's stack. *)
Fixpoint is_waiting (fuel : nat) (w : world) (s : nat) : res bool :=
  match fuel with
  | O => Err OutOfFuel
  | S fuel =>
    let y := w_sym w s in
    if y_quiet y then Ok false
    else if Z.max (y_ts y) (w_min w) <? y_req y then Ok true
    else if w_min w =? -1 then Ok (negb (is_nil (y_members y)))
    else any (is_waiting fuel w) (y_members y)
  end.

Definition put (c : caches) (s : nat) (pos : Z) (deep b : bool) : caches :=
  fun s' => if Nat.eqb s' s then (fst (c s), fun p d => if (p =? pos) && Bool.eqb d deep then Some b else snd (c s) p d) else c s'.
Definition clear (c : caches) (s : nat) (now : Z) : caches := fun s' => if Nat.eqb s' s then (now, fun _ _ => None) else c s'.
(** _is_ready_or_waiting_at_position_impl, symbol.py:954-978; [rec] is is_waiting_at_position with [deep=True]. *)
Definition impl (rec : caches -> nat -> Z -> res (bool * caches)) (w : world) (s : nat) (pos : Z) (deep : bool) (c : caches) : res (bool * caches) :=
  rbind
    (any_st (fun c (r : nat * list Z) =>
      any_st (fun c ts =>
        rbind (of_option KeyError (w_pos w ts)) (fun q =>
          if pos <? q then Ok (false, c)
          else
            any_st (fun c u =>
              rbind (of_option KeyError (w_pos w u)) (fun p =>
                if q <? p then Ok (false, c) else if ts <? u then Ok (true, c) else rec c (fst r) q)) (y_updated (w_sym w (fst r))) c)) (snd r) c)
      (y_parents (w_sym w s)) c)
    (fun r => if fst r then Ok r else if deep then any_st (fun c m => rec c m pos) (y_members (w_sym w s)) (snd r) else Ok (false, snd r)).
(** is_waiting_at_position, symbol.py:980-998 *)
Fixpoint at_position (fuel : nat) (w : world) (c : caches) (s : nat) (pos : Z) (deep : bool) : res (bool * caches) :=
  match fuel with
  | O => Err OutOfFuel
  | S fuel =>
    rbind (if deep then is_waiting fuel w s else Ok (shallow w s)) (fun g =>
      if negb g then Ok (false, c)
      else if w_any w then Ok (true, c)
      else
        let c := if fst (c s) <? w_now w then clear c s (w_now w) else c in
        match snd (c s) pos deep with
        | Some b => Ok (b, c)
        | None => rbind (impl (fun c s pos => at_position fuel w c s pos true) w s pos deep (put c s pos deep false)) (fun r => Ok (fst r, put (snd r) s pos deep (fst r)))
        end)
  end.
(** A sequence of such questions, as the checks of the cells ask them (frontend.py:432-437, analysis/resolved_symbols.py:188-189), each in
    the state the session has then. *)
Record question := mkQ { q_w : world; q_s : nat; q_pos : Z; q_deep : bool }.
Fixpoint asks (fuel : nat) (l : list question) (c : caches) : res (list bool * caches) :=
  match l with
  | [] => Ok ([], c)
  | q :: l => rbind (at_position fuel (q_w q) c (q_s q) (q_pos q) (q_deep q)) (fun r => rmap (fun t => (fst r :: fst t, snd t)) (asks fuel l (snd r)))
  end.
