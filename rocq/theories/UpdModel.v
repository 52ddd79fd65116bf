(** Model of core/ipyflow/data_model/utils/update_protocol.py: how the update of a symbol
    marks its dependents as waiting. *)
Require Import List Bool Arith.
Import ListNotations.
Require Import Verif.Base.

(** What the protocol reads. Symbols, objects and namespaces are natural numbers. Sets are
    lists: their order is the order in which Python happens to iterate them. *)
Record world := mkW {
  w_syms : list nat;                (** the symbols that exist *)
  w_children : nat -> list nat;     (** [sym.children], symbol.py:144 *)
  w_obj : nat -> nat;               (** [sym.obj_id] *)
  w_aliases : nat -> list nat;      (** [flow().aliases] by object *)
  w_cont : nat -> option nat;       (** [sym.containing_namespace] *)
  w_ns : nat -> option nat;         (** [flow().namespaces] by object *)
  w_ns_obj : nat -> nat;            (** [ns.obj_id] *)
  w_ns_module : nat -> bool;        (** [ns.is_module] *)
  w_members : nat -> list nat;      (** [ns.all_symbols_this_indentation()] *)
  w_own_members : nat -> list nat;  (** the same with [exclude_class=True] *)
  w_cloned : nat -> option nat;     (** the object of [ns.cloned_from] *)
  w_import : nat -> bool;           (** [sym.is_import] *)
  w_module : nat -> bool;           (** [sym.is_module] *)
  w_quiet : nat -> bool;            (** [sym.disable_warnings] *)
  w_updated : list nat              (** [flow().updated_symbols]: updated in this cell *)
}.

(** What the protocol writes: [self.seen]; the symbols whose [required_timestamp] is set, and
    the pairs (namespace, symbol) with the symbol in [namespace_waiting_symbols]. *)
Record st := mkSt { s_seen : list nat; s_marked : list nat; s_nsw : list (nat * nat) }.

(** [self.seen.add(sym)] *)
Definition see (x : nat) (s : st) : st := mkSt (sadd x (s_seen s)) (s_marked s) (s_nsw s).

(** update_protocol.py:193-195: [required_timestamp = Timestamp.current()]. The
    [fresher_ancestors] bookkeeping is not modelled. *)
Definition mark (x : nat) (s : st) : st := mkSt (s_seen s) (sadd x (s_marked s)) (s_nsw s).

(** update_protocol.py:142: [containing_ns.namespace_waiting_symbols.add(sym)]. *)
Definition note (n x : nat) (s : st) : st := mkSt (s_seen s) (s_marked s) ((n, x) :: s_nsw s).

(** update_protocol.py:108: [required_timestamp = Timestamp.uninitialized()]. *)
Definition unmark (x : nat) (s : st) : st := mkSt (s_seen s) (sdiff (s_marked s) [x]) (s_nsw s).

(** update_protocol.py:119: [containing_ns.namespace_waiting_symbols.discard(sym)]. *)
Definition unnote (n x : nat) (s : st) : st :=
  mkSt (s_seen s) (s_marked s)
    (filter (fun p => negb (Nat.eqb (fst p) n && Nat.eqb (snd p) x)) (s_nsw s)).

(** update_protocol.py:92-131, the body of the loop of
    [_collect_updated_symbols_and_refresh_namespaces] for one symbol; [desc] is
    [refresh_descendent_namespaces]. Not modelled: the cells' used counters (line 110-111)
    and [max_descendent_timestamp] (line 120). The fuel stands for Python's stack. *)
Fixpoint collect (w : world) (desc : bool) (fuel : nat) (s : st) (x : nat) : res st :=
  match fuel with
  | O => Err OutOfFuel
  | S f =>
      if (w_import w x || memb x (s_seen s))%bool then Ok s
      else
        let s := see x (unmark x s) in
        let cont := if w_module w x then None else w_cont w x in
        rbind
          match cont with
          | Some n =>
              rfold (collect w desc f) (w_aliases w (w_ns_obj w n)) (unnote n x s)
          | None => Ok s
          end
          (fun s =>
             if desc then
               match w_ns w (w_obj w x) with
               | Some n => rfold (collect w desc f) (w_members w n) s
               | None => Ok s
               end
             else Ok s)
  end.

(** update_protocol.py:156-169. *)
Definition nc_children (w : world) (updated x : nat) : list nat :=
  if Nat.eqb updated x then w_children w x
  else filter (fun c =>
    match w_ns w (w_obj w c) with
    | Some n => match w_cloned w n with
                | Some o => negb (Nat.eqb o (w_obj w x))
                | None => true
                end
    | None => true
    end) (w_children w x).

(** symbol.py:1000-1005, [should_mark_waiting]. *)
Definition should_mark (w : world) (updated x : nat) : bool :=
  (negb (w_quiet w x) && negb (Nat.eqb updated x))%bool.

(** The three mutually recursive propagation methods:
    [_propagate_waiting_to_deps] (update_protocol.py:184-202),
    [_propagate_waiting_to_namespace_parents] (133-154) and
    [_propagate_waiting_to_namespace_children] (171-182). *)
Inductive kind := ToDeps | ToParents | ToChildren.

(** [stmt_updated] is [tracer().this_stmt_updated_symbols]; [skip] is [skip_seen_check]. *)
Fixpoint propagate (w : world) (updated : nat) (stmt_updated : list nat) (fuel : nat)
    (k : kind) (skip : bool) (s : st) (x : nat) : res st :=
  match fuel with
  | O => Err OutOfFuel
  | S f =>
      if (negb skip && memb x (s_seen s))%bool then Ok s
      else
        let s := see x s in
        let rec := propagate w updated stmt_updated f in
        match k with
        | ToParents =>
            match w_cont w x with
            | None => Ok s
            | Some n =>
                if w_ns_module w n then Ok s
                else
                  let al := w_aliases w (w_ns_obj w n) in
                  rbind (rfold (rec ToParents false) al (note n x s)) (fun s =>
                    rfold (fun s a => rfold (rec ToDeps false) (nc_children w updated a) s) al s)
            end
        | ToChildren =>
            match w_ns w (w_obj w x) with
            | None => Ok s
            | Some n => rfold (rec ToDeps false) (w_own_members w n) s
            end
        | ToDeps =>
            rbind
              (if (memb x (w_updated w) || memb x stmt_updated)%bool then Ok s
               else if should_mark w updated x
               then rbind (rec ToParents true (mark x s) x) (fun s => rec ToChildren true s x)
               else Ok s)
              (fun s => rfold (rec ToDeps false) (nc_children w updated x) s)
        end
  end.

(** A depth of calls that is always enough (see UpdProofs.v). *)
Definition enough (w : world) : nat := 2 * S (S (length (w_syms w))) + 2.

(** update_protocol.py:43-46: [directly_updated_symbols |= ...] adds the duplicates to
    [flow().aliases[obj_id]] itself when the update is a mutation. *)
Definition aliases_after (w : world) (updated : nat) (duped : list nat) (mutated : bool)
    : nat -> list nat :=
  fun o => if (mutated && Nat.eqb o (w_obj w updated))%bool
           then supd (w_aliases w o) duped else w_aliases w o.

Definition with_aliases (w : world) (al : nat -> list nat) : world :=
  mkW (w_syms w) (w_children w) (w_obj w) al (w_cont w) (w_ns w) (w_ns_obj w)
      (w_ns_module w) (w_members w) (w_own_members w) (w_cloned w) (w_import w) (w_module w)
      (w_quiet w) (w_updated w).

(** update_protocol.py:43-46: the directly updated symbols. *)
Definition direct (w : world) (updated : nat) (duped : list nat) (mutated : bool) : list nat :=
  supd (if mutated then w_aliases w (w_obj w updated) else [updated]) duped.

(** update_protocol.py:23-66, [__call__]. [duped] is what
    [_maybe_get_duped_attrsub_updated_syms] returns and [stmt_updated] the statement's
    updated symbols so far. Not modelled: the refresh of the aliases (lines 59-62), which
    touches timestamps only. The result: the state, and the symbols that count as updated. *)
Definition protocol (w : world) (updated : nat) (duped new_deps : list nat)
    (mutated desc : bool) (stmt_updated marked : list nat) (nsw : list (nat * nat))
    : res (st * list nat) :=
  let dir := direct w updated duped mutated in
  let w := with_aliases w (aliases_after w updated duped mutated) in
  rbind (rfold (collect w desc (enough w)) dir (mkSt [] marked nsw)) (fun s =>
    let start := s_seen s in
    let stmt_updated := supd stmt_updated start in
    rmap (fun s => (s, start))
      (rfold (propagate w updated stmt_updated (enough w) ToDeps true) start
         (mkSt (supd (s_seen s) new_deps) (s_marked s) (s_nsw s)))).

(** symbol.py:937-944, [is_waiting] in the default configuration ([min_timestamp = -1]). The
    comparison of [waiting_timestamp] with [required_timestamp] is taken to hold exactly for
    the marked symbols: it does unless the symbol itself was last updated in this cell. *)
Definition is_waiting (w : world) (s : st) (x : nat) : bool :=
  (negb (w_quiet w x) &&
   (memb x (s_marked s) ||
    match w_ns w (w_obj w x) with
    | Some n => existsb (fun p => Nat.eqb (fst p) n) (s_nsw s)
    | None => false
    end))%bool.
