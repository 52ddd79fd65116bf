(** Reactive marks: `$x`, `$$x` and `$:x`.
    Models core/ipyflow/analysis/symbol_ref.py (Atom, gen_resolved_symbols),
    core/ipyflow/analysis/resolved_symbols.py, core/ipyflow/data_model/scope.py
    (gen_symbols_for_attrsub_chain), core/ipyflow/data_model/statement.py
    (_handle_reactive_store) and the parts of core/ipyflow/data_model/symbol.py,
    core/ipyflow/data_model/namespace.py, core/ipyflow/data_model/cell.py, core/ipyflow/flow.py and
    core/ipyflow/comm_manager.py that keep what these look up. Symbols, scopes, names and cells are
    numbers; symbols are not collected (symbol.py 684 forgets the blocked timestamp of one that is); counters of cells are integers since -1 stands for "never". *)
From Coq Require Import List Arith Bool ZArith.
From Verif Require Import Base.
Import ListNotations.

(** Atom: symbol_ref.py 87-104. Whether it is a subscript plays no part here. *)
Record atom := mk_atom {
  a_value : nat; a_call : bool; a_reac : bool; a_casc : bool; a_block : bool }.

(** Atom.reactive: symbol_ref.py 114-122. *)
Definition reactive_atom (a : atom) : atom :=
  {| a_value := a_value a; a_call := a_call a; a_reac := true; a_casc := a_casc a;
     a_block := false |}.

(** Atom.cascading_reactive: symbol_ref.py 124-132. *)
Definition cascading_atom (a : atom) : atom :=
  {| a_value := a_value a; a_call := a_call a; a_reac := a_reac a; a_casc := true;
     a_block := false |}.

(** Atom.blocking: symbol_ref.py 134-142. *)
Definition blocking_atom (a : atom) : atom :=
  {| a_value := a_value a; a_call := a_call a; a_reac := false; a_casc := false;
     a_block := true |}.

(** What scopes hold: lookup_symbol_by_name and Symbol.namespace. *)
Record scopes := { lookup : nat -> nat -> option nat; namespace : nat -> option nat }.

Definition triple := (nat * atom * option atom)%type.

(** Scope.gen_symbols_for_attrsub_chain: scope.py 150-176. *)
Fixpoint walk (E : scopes) (cur : nat) (chain : list atom) : list triple :=
  match chain with
  | [] => []
  | a :: rest =>
      match lookup E cur (a_value a) with
      | None => []
      | Some s =>
          (s, a, hd_error rest) ::
          (if a_call a then []
           else match namespace E s with
                | None => []
                | Some n => walk E n rest
                end)
      end
  end.

(** ResolvedSymbol: resolved_symbols.py 20-35. [r_time]: cell counter of the liveness timestamp. *)
Record resolved := mk_resolved {
  r_sym : nat; r_atom : atom; r_next : option atom; r_time : option Z;
  r_lhs : bool; r_killed : bool }.

(** The variables of the loop in SymbolRef.gen_resolved_symbols: symbol_ref.py 438-441. *)
Record seen := { s_reac : bool; s_casc : bool; s_block : bool; s_all : bool }.

(** symbol_ref.py 457-463. Nothing ever sets blocking_seen in this function. *)
Definition look (st : seen) (a : atom) : seen :=
  let r := s_reac st || a_reac a in
  {| s_reac := r; s_casc := s_casc st || a_casc a; s_block := s_block st;
     s_all := s_all st || r |}.

(** symbol_ref.py 464-474. *)
Definition inherit (st : seen) (a : atom) : atom :=
  let a1 := if s_reac st && negb (s_block st) && negb (a_reac a)
            then reactive_atom a else a in
  let a2 := if s_casc st && negb (s_block st) && negb (a_casc a1)
            then cascading_atom a1 else a1 in
  if s_block st && negb (a_block a2) then blocking_atom a2 else a2.

Definition plain_resolved (s : nat) (a : atom) (n : option atom) : resolved :=
  {| r_sym := s; r_atom := a; r_next := n; r_time := None; r_lhs := false; r_killed := false |}.

(** The loop: symbol_ref.py 456-479; [last]: its variables sym, atom and next_atom. *)
Fixpoint gen_loop (inh : bool) (st : seen) (last : option triple) (ts : list triple)
  : list resolved * seen * option triple :=
  match ts with
  | [] => ([], st, last)
  | (s, a, n) :: ts' =>
      let st' := look st a in
      let a' := if inh then inherit st' a else a in
      let '(out, st2, last2) := gen_loop inh st' (Some (s, a', n)) ts' in
      ((if s_all st' then [plain_resolved s a' n] else []) ++ out, st2, last2)
  end.

(** The loop with what follows it: symbol_ref.py 480-482. *)
Definition gen_triples (only_final all inh : bool) (ts : list triple) : list resolved :=
  let '(out, st, last) :=
    gen_loop inh {| s_reac := false; s_casc := false; s_block := false; s_all := all |} None ts in
  if s_all st then out
  else match last with
       | Some (s, a, None) => out ++ [plain_resolved s a None]
       | Some (s, a, Some n) =>
           if only_final then out else out ++ [plain_resolved s a (Some n)]
       | None => out
       end.

(** SymbolRef.gen_resolved_symbols: symbol_ref.py 428-482. *)
Definition gen_resolved (E : scopes) (scope : nat) (chain : list atom)
    (only_final all inh rev_order : bool) : list resolved :=
  let ts :=
    if rev_order then
      rev (map (fun r => (r_sym r, r_atom r, r_next r))
               (gen_triples only_final true false (walk E scope chain)))
    else walk E scope chain in
  gen_triples only_final all inh ts.

(** What is looked up by the properties of ResolvedSymbol, with what changes it. In flow.py 193-211:
    [w_blocked] blocked_reactive_timestamps_by_symbol, [w_upd] updated_reactive_symbols,
    [w_upd_last] updated_reactive_symbols_last_cell, [w_deep] and [w_deep_last] the same for
    updated_deep_…, [w_updated] updated_symbols, [w_min] min_cascading_reactive_cell_num. Of each
    symbol: [w_num] its _cascading_reactive_cell_num (symbol.py 156), [w_stamp] the cell number of
    its timestamp. [w_stmt]: this_stmt_updated_symbols (ipyflow_tracer.py 193). [w_ctr]: the counter
    of the cell that runs, [w_prev] that of its previous run, [w_last] that of the last run of each
    cell (-1: none). *)
Record world := {
  w_blocked : dict Z; w_upd : list nat; w_upd_last : list nat;
  w_deep : list nat; w_deep_last : list nat; w_updated : list nat; w_stmt : list nat;
  w_num : nat -> Z; w_stamp : nat -> Z; w_min : Z;
  w_ctr : Z; w_prev : Z; w_last : nat -> Z }.

(** flow.py 459-463. *)
Definition is_updated_deep (W : world) (s : nat) : bool :=
  memb s (w_deep W) || memb s (w_deep_last W).

(** flow.py 453-457. *)
Definition is_updated (W : world) (s : nat) : bool :=
  memb s (w_upd W) || memb s (w_upd_last W).

(** resolved_symbols.py 104-110. *)
Definition is_live (r : resolved) : bool :=
  match r_time r with None => false | Some _ => negb (r_killed r) end.

(** Symbol.is_cascading_reactive_at_counter: symbol.py 502-505; [cnum]: what
    cascading_reactive_cell_num returns. *)
Definition cascading_at (W : world) (cnum : nat -> Z) (s : nat) (ctr : Z) : bool :=
  (Z.max ctr (w_min W) <? cnum s)%Z.

(** ResolvedSymbol.is_cascading_reactive: resolved_symbols.py 77-84. *)
Definition is_cascading (W : world) (cnum : nat -> Z) (r : resolved) : bool :=
  a_casc (r_atom r) ||
  (is_live r &&
   match r_time r with None => false | Some c => cascading_at W cnum (r_sym r) c end).

Definition blocked_at (W : world) (s : nat) : Z :=
  match dget (w_blocked W) s with Some n => n | None => -1 end%Z.

(** ResolvedSymbol.is_blocking: resolved_symbols.py 96-102. *)
Definition is_blocking (W : world) (r : resolved) : bool :=
  a_block (r_atom r) || (is_live r && (w_stamp W (r_sym r) <=? blocked_at W (r_sym r))%Z).

(** ResolvedSymbol.is_reactive: resolved_symbols.py 86-94. *)
Definition is_reactive (W : world) (cnum : nat -> Z) (r : resolved) : bool :=
  if is_blocking W r then false
  else (a_reac (r_atom r) && negb (r_lhs r)) || is_cascading W cnum r ||
       (is_live r && is_updated_deep W (r_sym r)).

(** ResolvedSymbol.is_deep: resolved_symbols.py 112-127; [mutating]: is_mutating, asked when the
    next atom is a call. *)
Definition is_deep (W : world) (cnum : nat -> Z) (mutating : bool) (r : resolved) : bool :=
  if r_lhs r then false
  else if is_reactive W cnum r then true
  else match r_next r with
       | None => true
       | Some a => if a_call a then negb mutating else false
       end.

(** The loop of LiveSymbolRef.gen_resolved_symbols: symbol_ref.py 528-540. *)
Fixpoint live_loop (W : world) (lhs killed : bool) (ctr : Z) (bseen : bool) (rs : list resolved)
  : list resolved :=
  match rs with
  | [] => []
  | r :: rs' =>
      let r1 := {| r_sym := r_sym r; r_atom := r_atom r; r_next := r_next r;
                   r_time := Some ctr; r_lhs := lhs; r_killed := killed |} in
      let b := bseen || is_blocking W r1 in
      let r2 := if b && negb (is_blocking W r1)
                then {| r_sym := r_sym r; r_atom := blocking_atom (r_atom r);
                        r_next := r_next r; r_time := Some ctr; r_lhs := lhs;
                        r_killed := killed |}
                else r1 in
      r2 :: live_loop W lhs killed ctr b rs'
  end.

(** LiveSymbolRef.gen_resolved_symbols: symbol_ref.py 521-540. *)
Definition live_resolved (W : world) (E : scopes) (scope : nat) (chain : list atom)
    (only_final all : bool) (lhs killed : bool) (ctr : Z) : list resolved :=
  live_loop W lhs killed ctr false (gen_resolved E scope chain only_final all true false).

(** Whether get_max_used_live_symbol_cell_counter goes past a live symbol when asked for reactive
    or for cascading reactive ones: cell.py 730-739. *)
Definition counts_reactive (W : world) (cnum : nat -> Z) (r : resolved) : bool :=
  negb (is_blocking W r) && (is_reactive W cnum r || is_updated W (r_sym r)).
Definition counts_cascading (W : world) (cnum : nat -> Z) (r : resolved) : bool :=
  negb (is_blocking W r) && is_cascading W cnum r.

(** How symbols contain each other: [g_members] the symbols in the namespace of a symbol, with
    those of the class it was cloned from (namespace.py 330-346; none: no namespace);
    [g_containing] iter_containing_symbols (symbol.py 406-412) without the symbol itself, which
    comes first there and has been seen; [g_syms] all symbols. *)
Record graph := { g_syms : list nat; g_members : nat -> list nat; g_containing : nat -> list nat }.

(** Symbol.cascading_reactive_cell_num: symbol.py 374-398, with
    Namespace.max_cascading_reactive_cell_num: namespace.py 185-194. Returns seen with the number;
    running out of fuel is an error. *)
Fixpoint casc_num (G : graph) (num : nat -> Z) (fuel : nat) (consider : bool)
    (sn : list nat) (s : nat) : res (list nat * Z) :=
  if memb s sn then Ok (sn, (-1)%Z)
  else match fuel with
       | 0 => Err OutOfFuel
       | S f =>
           rbind (rfold (fun p t =>
                           rmap (fun q => (fst q, Z.max (snd p) (snd q)))
                                (casc_num G num f false (fst p) t))
                        (g_members G s) (s :: sn, num s))
             (fun p =>
                if consider then
                  rfold (fun p t =>
                           rmap (fun q => (fst q, Z.max (snd p) (snd q)))
                                (casc_num G num f true (fst p) t))
                        (g_containing G s) p
                else Ok p)
       end.

(** The number for one symbol, with nothing seen before. *)
Definition cascading_num (G : graph) (num : nat -> Z) (s : nat) : res Z :=
  rmap snd (casc_num G num (S (length (g_syms G))) true [] s).

(** One call of Symbol.update_deps: symbol.py 1019-1133. [u_cyclic]: one of the new dependencies
    has the symbol among its parents (1051-1053); [u_same_import]: an import of what it already was
    (1031-1034); [u_stamped]: the symbols whose timestamps become the current one with it (the
    symbol unless refresh is off, the names of the namespaces around it, what the update protocol
    refreshes); [u_seen]: what is added to this_stmt_updated_symbols (update_protocol.py 59,
    scope.py 347); [u_casc]: is_cascading_reactive. *)
Record upd := {
  u_sym : nat; u_deps : list nat; u_overwrite : bool; u_mutated : bool; u_immutable : bool;
  u_cyclic : bool; u_same_import : bool; u_casc : option bool;
  u_stamped : list nat; u_seen : list nat }.

Definition set_stamps (W : world) (l : list nat) : nat -> Z :=
  fun s => if memb s l then w_ctr W else w_stamp W s.

(** symbol.py 1050-1053. *)
Definition overwrites (u : upd) : bool :=
  u_overwrite u && negb (memb (u_sym u) (u_deps u)) && negb (u_cyclic u).

(** Whether any of the dependencies is cascading: symbol.py 1093-1095. *)
Fixpoint any_cascading (G : graph) (W : world) (num : nat -> Z) (deps : list nat) : res bool :=
  match deps with
  | [] => Ok false
  | d :: deps' =>
      rbind (cascading_num G num d) (fun n =>
        if (Z.max (w_prev W) (w_min W) <? n)%Z then Ok true
        else any_cascading G W num deps')
  end.

(** Symbol.bump_cascading_reactive_cell_num: symbol.py 400-404. *)
Definition bump (num : nat -> Z) (s : nat) (ctr : Z) : nat -> Z :=
  fun t => if t =? s then Z.max (num s) ctr else num t.

(** The part of Symbol.update_deps that concerns reactivity: symbol.py 1031-1041, 1050-1057 and
    1083-1105. *)
Definition update (G : graph) (W : world) (u : upd) : res world :=
  if u_same_import u then
    Ok {| w_blocked := w_blocked W; w_upd := w_upd W; w_upd_last := w_upd_last W;
          w_deep := w_deep W; w_deep_last := w_deep_last W; w_updated := w_updated W;
          w_stmt := supd (w_stmt W) (u_seen u); w_num := w_num W;
          w_stamp := set_stamps W (u_stamped u); w_min := w_min W;
          w_ctr := w_ctr W; w_prev := w_prev W; w_last := w_last W |}
  else if u_mutated u && u_immutable u then Ok W
  else
    let s := u_sym u in
    let ow := overwrites u in
    let deps := sdiff (u_deps u) [s] in
    let num1 := if ow then (fun t => if t =? s then (-1)%Z else w_num W t) else w_num W in
    let upd1 := if ow then sdiff (w_upd W) [s] else w_upd W in
    let deep1 := if ow then sdiff (w_deep W) [s] else w_deep W in
    rmap (fun c : bool =>
            {| w_blocked := w_blocked W; w_upd := upd1; w_upd_last := w_upd_last W;
               w_deep := deep1; w_deep_last := w_deep_last W; w_updated := w_updated W;
               w_stmt := supd (w_stmt W) (u_seen u);
               w_num := if c then bump num1 s (w_ctr W) else num1;
               w_stamp := set_stamps W (u_stamped u); w_min := w_min W;
               w_ctr := w_ctr W; w_prev := w_prev W; w_last := w_last W |})
         (match u_casc u with
          | None => Ok false
          | Some true => Ok true
          | Some false => any_cascading G W num1 deps
          end).

(** One round of the loop in Statement._handle_reactive_store: statement.py 318-338; the flags are
    reactive_seen and blocking_seen. What is resolved there is never live, so cell counters do not
    matter ([cnum] is not consulted). refresh (symbol.py 1343-1373) also raises the timestamps of the
    names around the symbol: the update of the same statement has done so before ([u_stamped]). *)
Definition store_one (st : bool * bool * world) (r : resolved) : bool * bool * world :=
  let '(rs, bs, W) := st in
  let s := r_sym r in
  let c := is_cascading W (fun _ => -1)%Z r in
  let bs1 := bs || is_blocking W r in
  let deep_now := is_reactive W (fun _ => -1)%Z r && negb bs1 in
  let W1 :=
    if deep_now then
      {| w_blocked := w_blocked W; w_upd := w_upd W; w_upd_last := w_upd_last W;
         w_deep := if c then sadd s (w_deep W) else w_deep W;
         w_deep_last := if c then w_deep_last W else sadd s (w_deep_last W);
         w_updated := w_updated W; w_stmt := w_stmt W;
         w_num := if negb (is_live r) && a_casc (r_atom r)
                  then bump (w_num W) s (w_ctr W) else w_num W;
         w_stamp := match r_next r with
                    | None => set_stamps W [s]
                    | Some _ => w_stamp W
                    end;
         w_min := w_min W; w_ctr := w_ctr W; w_prev := w_prev W; w_last := w_last W |}
    else W in
  let rs1 := rs || deep_now in
  let W2 :=
    if rs1 && negb bs1 then
      {| w_blocked := w_blocked W1;
         w_upd := if c then sadd s (w_upd W1) else w_upd W1;
         w_upd_last := if c then w_upd_last W1 else sadd s (w_upd_last W1);
         w_deep := w_deep W1; w_deep_last := w_deep_last W1;
         w_updated := w_updated W1; w_stmt := w_stmt W1; w_num := w_num W1;
         w_stamp := w_stamp W1; w_min := w_min W1;
         w_ctr := w_ctr W1; w_prev := w_prev W1; w_last := w_last W1 |}
    else W1 in
  let W3 :=
    if bs1 && negb (memb s (w_updated W2)) then
      {| w_blocked := dset (w_blocked W2) s (w_ctr W2);
         w_upd := w_upd W2; w_upd_last := w_upd_last W2;
         w_deep := w_deep W2; w_deep_last := w_deep_last W2;
         w_updated := w_updated W2; w_stmt := w_stmt W2; w_num := w_num W2;
         w_stamp := w_stamp W2; w_min := w_min W2;
         w_ctr := w_ctr W2; w_prev := w_prev W2; w_last := w_last W2 |}
    else W2 in
  (rs1, bs1, W3).

(** Statement._handle_reactive_store: statement.py 305-340, for a target that makes a reference
    (the TypeError of others, 339-340, leaves everything as it is). *)
Definition handle_store (E : scopes) (scope : nat) (chain : list atom) (W : world) : world :=
  snd (fold_left store_one (gen_resolved E scope chain false true false true) (false, false, W)).

(** What happens in a session. *)
Inductive event :=
| Begin (c : nat)
| Update (G : graph) (u : upd)
| Mark (E : scopes) (scope : nat) (chain : list atom)
| EndStmt
| Cleanup.

(** [Begin]: a cell is run. The precheck clears the sets of the last cell (flow.py 559-562, called
    from interactiveshell.py 600), before_enter_tracing_context the updated symbols
    (interactiveshell.py 478-480). [EndStmt]: ipyflow_tracer.py 312-313. [Cleanup]:
    handle_reactivity_cleanup, comm_manager.py 361-366. *)
Definition step (W : world) (e : event) : res world :=
  match e with
  | Begin c =>
      let n := (w_ctr W + 1)%Z in
      Ok {| w_blocked := w_blocked W; w_upd := w_upd W; w_upd_last := [];
            w_deep := w_deep W; w_deep_last := []; w_updated := []; w_stmt := w_stmt W;
            w_num := w_num W; w_stamp := w_stamp W; w_min := w_min W;
            w_ctr := n; w_prev := w_last W c;
            w_last := fun d => if d =? c then n else w_last W d |}
  | Update G u => update G W u
  | Mark E scope chain => Ok (handle_store E scope chain W)
  | EndStmt =>
      Ok {| w_blocked := w_blocked W; w_upd := w_upd W; w_upd_last := w_upd_last W;
            w_deep := w_deep W; w_deep_last := w_deep_last W;
            w_updated := supd (w_updated W) (w_stmt W); w_stmt := [];
            w_num := w_num W; w_stamp := w_stamp W; w_min := w_min W;
            w_ctr := w_ctr W; w_prev := w_prev W; w_last := w_last W |}
  | Cleanup =>
      Ok {| w_blocked := w_blocked W; w_upd := []; w_upd_last := w_upd_last W;
            w_deep := []; w_deep_last := w_deep_last W; w_updated := w_updated W;
            w_stmt := w_stmt W; w_num := w_num W; w_stamp := w_stamp W; w_min := w_ctr W;
            w_ctr := w_ctr W; w_prev := w_prev W; w_last := w_last W |}
  end.

(** A session that has just started: flow.py 193-211, symbol.py 156. *)
Definition world0 : world :=
  {| w_blocked := []; w_upd := []; w_upd_last := []; w_deep := []; w_deep_last := [];
     w_updated := []; w_stmt := []; w_num := fun _ => (-1)%Z; w_stamp := fun _ => (-1)%Z;
     w_min := (-1)%Z; w_ctr := 0%Z; w_prev := (-1)%Z; w_last := fun _ => (-1)%Z |}.

Definition run (h : list event) : res world := rfold step h world0.
