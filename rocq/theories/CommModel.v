(** Model of the requests of the frontend: core/ipyflow/comm_manager.py, with what it calls of
    data_model/cell.py and flow.py. *)
Require Import List ZArith Bool Arith.
Import ListNotations.
Require Import Verif.Base.

(** ** Dispatch: [CommManager.handle], comm_manager.py:80-113

    Message types, texts and messages of exceptions are numbers. *)

(** A response: a dict, of which the keys ["type"], ["success"] and ["error"] are told apart.
    [p_json]: whether it can be serialized. *)
Record resp := mkResp {
  p_type : option nat;
  p_success : option bool;
  p_error : option nat;
  p_body : nat;
  p_json : bool
}.

(** What a handler may do: return a dict, [None], [NO_RESPONSE] or anything else, raise an
    [Exception], or raise another [BaseException], like [KeyboardInterrupt]. *)
Inductive outcome :=
| OResp (r : resp) | ONone | ONoResponse | OOther | ORaise (msg : nat) | OExit.

(** A request, with the keys that [handle_register_dynamic_comm_handler] reads. *)
Record request := mkReq {
  q_type : option nat;
  q_msg_type : option nat;
  q_handler : option nat;
  q_overwrite : bool;
  q_body : nat
}.

(** How a call of [handle] ends. *)
Inductive fate := Returned | Raised (e : err) | SendFailed | Exited.

(** Types with a fixed meaning. *)
Definition t_schedule := 0.
Definition t_notify := 1.
Definition t_register := 2.
Definition t_establish := 3.
Definition t_change_active := 4.
(** The message of the [ValueError] of [register_comm_handler], and of the exceptions raised by
    [exec] on the text of a dynamic handler. *)
Definition msg_registered := 0.
Definition msg_exec := 1.

Section Dispatch.
(** Whatever the handlers read and change, apart from the manager. *)
Variable W : Type.

(** [dynamic]: [handle_register_dynamic_comm_handler]; [code h]: any other function. *)
Inductive handler := dynamic | code (h : nat).

Record mgr := mkMgr {
  m_handlers : dict handler;
  m_comm : option nat;
  m_pending : bool;
  m_debug : option request;
  m_sent : list (nat * resp);
  m_world : W
}.
Definition with_handlers (m : mgr) hs :=
  mkMgr hs (m_comm m) (m_pending m) (m_debug m) (m_sent m) (m_world m).
Definition with_world (m : mgr) w :=
  mkMgr (m_handlers m) (m_comm m) (m_pending m) (m_debug m) (m_sent m) w.
Definition with_debug (m : mgr) q :=
  mkMgr (m_handlers m) (m_comm m) (m_pending m) (Some q) (m_sent m) (m_world m).
Definition with_sent (m : mgr) c r :=
  mkMgr (m_handlers m) (m_comm m) (m_pending m) (m_debug m) (m_sent m ++ [(c, r)]) (m_world m).

(** The functions that were registered. *)
Variable run : nat -> W -> request -> W * outcome.
(** [exec] of the text of a dynamic handler: the function it defines, or [None] if it raises. *)
Variable compile : nat -> option nat.

(** [register_comm_handler], comm_manager.py:69-78. *)
Definition register (m : mgr) (t : nat) (h : handler) (overwrite : bool) : res mgr :=
  if (dhas (m_handlers m) t && negb overwrite)%bool then Err ValueError
  else Ok (with_handlers m (dset (m_handlers m) t h)).

(** [handle_register_dynamic_comm_handler], comm_manager.py:429-446. The handler is kept in the
    global namespace only while it is made. *)
Definition register_dynamic (m : mgr) (q : request) : mgr * outcome :=
  match q_msg_type q, q_handler q with
  | Some t, Some text =>
      match compile text with
      | None => (m, ORaise msg_exec)
      | Some h =>
          match register m t (code h) (q_overwrite q) with
          | Err _ => (m, ORaise msg_registered)
          | Ok m => (m, ONone)
          end
      end
  | _, _ => (m, ONone)
  end.

Definition call (m : mgr) (h : handler) (q : request) : mgr * outcome :=
  match h with
  | dynamic => register_dynamic m q
  | code h => let '(w, o) := run h (m_world m) q in (with_world m w, o)
  end.

(** [comm.send], with the defaults of comm_manager.py:104-106. *)
Definition send (m : mgr) (c : nat) (t : nat) (r : resp) : mgr * fate :=
  let r := mkResp (Some (match p_type r with Some t => t | None => t end))
                  (Some (match p_success r with Some b => b | None => true end))
                  (p_error r) (p_body r) (p_json r) in
  if p_json r then (with_sent m c r, Returned) else (m, SendFailed).

Definition respond (m : mgr) (comm : option nat) (t : nat) (r : resp) : mgr * fate :=
  match (match comm with Some c => Some c | None => m_comm m end) with
  | None => (m, Returned)
  | Some c => send m c t r
  end.

(** [handle], comm_manager.py:80-113. What is not a dict has no [get], 104. *)
Definition handle (m : mgr) (q : request) (comm : option nat) : mgr * fate :=
  match q_type q with
  | None => (m, Raised KeyError)
  | Some t =>
      match dget (m_handlers m) t with
      | None => (with_debug m q, Returned)
      | Some h =>
          let '(m, o) := call m h q in
          match o with
          | OExit => (m, Exited)
          | ONoResponse => (m, Returned)
          | OResp r => respond m comm t r
          | ONone => respond m comm t (mkResp None None None 0 true)
          | ORaise msg => respond m comm t (mkResp None (Some false) (Some msg) 0 true)
          | OOther =>
              match (match comm with Some c => Some c | None => m_comm m end) with
              | None => (m, Returned)
              | Some _ => (m, Raised AttributeError)
              end
          end
      end
  end.

(** [_responder], comm_manager.py:118-126. *)
Definition responder (m : mgr) (c : nat) (q : request) : mgr * fate :=
  if (match q_type q with Some t => Nat.eqb t t_schedule | None => false end && m_pending m)%bool
  then (m, Returned)
  else handle m q (Some c).

(** [_comm_target], comm_manager.py:115-130, without [initialize]. *)
Definition open_comm (m : mgr) (c : nat) : mgr :=
  with_sent (mkMgr (m_handlers m) (Some c) (m_pending m) (m_debug m) (m_sent m) (m_world m)) c
    (mkResp (Some t_establish) (Some true) None 0 true).

(** Everything that may happen to the manager. [Pend]: the flag of the debounced schedule is
    set or cleared, symbol.py:64-83. *)
Inductive op :=
| Open (c : nat)
| Message (c : nat) (q : request)
| Handle (q : request)
| Register (t : nat) (h : handler) (overwrite : bool)
| Pend (b : bool).
Definition step (m : mgr) (o : op) : mgr :=
  match o with
  | Open c => open_comm m c
  | Message c q => fst (responder m c q)
  | Handle q => fst (handle m q None)
  | Register t h ow => match register m t h ow with Ok m => m | Err _ => m end
  | Pend b => mkMgr (m_handlers m) (m_comm m) b (m_debug m) (m_sent m) (m_world m)
  end.
Definition steps (ops : list op) (m : mgr) : mgr := fold_left step ops m.
End Dispatch.
Arguments with_world {W}. Arguments with_debug {W}. Arguments with_handlers {W}.
Arguments with_sent {W}. Arguments register {W}. Arguments mkMgr {W}.
Arguments m_handlers {W}. Arguments m_comm {W}. Arguments m_pending {W}. Arguments m_debug {W}.
Arguments m_sent {W}. Arguments m_world {W}.

(** ** New contents: [_recompute_ast_for_cells], comm_manager.py:228-276 *)

(** An exception: [SyntaxError], or another one. *)
Inductive exn := Syntax | Other (n : nat).

(** The attributes of a cell that are read or written. Symbols are numbers; a check result is
    the set of the live symbols. [c_ast]: the text that the cached tree was made from, with
    [last_ast_content]. *)
Record ccell := mkCC {
  c_content : nat;
  c_ctr : Z;
  c_last_content : option nat;
  c_last_ctr : option Z;
  c_result : option (list nat);
  c_removed : list nat;
  c_ast : option nat
}.
Definition with_content (c : ccell) x :=
  mkCC x (c_ctr c) (c_last_content c) (c_last_ctr c) (c_result c) (c_removed c) (c_ast c).
Definition with_ast (c : ccell) x :=
  mkCC (c_content c) (c_ctr c) (c_last_content c) (c_last_ctr c) (c_result c) (c_removed c) (Some x).

Section Recompute.
Variable W : Type.
(** [ast.parse] after the rewriting of the text. *)
Variable parse : nat -> option exn.
(** [check_and_resolve_symbols] for the cell with the given id: it reads and changes usage
    information of symbols. *)
Variable check : W -> nat -> ccell -> W * (exn + list nat).

(** [to_ast], cell.py:661-678, without the rewriter of the tree. *)
Definition to_ast (c : ccell) : ccell * option exn :=
  if match c_ast c with Some x => Nat.eqb x (c_content c) | None => false end then (c, None)
  else match parse (c_content c) with
       | Some e => (c, Some e)
       | None => (with_ast c (c_content c), None)
       end.

(** Lines 232-243: whether a cell was edited or run since it was checked. *)
Definition outdated (cells : dict ccell) (p : nat * nat) : bool :=
  match dget cells (fst p) with
  | None => false
  | Some c => negb (Nat.eqb (c_content c) (snd p) &&
                    Z.eqb (c_ctr c) (match c_last_ctr c with Some n => n | None => 0%Z end))
  end.

(** One round of the second loop, 247-275. *)
Definition update_cell (cells : dict ccell) (w : W) (p : nat * nat) : dict ccell * W * (exn + bool) :=
  let '(i, new) := p in
  match dget cells i with
  | None => (cells, w, inr false)
  | Some c =>
      let prev := c_content c in
      let '(c1, bad) := to_ast (with_content c new) in
      match bad with
      | Some Syntax => (dset cells i (with_content c1 prev), w, inr false)
      | Some e => (dset cells i c1, w, inl e)
      | None =>
          let '(w, r) := check w i c1 in
          match r with
          | inl Syntax => (dset cells i (with_content c1 prev), w, inr false)
          | inl e => (dset cells i c1, w, inl e)
          | inr live =>
              let before := match c_result c1 with Some l => l | None => [] end in
              (dset cells i (mkCC new (c_ctr c1) (Some new) (Some (c_ctr c1)) (Some live)
                               (sdiff (supd (c_removed c1) before) live) (c_ast c1)), w, inr true)
          end
      end
  end.
Fixpoint update_cells (cells : dict ccell) (w : W) (l : list (nat * nat)) (any : bool)
  : dict ccell * W * (exn + bool) :=
  match l with
  | [] => (cells, w, inr any)
  | p :: l =>
      let '(cells, w, r) := update_cell cells w p in
      match r with
      | inl e => (cells, w, inl e)
      | inr b => update_cells cells w l (any || b)
      end
  end.
Definition recompute (cells : dict ccell) (w : W) (contents : list (nat * nat)) (force : bool)
  : dict ccell * W * (exn + bool) :=
  if (force || existsb (outdated cells) contents)%bool then update_cells cells w contents false
  else (cells, w, inr false).
End Recompute.

(** ** Schedule requests: [handle_compute_exec_schedule], comm_manager.py:139-226 *)

(** [s_rest]: whatever else the request changes. *)
Record sched (W : Type) := mkSched { s_active : option nat; s_rest : W }.
Arguments mkSched {W}. Arguments s_active {W}. Arguments s_rest {W}.

(** The keys of the request that are read, and whether there is metadata of cells, in the request
    or from an earlier one. *)
Record sreq := mkSreq { sq_active : option nat; sq_notify : bool; sq_metadata : bool }.

Section Schedule.
Variable W : Type.
(** The parts, which can do anything and may raise. [adopt]:
    [update_id] of the current cell, 151-154; [notify]:
    [_handle_notify_content_changed_impl], whose response is dropped; [overrides]:
    [_add_parents_for_override_live_refs], whose [KeyError] is caught; [link]:
    [check_and_link_multiple_cells] and the response. *)
Variable enabled : W -> bool.
Variable adopt : sched W -> sched W * option err.
Variable notify : sched W -> sched W * option err.
Variable overrides : sched W -> sched W * option err.
Variable link : sched W -> sched W * (err + resp).

Definition disabled_resp := mkResp None (Some false) (Some 0) 0 true.
Definition null_resp := mkResp None (Some false) (Some 1) 0 true.

(** [_handle_compute_exec_schedule_impl], 139-210. *)
Definition schedule_impl (s : sched W) (q : sreq) : sched W * (err + resp) :=
  if negb (enabled (s_rest s)) then (s, inr disabled_resp)
  else
    let '(s, e) :=
      match s_active s with
      | Some _ => (s, None)
      | None =>
          match sq_active q with
          | None => (s, None)
          | Some i => adopt (mkSched (Some i) (s_rest s))
          end
      end in
    match e with
    | Some e => (s, inl e)
    | None =>
        let '(s, e) := if sq_notify q then notify s else (s, None) in
        match e with
        | Some e => (s, inl e)
        | None =>
            let '(s, e) := overrides s in
            match e with
            | Some KeyError | None =>
                if sq_metadata q then link s else (s, inr null_resp)
            | Some e => (s, inl e)
            end
        end
    end.
(** [handle_compute_exec_schedule], 212-226: with [finally]. *)
Definition schedule (s : sched W) (q : sreq) : sched W * (err + resp) :=
  let '(s, r) := schedule_impl s q in (mkSched None (s_rest s), r).
(** [handle_notify_content_changed], 278-359, from the decision [recompute] on: the response is
    that of the schedule. *)
Definition notified (s : sched W) (q : sreq) (recompute : bool) : sched W * (err + option resp) :=
  if recompute then
    let '(s, r) := schedule s (mkSreq (sq_active q) false (sq_metadata q)) in
    (s, match r with inl e => inl e | inr r => inr (Some r) end)
  else (s, inr None).
End Schedule.

(** ** New ids: comm_manager.py:317-345 *)

(** The current cell for an id: number of its execution, -1 for none; text; whether the id is a
    placeholder. *)
Record pcell := mkPC { pc_ctr : Z; pc_content : nat; pc_placeholder : bool }.

(** A stable sort. *)
Fixpoint insert {A} (leb : A -> A -> bool) (x : A) (l : list A) : list A :=
  match l with
  | [] => [x]
  | y :: l' => if leb x y then x :: l else y :: insert leb x l'
  end.
Fixpoint isort {A} (leb : A -> A -> bool) (l : list A) : list A :=
  match l with [] => [] | x :: l => insert leb x (isort leb l) end.

(** [with_placeholder_ids], cell.py:243-252. *)
Definition placeholders (cur : dict pcell) : list (nat * pcell) :=
  isort (fun a b => Z.leb (pc_ctr (snd a)) (pc_ctr (snd b)))
    (filter (fun p => pc_placeholder (snd p)) cur).

(** [update_id], cell.py:262-281, of the current cell for [old], as far as the ids of current cells
    go. *)
Definition update_id (cur : dict pcell) (old : nat) (c : pcell) (new : nat) : dict pcell :=
  dset (ddel cur old) new (mkPC (pc_ctr c) (pc_content c) false).

(** A cell of the notebook: id, index, text, and whether references are overridden. *)
Record ncell := mkNC { n_id : nat; n_index : nat; n_content : nat; n_override : bool }.

(** The first placeholder with the text, and the others. *)
Fixpoint take (x : nat) (l : list (nat * pcell)) : option ((nat * pcell) * list (nat * pcell)) :=
  match l with
  | [] => None
  | p :: l =>
      if Nat.eqb (pc_content (snd p)) x then Some (p, l)
      else match take x l with None => None | Some (q, l') => Some (q, p :: l') end
  end.

(** The loop, 334-344. The ids that [set_cell_positions] adds (cells that were in the notebook
    before) are known, and so passed over. *)
Definition match_cell (s : dict pcell * list (nat * pcell)) (n : ncell)
  : dict pcell * list (nat * pcell) :=
  let '(cur, ph) := s in
  if dhas cur (n_id n) then s
  else match take (n_content n) ph with
       | None => s
       | Some ((old, c), ph) => (update_id cur old c (n_id n), ph)
       end.
Definition by_index (nb : list ncell) : list ncell :=
  isort (fun a b => (n_index a <? n_index b) || ((n_index a =? n_index b) && (n_id a <=? n_id b)))%bool nb.
Definition match_cells (cur : dict pcell) (nb : list ncell) : dict pcell :=
  fst (fold_left match_cell (by_index nb) (cur, placeholders cur)).

(** [_create_untracked_cells_for_content], flow.py:521-528. *)
Definition create_untracked (cur : dict pcell) (nb : list ncell) : dict pcell :=
  fold_left (fun cur n => if dhas cur (n_id n) then cur
                          else dset cur (n_id n) (mkPC (-1) (n_content n) false)) nb cur.

(** [set_override_refs], cell.py:445-456: [from_id] raises for an unknown id; then the loops. *)
Definition new_ids (cur : dict pcell) (nb : list ncell) : res (dict pcell) :=
  if existsb (fun n => n_override n && negb (dhas cur (n_id n)))%bool nb then Err KeyError
  else Ok (create_untracked (match_cells cur nb) nb).
