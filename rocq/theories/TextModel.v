(** Model of what the kernel takes the statements of a cell to be, and of the runs in which something
    else than the text of the cell is executed: core/ipyflow/data_model/cell.py 320-360, 362-420,
    513-566, 568-620, 622-690 ([create_and_track], memoization and [to_ast]),
    core/ipyflow/shell/interactiveshell.py 395-455, 494-643, 676-703 ([_ipyflow_run_cell],
    [_get_content_for_memoized_run], [before_run_cell], [_handle_memoization], [after_run_cell]),
    core/ipyflow/tracing/flow_ast_rewriter.py 28-49 and core/ipyflow/comm_manager.py 228-276.

    Whether the inputs of an earlier run are unchanged, whether the checker finds a use out of order,
    what a run computes and which dependencies it finds are chosen by the history; C28, C22 and
    C60-C69 are about these. Dependencies are numbers. Not modelled: positions, tags, new ids of
    cells (C33), the repair of a counter that differs from IPython's (cell.py 376-387), contents that
    consist of nothing but [%%memoize]. The edges are modelled for one of the two slicing contexts. *)
Require Import List Bool Arith.
Import ListNotations.
Require Import Verif.Base.

(** memoization/__init__.py 50-53. *)
Inductive level := Quiet | Normal | Verbose.

(** The contents of a cell, as cell.py 539-552 splits them: the level given by a [%%memoize] line, if
    there is one, and the rest. Texts are numbers. *)
Record text := mkText { t_memo : option level; t_body : nat }.

Definition level_eqb (a b : level) : bool :=
  match a, b with
  | Quiet, Quiet | Normal, Normal | Verbose, Verbose => true
  | _, _ => false
  end.

(** [==] of contents, cell.py 668-669. *)
Definition text_eqb (a b : text) : bool :=
  (t_body a =? t_body b) &&
  match t_memo a, t_memo b with
  | None, None => true
  | Some x, Some y => level_eqb x y
  | _, _ => false
  end.

(** A module: its statements. [SText] are those of a text; [SPass] and [SOut] those of [pass] and of
    [Out.get(n)], cell.py 618-620 and interactiveshell.py 622-624 ([Out.get(-1)] is [SOut None]). *)
Inductive stmt := SText (n : nat) | SPass | SOut (ctr : option nat).
Definition ast := list stmt.

(** [ast.parse] of a text after IPython's and ipyflow's transformations, cell.py 622-640 and 672-673;
    [None] is a [SyntaxError]. *)
Definition parser := nat -> option (list nat).
Definition parsed (parse : parser) (b : nat) : option ast := option_map (map SText) (parse b).

(** The id of a cell: given by the frontend, or the next counter if there is none,
    interactiveshell.py 568-573. The frontend's are strings, so that they are none of the others. *)
Inductive cid := Given (n : nat) | Auto (n : nat).
Definition key (i : cid) : nat := match i with Given n => 2 * n | Auto n => 2 * n + 1 end.

(** cell.py 88-135; [c_ctr] is [None] for -1. [c_last] is [last_ast_content], [c_ast] is
    [_cached_ast], [c_skip] is [skipped_due_to_memoization_ctr]. *)
Record cell := mkCell {
  c_id : cid; c_ctr : option nat; c_text : text; c_exec : option nat; c_last : option text;
  c_ast : option ast; c_prev : option nat; c_skip : option nat }.

(** Cells are known by their place in [heap]. [cur] and [by_ctr] are cell.py 75-76; [counter] is
    [_cell_counter]; [lastrun] is [last_executed_cell_id] and [last_executed_content] of flow.py;
    [table] is [_memoized_executions], one for all cells (cell.py 86); [outs] is IPython's [Out];
    [sts] holds the parents of the statements that exist at a counter, [cps] those of the cell. *)
Record st := mkSt {
  heap : list cell; cur : dict nat; by_ctr : dict nat; counter : nat; lastrun : option (cid * nat);
  table : list (nat * nat); outs : dict nat; sts : dict (list (list nat)); cps : dict (list nat) }.

Definition init : st := mkSt [] [] [] 0 None [] [] [] [].

Definition with_heap (s : st) h :=
  mkSt h (cur s) (by_ctr s) (counter s) (lastrun s) (table s) (outs s) (sts s) (cps s).
Definition with_last (s : st) l :=
  mkSt (heap s) (cur s) (by_ctr s) (counter s) l (table s) (outs s) (sts s) (cps s).
Definition with_table (s : st) t :=
  mkSt (heap s) (cur s) (by_ctr s) (counter s) (lastrun s) t (outs s) (sts s) (cps s).
Definition with_outs (s : st) o :=
  mkSt (heap s) (cur s) (by_ctr s) (counter s) (lastrun s) (table s) o (sts s) (cps s).
Definition with_sts (s : st) x :=
  mkSt (heap s) (cur s) (by_ctr s) (counter s) (lastrun s) (table s) (outs s) x (cps s).
Definition with_cps (s : st) x :=
  mkSt (heap s) (cur s) (by_ctr s) (counter s) (lastrun s) (table s) (outs s) (sts s) x.

Definition set_text (c : cell) t :=
  mkCell (c_id c) (c_ctr c) t (c_exec c) (c_last c) (c_ast c) (c_prev c) (c_skip c).
Definition set_exec (c : cell) e :=
  mkCell (c_id c) (c_ctr c) (c_text c) e (c_last c) (c_ast c) (c_prev c) (c_skip c).
Definition set_ast (c : cell) a :=
  mkCell (c_id c) (c_ctr c) (c_text c) (c_exec c) (c_last c) (Some a) (c_prev c) (c_skip c).
Definition set_last (c : cell) l :=
  mkCell (c_id c) (c_ctr c) (c_text c) (c_exec c) l (c_ast c) (c_prev c) (c_skip c).
Definition set_skip (c : cell) k :=
  mkCell (c_id c) (c_ctr c) (c_text c) (c_exec c) (c_last c) (c_ast c) (c_prev c) (Some k).

(** Replaces the cell at a place. *)
Definition upd (h : list cell) (r : nat) (f : cell -> cell) : list cell :=
  match nth_error h r with
  | None => h
  | Some c => firstn r h ++ f c :: skipn (S r) h
  end.
Definition at_ (s : st) (r : nat) (f : cell -> cell) : st := with_heap s (upd (heap s) r f).

(** [to_ast(override)], cell.py 662-664. *)
Definition override (s : st) (r : nat) (a : ast) : st := at_ s r (fun c => set_ast c a).

(** [to_ast()], cell.py 661-678. The rewriter of 676-677 replaces the new tree by a copy of it
    (flow_ast_rewriter.py 38-40), which is the same tree here. *)
Definition to_ast (parse : parser) (s : st) (r : nat) : option ast * st :=
  match nth_error (heap s) r with
  | None => (None, s)
  | Some c =>
      let again :=
        match parsed parse (t_body (c_text c)) with
        | None => (None, s)
        | Some a => (Some a, at_ s r (fun c => set_last (set_ast c a) (Some (c_text c))))
        end in
      match c_ast c, c_last c with
      | Some a, Some t => if text_eqb t (c_text c) then (Some a, s) else again
      | _, _ => again
      end
  end.

(** [create_and_track] for a cell that is run, cell.py 362-420. Returns the place of the new cell. *)
Definition create (s : st) (i : cid) (t : text) : st * nat :=
  let n := S (counter s) in
  let r := length (heap s) in
  let c := mkCell i (Some n) t None None None (dget (cur s) (key i)) None in
  (mkSt (heap s ++ [c]) (dset (cur s) (key i) r) (dset (by_ctr s) n r) n (lastrun s) (table s)
     (outs s) (sts s) (cps s), r).

(** [create_and_track(..., bump_cell_counter=False)] for an id that has no cell, flow.py 537-543. *)
Definition untracked (s : st) (i : cid) (t : text) : st :=
  match dget (cur s) (key i) with
  | Some _ => s
  | None =>
      let r := length (heap s) in
      mkSt (heap s ++ [mkCell i None t None None None None None]) (dset (cur s) (key i) r)
        (by_ctr s) (counter s) (lastrun s) (table s) (outs s) (sts s) (cps s)
  end.

(** A run, as the user and everything that is not modelled decide it. [q_id]: the id given by the
    frontend. [q_enabled], [q_warn]: the settings [dataflow_enabled] and [warn_out_of_order_usages].
    [q_traced]: the dataflow tracer is registered. [q_unsafe]: the checker finds a use out of order.
    [q_pick k]: the inputs of run [k] are as they were. [q_fails]: the text raises, after [q_ran]
    statements. [q_value]: what it displays as its result. [q_keep]: its inputs can be recorded,
    cell.py 336-337. [q_deps], [q_cdeps]: the dependencies of its statements and of the cell. *)
Record req := mkReq {
  q_id : option nat; q_text : text; q_enabled : bool; q_warn : bool; q_traced : bool;
  q_unsafe : bool; q_pick : nat -> bool; q_fails : bool; q_ran : nat; q_value : option nat;
  q_keep : bool; q_deps : nat -> list nat; q_cdeps : list nat }.

(** What is executed: the text of the cell; [pass] or [Out.get(...)] because the run is held back;
    [pass] or [Out.get(...)] because run [k] is reused. *)
Inductive code := Body | HeldBack (show : ast) | Reused (k : nat) (show : ast).

(** [get_memoized_counter], cell.py 568-605. *)
Definition memo_ctr (s : st) (c : cell) (q : req) : option nat :=
  match t_memo (c_text c), c_prev c, c_exec c, c_ctr c with
  | Some _, Some _, Some b, Some n =>
      option_map snd (find (fun e => (fst e =? b) && (snd e <? n) && q_pick q (snd e)) (table s))
  | _, _, _, _ => None
  end.

(** [get_transformed_memoized_content], cell.py 607-620. *)
Definition shown_for (t : text) (k : nat) : ast :=
  match t_memo t with Some Quiet => [SPass] | _ => [SOut (Some k)] end.

Definition cid_eqb (a b : cid) : bool :=
  match a, b with
  | Given n, Given m => n =? m
  | Auto n, Auto m => n =? m
  | _, _ => false
  end.

(** [(to_create_cell_id, cell_content) != (last_cell_id, last_content)], interactiveshell.py 609-613. *)
Definition repeats (last : option (cid * nat)) (i : cid) (b : nat) : bool :=
  match last with
  | Some (j, b') => cid_eqb i j && (b =? b')
  | None => false
  end.

(** [before_run_cell], interactiveshell.py 535-624. Returns the new cell and what is to be executed.
    The checker of 598-601 fails if the text does not parse, and then finds nothing. A text that is
    found in the table parses; otherwise line 515 would end the run. *)
Definition before (parse : parser) (s : st) (q : req) : st * nat * code :=
  let i := match q_id q with Some n => Given n | None => Auto (S (counter s)) end in
  let t := q_text q in
  let '(s, r) := create s i t in
  let s := at_ s r (fun c => set_exec c (Some (t_body t))) in
  let last := lastrun s in
  let s := with_last s (Some (i, t_body t)) in
  if negb (q_enabled q) then (s, r, Body)
  else
    match option_map (fun c => (c, memo_ctr s c q)) (nth_error (heap s) r) with
    | Some (c, Some k) =>
        match to_ast parse s r with
        | (Some a, s) =>
            let s := with_sts s (dset (sts s) (counter s) (map (fun _ => []) a)) in
            (at_ s r (fun c => set_skip c k), r, Reused k (shown_for t k))
        | (None, s) => (s, r, Body)
        end
    | Some (c, None) =>
        if q_traced q then
          let '(a, s) := to_ast parse s r in
          let unsafe := match a with Some _ => q_unsafe q | None => false end in
          if q_warn q && unsafe && negb (repeats last i (t_body t)) then
            (at_ s r (fun c => set_exec c None), r,
             HeldBack match c_prev c with
                      | None => [SPass]
                      | Some p => [SOut match nth_error (heap s) p with
                                        | Some c => c_ctr c
                                        | None => None
                                        end]
                      end)
          else (s, r, Body)
        else (s, r, Body)
    | None => (s, r, Body)
    end.

(** What [Out.get(n)] evaluates to. *)
Definition out_get (s : st) (a : ast) : option nat :=
  match a with
  | [SOut (Some n)] => dget (outs s) n
  | _ => None
  end.

Definition put_out (s : st) (v : option nat) : st :=
  match v with
  | Some v => with_outs s (dset (outs s) (counter s) v)
  | None => s
  end.

(** The run itself, interactiveshell.py 409-437 and what IPython does in [super().run_cell_async]: the
    tree is given to the rewriter (flow_ast_rewriter.py 28-49), which makes it the tree of the cell,
    the statements are executed, the result is displayed and kept in [Out]. Also returns whether it
    failed and what was displayed. The one statement of [pass] or [Out.get(...)] is not recorded: that of
    a reused run comes after those of interactiveshell.py 515-518 at the same time, and nothing looks
    for that of a run that is held back. *)
Definition execute (parse : parser) (s : st) (r : nat) (q : req) (c : code) : st * bool * option nat :=
  let rewritten s a := if q_enabled q && q_traced q then override s r a else s in
  match c with
  | Body =>
      match parsed parse (t_body (q_text q)) with
      | None => (s, true, None)
      | Some a =>
          let s := rewritten s a in
          let n := if q_fails q then Nat.min (q_ran q) (length a) else length a in
          let s := if q_enabled q && q_traced q
                   then with_cps (with_sts s (dset (sts s) (counter s) (map (q_deps q) (seq 0 n))))
                          (dset (cps s) (counter s) (q_cdeps q))
                   else s in
          let v := if q_fails q then None else q_value q in
          (put_out s v, q_fails q, v)
      end
  | HeldBack a | Reused _ a =>
      let v := out_get s a in
      (put_out (rewritten s a) v, false, v)
  end.

(** [statements()] of a cell, cell.py 228-232: there must be one for every statement of its tree. *)
Definition statements (parse : parser) (s : st) (r : nat) : option (list (list nat)) * st :=
  let '(a, s) := to_ast parse s r in
  (match a, option_map c_ctr (nth_error (heap s) r) with
   | Some a, Some (Some n) =>
       match dget (sts s) n with
       | Some ps => if length a <=? length ps then Some (firstn (length a) ps) else None
       | None => if length a =? 0 then Some [] else None
       end
   | _, _ => None
   end, s).

(** The loop over [zip(...)], interactiveshell.py 638-642: the parents of the statements of the new
    cell become those of the statements of the reused one, as far as there are both. *)
Fixpoint rewire (mine : list (list nat)) (n : nat) (theirs : list (list nat)) : list (list nat) :=
  match mine, n, theirs with
  | _ :: mine, S n, p :: theirs => p :: rewire mine n theirs
  | _, _, _ => mine
  end.

(** [_handle_memoization], interactiveshell.py 625-644, and the check of 700-703. An exception ends it
    (452-455). A run that was held back has no [executed_content], so that 644 ends in the assertion of
    cell.py 352. Without the tracer nothing is checked, flow.py 570-575. *)
Definition after (parse : parser) (s : st) (r : nat) (q : req) (failed : bool) : st :=
  match nth_error (heap s) r with
  | None => s
  | Some c =>
      let check s := if q_traced q then snd (to_ast parse s r) else s in
      match c_skip c, c_prev c with
      | Some k, Some p =>
          match to_ast parse s p with
          | (None, s) => s
          | (Some a, s) =>
              let s := override s r a in
              let s := match dget (cps s) k with
                       | Some ps => with_cps s (dset (cps s) (counter s) ps)
                       | None => s
                       end in
              match statements parse s r with
              | (None, s) => s
              | (Some mine, s) =>
                  match dget (by_ctr s) k with
                  | None => s
                  | Some rk =>
                      match statements parse s rk with
                      | (None, s) => s
                      | (Some theirs, s) =>
                          check (match dget (sts s) (counter s) with
                                 | Some all => with_sts s (dset (sts s) (counter s)
                                                            (rewire all (length mine) theirs))
                                 | None => s
                                 end)
                      end
                  end
              end
          end
      | Some _, None => s
      | None, _ =>
          match t_memo (c_text c) with
          | None => check s
          | Some _ =>
              if failed || negb (q_keep q) then check s
              else match c_exec c, c_ctr c with
                   | Some b, Some n => check (with_table s (table s ++ [(b, n)]))
                   | _, _ => s
                   end
          end
      end
  end.

(** What a run did, for the user to see. *)
Record report := mkRep { p_id : cid; p_code : code; p_shown : option nat }.

(** [_ipyflow_run_cell], interactiveshell.py 395-456. *)
Definition run (parse : parser) (s : st) (q : req) : st * report :=
  let '(s, r, c) := before parse s q in
  let '(s, failed, v) := execute parse s r q c in
  let s := if q_enabled q then after parse s r q failed else s in
  (s, mkRep (match nth_error (heap s) r with Some c => c_id c | None => Auto 0 end) c v).

(** The loop of [_recompute_ast_for_cells], comm_manager.py 245-275, for one cell. The check of
    253-255 does not raise here. *)
Definition new_text (parse : parser) (s : st) (i : nat) (t : text) : st :=
  match dget (cur s) (key (Given i)) with
  | None => s
  | Some r =>
      match nth_error (heap s) r with
      | None => s
      | Some c =>
          match to_ast parse (at_ s r (fun c => set_text c t)) r with
          | (Some _, s) => s
          | (None, s) => at_ s r (fun x => set_text x (c_text c))
          end
      end
  end.

(** comm_manager.py 232-243. [force] stands for the argument and for counters that differ. *)
Definition differs (s : st) (l : list (nat * text)) : bool :=
  existsb (fun e =>
    match dget (cur s) (key (Given (fst e))) with
    | None => false
    | Some r => match nth_error (heap s) r with
                | Some c => negb (text_eqb (c_text c) (snd e))
                | None => false
                end
    end) l.

(** A notification of contents: comm_manager.py 228-276 and 346. *)
Definition notify (parse : parser) (s : st) (force : bool) (l : list (nat * text)) : st :=
  let s := if force || differs s l
           then fold_left (fun s e => new_text parse s (fst e) (snd e)) l s else s in
  fold_left (fun s e => untracked s (Given (fst e)) (snd e)) l s.

(** A check of the current cell of an id, cell.py 777-794. *)
Definition check (parse : parser) (s : st) (i : cid) : st :=
  match dget (cur s) (key i) with
  | Some r => snd (to_ast parse s r)
  | None => s
  end.

Inductive ev :=
| Run (q : req)
| Notify (force : bool) (l : list (nat * text))
| Check (i : cid).

Definition step (parse : parser) (s : st) (e : ev) : st :=
  match e with
  | Run q => fst (run parse s q)
  | Notify f l => notify parse s f l
  | Check i => check parse s i
  end.

Definition steps (parse : parser) (evs : list ev) : st := fold_left (step parse) evs init.
