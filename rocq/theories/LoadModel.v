(** Loading and unloading the extension, and the numbers and ids of the cells that are run: the
    switching of the classes of the shell and of the kernel, runs inside of runs, runs without history
    and silent runs. *)
From Coq Require Import List Arith Bool.
From Verif Require Import Base.
Import ListNotations.

(** The class of the shell, or of the kernel. [Plain]: the one that was there before. [Native]: one of
    ipyflow that was there from the start, with [prev_shell_class] None (interactiveshell.py 49,
    kernel.py 83). [Ours p]: one that was generated (shell/__init__.py 28-31, __init__.py 43-45), whose
    previous class is [Plain]; [p]: its [replacement_class] is set, and then to [Plain]. *)
Inductive cls := Plain | Native | Ours (pending : bool).

(** [issubclass(..., IPyflowInteractiveShell)], [isinstance(ipy, IPyflowInteractiveShell)]. *)
Definition ours (c : cls) : bool := match c with Plain => false | _ => true end.

(** The id of a cell: one that was given, or the number it was going to have (interactiveshell.py
    566-570). Both are keys of one dict; ids of frontends are not numbers. *)
Inductive cid := Given (n : nat) | Auto (n : nat).
Definition key (i : cid) : nat := match i with Given n => 2 * n | Auto n => 2 * n + 1 end.

(** A cell that was created for a run: its id, its [cell_ctr], and, for the record, the text, the
    number that IPython showed for the run and whether it was run with [store_history]. *)
Record cell := mkCell { c_id : cid; c_num : nat; c_text : nat; c_in : nat; c_hist : bool }.

(** A run that has begun: whether [run_cell_async] is that of ipyflow, whether [do_execute] is, and
    whether the history is kept and it is silent. *)
Record frame := mkFrame { f_shell : bool; f_kernel : bool; f_hist : bool; f_silent : bool }.

(** [shell], [kernel]: their classes ([kernel] None: the shell has no kernel). [ec]: the
    [execution_count] of the shell. [shown]: [displayhook.exec_result] is not None. [ctr]:
    [Cell._cell_counter]. [active]: [active_cell_id]. [cells]: all cells, in the order in which they were
    created. [cur]: [_current_cell_by_cell_id]. [by_ctr]: [_cell_by_cell_ctr]. [stack]: the runs that
    have begun and have not ended, the innermost first. [broken]: the number of runs whose end raised
    because a class was switched while they ran. [refused]: the number of unloads that raised. *)
Record st := mkSt {
  shell : cls; kernel : option cls; ec : nat; shown : bool; ctr : nat; active : option nat;
  cells : list cell; cur : dict nat; by_ctr : dict nat; stack : list frame;
  broken : nat; refused : nat }.

(** A session starts with In[1] and [_cell_counter = 0], cell.py 80. *)
Definition init (sh : cls) (k : option cls) : st := mkSt sh k 1 false 0 None [] [] [] [] 0 0.

Definition set_shell s x := mkSt x (kernel s) (ec s) (shown s) (ctr s) (active s) (cells s) (cur s) (by_ctr s) (stack s) (broken s) (refused s).
Definition set_kernel s x := mkSt (shell s) x (ec s) (shown s) (ctr s) (active s) (cells s) (cur s) (by_ctr s) (stack s) (broken s) (refused s).
Definition set_ec s x := mkSt (shell s) (kernel s) x (shown s) (ctr s) (active s) (cells s) (cur s) (by_ctr s) (stack s) (broken s) (refused s).
Definition set_shown s x := mkSt (shell s) (kernel s) (ec s) x (ctr s) (active s) (cells s) (cur s) (by_ctr s) (stack s) (broken s) (refused s).
Definition set_ctr s x := mkSt (shell s) (kernel s) (ec s) (shown s) x (active s) (cells s) (cur s) (by_ctr s) (stack s) (broken s) (refused s).
Definition set_stack s x := mkSt (shell s) (kernel s) (ec s) (shown s) (ctr s) (active s) (cells s) (cur s) (by_ctr s) x (broken s) (refused s).
Definition break s := mkSt (shell s) (kernel s) (ec s) (shown s) (ctr s) (active s) (cells s) (cur s) (by_ctr s) (stack s) (S (broken s)) (refused s).
Definition refuse s := mkSt (shell s) (kernel s) (ec s) (shown s) (ctr s) (active s) (cells s) (cur s) (by_ctr s) (stack s) (broken s) (S (refused s)).

(** [inject] of the shell, interactiveshell.py 83-96. *)
Definition inject (s : st) : st :=
  let s := set_shell s (Ours false) in
  let s := set_ctr s (ec s) in
  if shown s then s else set_ctr s (pred (ctr s)).

(** [load_ipython_extension], shell/__init__.py 22-31 and __init__.py 34-45; [inject] of the kernel,
    kernel.py 137-151. The message to the frontend (47-53) is left out. *)
Definition load (s : st) : st :=
  let s := match shell s with
           | Ours _ => set_shell s (Ours false)
           | Native => s
           | Plain => inject s
           end in
  match kernel s with
  | None => s
  | Some (Ours _) => set_kernel s (Some (Ours false))
  | Some Native => s
  | Some Plain => set_kernel s (Some (Ours false))
  end.

(** [unload_ipython_extension], shell/__init__.py 34-38 and __init__.py 56-64. The assertions: lines 35
    and 37, and lines 62 and 63. *)
Definition unload (s : st) : st :=
  match shell s with
  | Plain | Native => refuse s
  | Ours _ =>
      let s := set_shell s (Ours true) in
      match kernel s with
      | None => s
      | Some (Ours _) => set_kernel s (Some (Ours true))
      | Some _ => refuse s
      end
  end.

(** [_maybe_eject], interactiveshell.py 98-103 and kernel.py 153-158, called on the shell or kernel at
    the end of a run (interactiveshell.py 392, kernel.py 204 and 241). The class it has by then may be
    one that has no such method: None. *)
Definition eject (c : cls) : option cls :=
  match c with
  | Plain => None
  | Native => Some Native
  | Ours true => Some Plain
  | Ours false => Some (Ours false)
  end.

(** A run that begins. [b_via]: [do_execute] of the kernel was called, otherwise [run_cell] or
    [run_cell_async] of the shell. [b_id]: the [cell_id] that was given. *)
Record req := mkReq { b_via : bool; b_silent : bool; b_hist : bool; b_id : option nat; b_text : nat }.

(** [create_and_track], cell.py 362-420, as called by [before_run_cell], interactiveshell.py 564-578.
    [ipy_cell_counter()] is the [execution_count] of the beginning of the run (ipython_utils.py 21-26),
    which is still that. *)
Definition create (s : st) (q : req) : st :=
  let act := match b_id q with Some i => Some i | None => active s end in
  let i := match act with Some i => Given i | None => Auto (S (ctr s)) end in
  let n := S (ctr s) in
  let n := if b_hist q && negb (n =? ec s) then ec s else n in
  let r := length (cells s) in
  let newer := match dget (cur s) (key i) with
               | None => true
               | Some p => match nth_error (cells s) p with
                           | None => true
                           | Some c => c_num c <? n
                           end
               end in
  mkSt (shell s) (kernel s) (ec s) (shown s) n act
    (cells s ++ [mkCell i n (b_text q) (ec s) (b_hist q)])
    (if newer then dset (cur s) (key i) r else cur s) (dset (by_ctr s) n r) (stack s)
    (broken s) (refused s).

(** The beginning of a run: [do_execute] (kernel.py 183-242), [run_cell] and [run_cell_async]
    (interactiveshell.py 335-393) up to the execution of the code, which sets [exec_result]. Silent runs
    do not go through ipyflow (375-383). [before_run_cell] does not raise here. Ids that the kernel
    takes out of the metadata (kernel.py 160-172) are those of [b_id]. *)
Definition begin (s : st) (q : req) : st :=
  let f := mkFrame (ours (shell s))
                   (b_via q && match kernel s with Some k => ours k | None => false end)
                   (b_hist q) (b_silent q) in
  let s := if ours (shell s) && negb (b_silent q) then create s q else s in
  set_shown (set_stack s (f :: stack s)) true.

(** The end of a run. IPython resets [exec_result] and, if it was not silent and the history is kept,
    counts it. What follows in [run_cell_async] and in [do_execute] may raise ([fs], [fk]): then nothing
    is ejected. If the class of the shell was switched back during the run, then line 392 or, earlier,
    452-455 raise an AttributeError. *)
Definition end_ (s : st) (fs fk : bool) : st :=
  match stack s with
  | [] => s
  | f :: rest =>
      let s := set_stack (set_shown s false) rest in
      let s := if f_hist f && negb (f_silent f) then set_ec s (S (ec s)) else s in
      let s := if f_shell f && negb fs
               then match eject (shell s) with Some c => set_shell s c | None => break s end
               else s in
      if f_kernel f && negb fk
      then match kernel s with
           | Some k => match eject k with Some c => set_kernel s (Some c) | None => break s end
           | None => s
           end
      else s
  end.

(** A run of a text that is empty: nothing is executed, but line 392 is reached. *)
Definition blank (s : st) : st :=
  if ours (shell s)
  then match eject (shell s) with Some c => set_shell s c | None => break s end
  else s.

(** What happens in a session. Between [Begin] and [End] are the runs and commands of the text that is
    run; whatever that text does with an unload that raises. *)
Inductive ev := Load | Unload | Begin (q : req) | End (fs fk : bool) | Blank.

Definition step (s : st) (e : ev) : st :=
  match e with
  | Load => load s
  | Unload => unload s
  | Begin q => begin s q
  | End fs fk => end_ s fs fk
  | Blank => blank s
  end.

Definition steps (s : st) (evs : list ev) : st := fold_left step evs s.

(** [from_id_nullable], cell.py 523-524. *)
Definition from_id (s : st) (i : cid) : option cell :=
  match dget (cur s) (key i) with Some r => nth_error (cells s) r | None => None end.

(** [at_counter], cell.py 490-491. *)
Definition at_counter (s : st) (n : nat) : option cell :=
  match dget (by_ctr s) n with Some r => nth_error (cells s) r | None => None end.
