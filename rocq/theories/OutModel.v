(** Recording what a cell prints and displays while it is shown as well. *)
Require Import List Arith Bool.
Import ListNotations.
Require Import Verif.Base.

(** What [sys.stdout] and [sys.stderr] can be: a stream that the user sees (or made), or the proxy
    (tracing/output_recorder.py:96-120) for the stream of that name. The name: true for stdout, false for stderr. *)
Inductive stream := Real (n : nat) | Proxy (name : bool).

(** [shell.display_pub]: the publisher that shows, or a tee (tracing/output_recorder.py:48-71) whose second
    publisher belongs to the capture of that number. *)
Inductive publisher := Shows | TeePub (p : publisher) (c : nat).

(** What the user sees, in order. *)
Inductive event := OnStream (n data : nat) | OnDisplay (data : nat) | Cleared.

(** tracing/output_recorder.py:79-82. A captured text is the list of the pieces written to it. *)
Record capture := mkCap { c_out : list nat; c_err : list nat; c_disp : list nat }.

(** The state of sys, of [CaptureOutputTee] (tracing/output_recorder.py:132-143) with all its flags set and a shell,
    of [OutputRecorder] (190-193, one instance), all the captures ever made, and [captured_output] of the cells. A tee
    (14-30) is its first output and the number of the capture whose stream is the second. *)
Record st := mkSt {
  sys : bool -> stream;
  saved : bool -> stream;
  tees : bool -> option (stream * nat);
  pub : publisher;
  save_pub : publisher;
  in_context : bool;
  capturing : bool;
  latest : option nat;
  recorded : list capture;
  shown : list event;
  captured : dict nat }.

Definition with_shown (l : list event) (s : st) : st :=
  mkSt (sys s) (saved s) (tees s) (pub s) (save_pub s) (in_context s) (capturing s) (latest s) (recorded s) l (captured s).
Definition with_recorded (l : list capture) (s : st) : st :=
  mkSt (sys s) (saved s) (tees s) (pub s) (save_pub s) (in_context s) (capturing s) (latest s) l (shown s) (captured s).

(** [StringIO.write], [CapturingDisplayPublisher.publish] and tracing/output_recorder.py:74-76 *)
Definition put (name : bool) (d : nat) (c : capture) : capture :=
  if name then mkCap (c_out c ++ [d]) (c_err c) (c_disp c) else mkCap (c_out c) (c_err c ++ [d]) (c_disp c).
Definition put_disp (d : nat) (c : capture) : capture := mkCap (c_out c) (c_err c) (c_disp c ++ [d]).
Definition clear_disp (c : capture) : capture := mkCap (c_out c) (c_err c) [].
Definition on_capture (f : capture -> capture) (c : nat) (s : st) : st :=
  match nth_error (recorded s) c with Some x => with_recorded (lset (recorded s) c (f x)) s | None => s end.

(** tracing/output_recorder.py:25-27 (Tee.write) and 102-112 (StdstreamProxy). [main]: whether the thread is the main
    one. [fuel]: the recursion limit; OutOfFuel stands for RecursionError. *)
Fixpoint write (fuel : nat) (main : bool) (d : nat) (x : stream) (s : st) : res st :=
  match fuel with
  | 0 => Err OutOfFuel
  | S f =>
      match x with
      | Real n => Ok (with_shown (shown s ++ [OnStream n d]) s)
      | Proxy name =>
          match (if main then tees s name else None) with
          | Some (y, c) => rmap (on_capture (put name d) c) (write f main d y s)
          | None => write f main d (saved s name) s
          end
      end
  end.

(** tracing/output_recorder.py:60-66 *)
Fixpoint publish (d : nat) (p : publisher) (s : st) : st :=
  match p with
  | Shows => with_shown (shown s ++ [OnDisplay d]) s
  | TeePub q c => on_capture (put_disp d) c (publish d q s)
  end.
Fixpoint clear_output (p : publisher) (s : st) : st :=
  match p with
  | Shows => with_shown (shown s ++ [Cleared]) s
  | TeePub q c => on_capture clear_disp c (clear_output q s)
  end.

(** tracing/output_recorder.py:145-179 *)
Definition enter (s : st) : st :=
  let c := length (recorded s) in
  mkSt (sys s) (saved s) (fun name => Some (saved s name, c)) (TeePub (pub s) c) (pub s) true (capturing s) (Some c)
       (recorded s ++ [mkCap [] [] []]) (shown s) (captured s).
(** tracing/output_recorder.py:181-193 *)
Definition leave (s : st) : st :=
  if negb (in_context s) then s
  else mkSt (sys s) (saved s) (fun _ => None) (save_pub s) (save_pub s) false (capturing s) (latest s)
            (recorded s) (shown s) (captured s).
(** tracing/output_recorder.py:205-213 *)
Definition init_module (s : st) : st :=
  let s := match sys s true with
           | Proxy _ => s
           | Real _ => mkSt Proxy (sys s) (tees s) (pub s) (save_pub s) (in_context s) (capturing s) (latest s)
                            (recorded s) (shown s) (captured s)
           end in
  enter (mkSt (sys s) (saved s) (tees s) (pub s) (save_pub s) (in_context s) true (latest s) (recorded s) (shown s) (captured s)).
(** tracing/output_recorder.py:215-219 *)
Definition done_capturing (s : st) : st :=
  if negb (capturing s) then s
  else leave (mkSt (sys s) (saved s) (tees s) (pub s) (save_pub s) (in_context s) false (latest s) (recorded s) (shown s) (captured s)).

(** What happens: a write to [sys.stdout] or [sys.stderr], a publication, a request to clear; the user assigns a
    stream of their own to [sys.stdout] or [sys.stderr]; the module of a cell starts; the hook after a cell (shell/interactiveshell.py:672-673);
    the end of [run_cell] (shell/interactiveshell.py:362). *)
Inductive op :=
| Write (main name : bool) (d : nat) | Display (d : nat) | Clear
| Replace (name : bool) (n : nat)
| Init | After (cell : nat) | Done.

Definition do (fuel : nat) (o : op) (s : st) : res st :=
  match o with
  | Write main name d => write fuel main d (sys s name) s
  | Display d => Ok (publish d (pub s) s)
  | Clear => Ok (clear_output (pub s) s)
  | Replace name n =>
      Ok (mkSt (fun x => if Bool.eqb x name then Real n else sys s x) (saved s) (tees s) (pub s) (save_pub s) (in_context s)
               (capturing s) (latest s) (recorded s) (shown s) (captured s))
  | Init => Ok (init_module s)
  | After cell =>
      Ok (match dget (captured s) cell, latest s with
          | None, Some c => mkSt (sys s) (saved s) (tees s) (pub s) (save_pub s) (in_context s) (capturing s) (latest s)
                                 (recorded s) (shown s) (dset (captured s) cell c)
          | _, _ => s
          end)
  | Done => Ok (done_capturing s)
  end.
Definition run (fuel : nat) (ops : list op) (s : st) : res st := rfold (fun s o => do fuel o s) ops s.
