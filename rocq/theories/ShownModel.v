(** What is shown of a traceback, and which outputs of runs are kept. *)
From Coq Require Import List Arith Bool String.
From Verif Require Import Base.
Import ListNotations.
Local Open Scope nat_scope.
Local Open Scope list_scope.

(** ** Tracebacks *)

(** A frame: [f_code.co_filename], [f_code.co_name], and whether the local variable
    [HIDE_PYCCOLO_FRAME] is there and true. *)
Record frame := mkFrame { file : string; name : string; flagged : bool }.

(** The constants of pyccolo that are used: [SANDBOX_FNAME_PREFIX] and [TRACED_LAMBDA_NAME]
    (interactiveshell.py 13-18). *)
Record names := mkNames { sandbox : string; lambda : string }.

(** Traceback objects: a frame and [tb_next]. *)
Definition tbs := dict (frame * option nat).

(** ["..." in s] *)
Fixpoint occurs (p s : string) : bool :=
  prefix p s || match s with EmptyString => false | String _ r => occurs p r end.

(** The conditions of interactiveshell.py 712-721. *)
Definition hidden (k : names) (f : frame) : bool :=
  flagged f || prefix (sandbox k) (file f)
  || ((name f =? lambda k) || (name f =? "_patched_eval") || (name f =? "_patched_tracer_eval"))%string
  || occurs "pyccolo" (file f).

(** The loop of [filter_hidden_frames], interactiveshell.py 707-725. CPython does not allow cycles; a
    loop that goes on for too long is an error here. *)
Fixpoint filter_loop (k : names) (fuel : nat) (h : tbs) (prev tb : option nat) : res tbs :=
  match tb with
  | None => Ok h
  | Some r =>
      match fuel with
      | 0 => Err OutOfFuel
      | S fuel =>
          match dget h r with
          | None => Err AttributeError
          | Some (f, next) =>
              match prev with
              | Some p =>
                  if hidden k f then
                    match dget h p with
                    | None => Err AttributeError
                    | Some (g, _) => filter_loop k fuel (dset h p (g, next)) prev next
                    end
                  else filter_loop k fuel h tb next
              | None => filter_loop k fuel h tb next
              end
          end
      end
  end.

(** [filter_hidden_frames(tb)] *)
Definition filter_hidden_frames (k : names) (h : tbs) (tb : option nat) : res tbs :=
  filter_loop k (S (List.length h)) h None tb.

(** [showtraceback], interactiveshell.py 727-737: [dev] is the environment variable. What is shown
    is the traceback that starts at [tb]. *)
Definition showtraceback (k : names) (dev : bool) (h : tbs) (tb : option nat) : res tbs :=
  if dev then Ok h else filter_hidden_frames k h tb.

(** ** Outputs *)

(** What was captured of a run: the length of every datum of its outputs (None: it has none), the
    lengths of what was written to stdout and to stderr, and what is in it. *)
Record output := mkOut { data : list (list (option nat)); stdout : nat; stderr : nat; content : nat }.

(** A sum over things of which one may have no length: TypeError. *)
Definition sum_len (l : list (option nat)) : res nat :=
  rfold (fun acc d => rmap (fun n => acc + n) (of_option TypeError d)) l 0.

(** interactiveshell.py 659-665. *)
Definition size (o : output) : res nat :=
  rmap (fun n => n + stdout o + stderr o)
    (rfold (fun acc l => rmap (fun n => acc + n) (sum_len l)) (data o) 0).

(** A cell that was run: its id and its [captured_output]. The place in the list is its counter; its
    [history] are the places of the cells with its id up to it (cell.py 403). *)
Record cell := mkCell { c_id : nat; kept : option output }.

(** [history[-2]] of the last cell, interactiveshell.py 649-650: the place of the cell of the same id
    that was run before. *)
Fixpoint last_of (i : nat) (l : list cell) : option nat :=
  match l with
  | [] => None
  | c :: r => match last_of i r with
              | Some n => Some (S n)
              | None => if c_id c =? i then Some 0 else None
              end
  end.

(** The part of [_handle_output] that drops and keeps, interactiveshell.py 657-671, for a run of the id
    [i] whose output was [o], after the cells [l]. The other part shows the output of the previous run
    again if this one was held back (651-656). *)
Definition handle_output (limit : nat) (l : list cell) (i : nat) (o : output) : res (list cell) :=
  match last_of i l with
  | None => Ok (l ++ [mkCell i (Some o)])
  | Some p =>
      match nth_error l p with
      | Some (mkCell j (Some b)) =>
          match size b with
          | Err e => Err e
          | Ok n => Ok ((if limit <? n then lset l p (mkCell j None) else l) ++ [mkCell i (Some o)])
          end
      | _ => Ok (l ++ [mkCell i (Some o)])
      end
  end.

(** A run: the id, its output, and whether the dataflow is enabled. *)
Record run := mkRun { r_id : nat; r_out : output; r_on : bool }.

(** interactiveshell.py 444-455: without dataflow nothing is done; an exception ends what is done
    after the run. *)
Definition step (limit : nat) (l : list cell) (r : run) : list cell :=
  if r_on r then
    match handle_output limit l (r_id r) (r_out r) with
    | Ok l => l
    | Err _ => l ++ [mkCell (r_id r) None]
    end
  else l ++ [mkCell (r_id r) None].

Definition runs (limit : nat) (rs : list run) : list cell := fold_left (step limit) rs [].

(** [_CAPTURE_OUTPUT_SAVE_LIMIT], interactiveshell.py 45, is [2 * 1024 * 1024]; the limit is a parameter
    here. *)
