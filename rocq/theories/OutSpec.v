(** What it means that output is both shown and recorded. *)
Require Import List Arith Bool.
Import ListNotations.
Require Import Verif.Base Verif.OutModel.

(** Nothing is being captured, and writes go to the streams [o] (stdout) and [e] (stderr): either directly or through
    the proxies. *)
Definition at_rest (o e : nat) (s : st) : Prop :=
  ((sys s true = Real o /\ sys s false = Real e) \/
   (sys s true = Proxy true /\ sys s false = Proxy false /\ saved s true = Real o /\ saved s false = Real e)) /\
  (forall name, tees s name = None) /\ pub s = Shows /\ in_context s = false /\ capturing s = false.

(** The user's code produces output (in any thread); the hook after the cell may run at any time. *)
Definition output (x : op) : Prop :=
  match x with Write _ _ _ | Display _ | Clear | After _ => True | _ => False end.

(** What the user must see. *)
Definition shows (o e : nat) (body : list op) : list event :=
  flat_map (fun x => match x with
                     | Write _ true d => [OnStream o d]
                     | Write _ false d => [OnStream e d]
                     | Display d => [OnDisplay d]
                     | Clear => [Cleared]
                     | _ => [] end) body.
(** What must be recorded of a stream: what the main thread wrote to it. *)
Definition written (name : bool) (body : list op) : list nat :=
  flat_map (fun x => match x with Write true n d => if Bool.eqb n name then [d] else [] | _ => [] end) body.
(** What must be recorded of the display: what was published since it was last cleared. *)
Fixpoint displayed (body : list op) (l : list nat) : list nat :=
  match body with
  | [] => l
  | Display d :: b => displayed b (l ++ [d])
  | Clear :: b => displayed b []
  | _ :: b => displayed b l
  end.
Definition record_of (body : list op) : capture := mkCap (written true body) (written false body) (displayed body []).

(** The life of a cell: its module starts, it produces output, and the capture is left at least once. *)
Definition cell (body : list op) (extra : nat) : list op := Init :: body ++ repeat Done (S extra).

(** A history: output between cells, and cells. *)
Inductive part := Between (body : list op) | Cell (body : list op) (extra : nat).
Definition body_of (p : part) : list op := match p with Between b | Cell b _ => b end.
Definition ops_of (p : part) : list op := match p with Between b => b | Cell b k => cell b k end.
Definition records_of (p : part) : list capture := match p with Between _ => [] | Cell b _ => [record_of b] end.
