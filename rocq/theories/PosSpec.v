(** Specification vocabulary for C16. *)
Require Import List ZArith.
Import ListNotations.
Require Import Verif.Base Verif.PosModel.

(** A report by the frontend: finite positions, one per cell, all different. *)
Definition good_report (m : dict pos) : Prop :=
  NoDup (map fst m) /\ NoDup (map snd m) /\ forall i p, In (i, p) m -> p <> Inf.

(** Strictly lower in the notebook. *)
Definition above (p q : pos) : Prop :=
  match p, q with
  | Fin x, Fin y => (x < y)%Z
  | Fin _, Inf => True
  | Inf, _ => False
  end.

(** [l] lists the cells satisfying [P] in notebook order, each once. *)
Inductive in_notebook_order (where_ : nat -> pos) : list nat -> Prop :=
| INO_nil : in_notebook_order where_ []
| INO_cons i l : (forall j, In j l -> above (where_ i) (where_ j)) ->
    in_notebook_order where_ l -> in_notebook_order where_ (i :: l).

(** Programs that do not report an order. *)
Inductive quiet : pprog -> Prop :=
| QSkip : quiet PSkip
| QRaise : quiet PRaise
| QSee : quiet PSee
| QFlow b : quiet (PFlow b)
| QSeq p q : quiet p -> quiet q -> quiet (PSeq p q)
| QTry p q : quiet p -> quiet q -> quiet (PTry p q)
| QOverride p : quiet p -> quiet (POverride p).

(** Those that do not change the flow direction either (which only a magic or a new
    session does). *)
Inductive steady : pprog -> Prop :=
| SSkip : steady PSkip
| SRaise : steady PRaise
| SSee : steady PSee
| SSeq p q : steady p -> steady q -> steady (PSeq p q)
| STry p q : steady p -> steady q -> steady (PTry p q)
| SOverride p : steady p -> steady (POverride p).

(** An in-order session in a notebook (the only kind that keeps a reverse index). *)
Definition tracked (s : pstate) : Prop := in_order s = true /\ ipython s = false.

(** The position recorded for a cell. *)
Definition where_of (s : pstate) (i : nat) : pos :=
  match dget (at_ s) i with Some p => p | None => Inf end.
