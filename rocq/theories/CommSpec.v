(** What the answers to requests, the cells with new contents and the cells with new ids should
    be. *)
Require Import List ZArith Bool Arith Permutation Sorted.
Import ListNotations.
Require Import Verif.Base Verif.CommModel.

(** ** Answers *)

Definition or_else {A} (o : option A) (a : A) : A := match o with Some b => b | None => a end.

(** [r] is a proper answer to a request of type [t] whose handler did [o]. *)
Definition answers (t : nat) (o : outcome) (r : resp) : Prop :=
  match o with
  | OResp d =>
      p_type r = Some (or_else (p_type d) t) /\ p_success r = Some (or_else (p_success d) true) /\
      p_error r = p_error d /\ p_body r = p_body d
  | ONone => p_type r = Some t /\ p_success r = Some true
  | ORaise msg => p_type r = Some t /\ p_success r = Some false /\ p_error r = Some msg
  | _ => False
  end.

(** The handler returned something that can be sent, or raised. *)
Definition sendable (o : outcome) : Prop :=
  match o with OResp d => p_json d = true | ONone | ORaise _ => True | _ => False end.

(** The operation may put another handler in place of that for [t]. *)
Definition overwrites (o : op) (t : nat) : Prop :=
  match o with
  | Register t' _ ow => t' = t /\ ow = true
  | Message _ q | Handle q => q_msg_type q = Some t /\ q_overwrite q = true
  | _ => False
  end.

(** ** Contents *)

(** Text, check result and the rest of what a check leaves behind are as before. *)
Definition kept (c c' : ccell) : Prop :=
  c_content c' = c_content c /\ c_ctr c' = c_ctr c /\ c_last_content c' = c_last_content c /\
  c_last_ctr c' = c_last_ctr c /\ c_result c' = c_result c /\ c_removed c' = c_removed c.
(** The cell has the new text, and was checked with the live symbols [live]. A symbol that was
    live before and is not any more counts as removed. *)
Definition updated (c : ccell) (new : nat) (live : list nat) (c' : ccell) : Prop :=
  c_content c' = new /\ c_ctr c' = c_ctr c /\ c_last_content c' = Some new /\
  c_last_ctr c' = Some (c_ctr c) /\ c_result c' = Some live /\
  forall x, In x (c_removed c') <->
    (In x (c_removed c) \/ (exists l, c_result c = Some l /\ In x l)) /\ ~ In x live.

(** The cached tree belongs to text that can be parsed. *)
Definition parsed (parse : nat -> option exn) (c : ccell) : Prop :=
  forall x, c_ast c = Some x -> parse x = None.

(** What becomes of the cell [c] with the id [i]: it stays as it was, because its new text has a syntax error;
    or it has the new text and the result of a check of it. *)
Definition renewed W (parse : nat -> option exn) (check : W -> nat -> ccell -> W * (exn + list nat)) (i new : nat) (c c' : ccell) : Prop :=
  (kept c c' /\ (parse new = Some Syntax \/ exists w c1 w', c_content c1 = new /\ check w i c1 = (w', inl Syntax))) \/
  (parse new = None /\ exists w c1 w' live, c_content c1 = new /\ check w i c1 = (w', inr live) /\
     updated c new live c').

(** ** Ids *)

(** [l]: the cells of the notebook [nb] from top to bottom. *)
Definition top_down (l nb : list ncell) : Prop :=
  Permutation l nb /\ StronglySorted (fun a b => n_index a < n_index b) l.
(** [l]: the placeholders, the oldest execution first. *)
Definition oldest_first (l : list (nat * pcell)) (cur : dict pcell) : Prop :=
  Permutation l (filter (fun p => pc_placeholder (snd p)) cur) /\
  StronglySorted (fun a b => (pc_ctr (snd a) < pc_ctr (snd b))%Z) l.

(** The cells of the notebook with the text [x] whose ids are not known. *)
Definition news (cur : dict pcell) (l : list ncell) (x : nat) : list ncell :=
  filter (fun n => (n_content n =? x) && negb (dhas cur (n_id n)))%bool l.
(** The placeholders with the text [x]. *)
Definition olds (l : list (nat * pcell)) (x : nat) : list (nat * pcell) :=
  filter (fun p => pc_content (snd p) =? x) l.

(** No id of the notebook is a placeholder: the former are strings, the latter numbers. *)
Definition apart (cur : dict pcell) (nb : list ncell) : Prop :=
  forall n c, In n nb -> dget cur (n_id n) = Some c -> pc_placeholder c = false.
