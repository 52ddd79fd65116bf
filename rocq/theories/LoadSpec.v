(** What the user expects of loading and unloading, and of the numbers and ids of cells. *)
From Coq Require Import List Arith Bool.
From Verif Require Import Base LoadModel.
Import ListNotations.

(** Whether the last command was to load the extension. *)
Definition asked (evs : list ev) : bool :=
  fold_left (fun b e => match e with Load => true | Unload => false | _ => b end) evs false.

(** What the class has to be then. *)
Definition wanted (evs : list ev) : cls := if asked evs then Ours false else Plain.

(** Every run that begins ends, none ends that has not begun. [d]: how many are open. *)
Fixpoint complete (d : nat) (evs : list ev) : Prop :=
  match evs with
  | [] => d = 0
  | Begin _ :: r => complete (S d) r
  | End _ _ :: r => match d with 0 => False | S d => complete d r end
  | _ :: r => complete d r
  end.

(** A run that the user expects to be tracked: its text, the number that IPython shows for it, and the id
    under which the frontend runs it, if it ever gives ids. *)
Record entry := mkEntry { e_text : nat; e_prompt : nat; e_id : option nat }.

(** The runs to be tracked: those that are not silent and begin when the extension is loaded. [on]: it is;
    [n]: the number of the next prompt; [counts]: the open run will count; [id]: the last id. *)
Fixpoint expected (on : bool) (n : nat) (counts : bool) (id : option nat) (evs : list ev) : list entry :=
  match evs with
  | [] => []
  | Load :: r => expected true n counts id r
  | Unload :: r => expected false n counts id r
  | Blank :: r => expected on n counts id r
  | Begin q :: r =>
      if on && negb (b_silent q) then
        let id := match b_id q with Some i => Some i | None => id end in
        mkEntry (b_text q) n id :: expected on n true id r
      else expected on n (negb (b_silent q)) id r
  | End _ _ :: r => expected on (if counts then S n else n) false id r
  end.

(** The same as seen in ipyflow. *)
Definition seen (c : cell) : entry :=
  mkEntry (c_text c) (c_num c) match c_id c with Given i => Some i | Auto _ => None end.

(** No run inside of a run; every run that is not silent keeps its history; no run raises at its end; the
    extension is only unloaded in a run that began when it was loaded. [run]: there is an open run; if so,
    whether it began when the extension was loaded. *)
Fixpoint orderly (on : bool) (run : option bool) (evs : list ev) : Prop :=
  match evs with
  | [] => True
  | Load :: r => orderly true run r
  | Unload :: r => run = Some true /\ orderly false run r
  | Blank :: r => run = None /\ orderly on run r
  | Begin q :: r => run = None /\ b_silent q || b_hist q = true /\ orderly on (Some on) r
  | End fs _ :: r => run <> None /\ fs = false /\ orderly on None r
  end.

(** No ids are given. *)
Definition unnamed (evs : list ev) : Prop :=
  forall q, In (Begin q) evs -> b_id q = None.

(** The extension is not loaded in a silent run. *)
Fixpoint loads_shown (silent : bool) (evs : list ev) : Prop :=
  match evs with
  | [] => True
  | Load :: r => silent = false /\ loads_shown silent r
  | Begin q :: r => loads_shown (b_silent q) r
  | End _ _ :: r => loads_shown false r
  | _ :: r => loads_shown silent r
  end.
