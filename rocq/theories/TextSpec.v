(** What C84-C86 say. *)
Require Import List Bool Arith.
Import ListNotations.
Require Import Verif.Base Verif.TextModel.

(** What the cell with an id contains, and what a check of it takes its statements to be. *)
Definition contents (s : st) (i : cid) : option text :=
  match dget (cur s) (key i) with
  | Some r => option_map c_text (nth_error (heap s) r)
  | None => None
  end.
Definition analysed (parse : parser) (s : st) (i : cid) : option ast :=
  match dget (cur s) (key i) with
  | Some r => fst (to_ast parse s r)
  | None => None
  end.

(** The contents of the cell that was run as run [k], as they are now. *)
Definition contents_of_run (s : st) (k : nat) : option text :=
  match dget (by_ctr s) k with
  | Some r => option_map c_text (nth_error (heap s) r)
  | None => None
  end.

(** The id under which a run is going to be known. *)
Definition id_of (s : st) (q : req) : cid :=
  match q_id q with Some n => Given n | None => Auto (S (counter s)) end.

(** What a run would execute. *)
Definition executed (parse : parser) (s : st) (q : req) : code := p_code (snd (run parse s q)).

(** The cells that something else than their text was executed for when they were last run: those whose
    run was held back, and those for which a run was reused although they contained another text before
    (or were such cells before). *)
Definition same_body (o : option text) (b : nat) : bool :=
  match o with Some t => t_body t =? b | None => false end.
Definition mark (parse : parser) (s : st) (bad : list cid) (e : ev) : list cid :=
  match e with
  | Run q =>
      let i := id_of s q in
      let others := filter (fun j => negb (cid_eqb i j)) bad in
      match executed parse s q with
      | Body => others
      | HeldBack _ => i :: bad
      | Reused _ _ =>
          if same_body (contents s i) (t_body (q_text q)) then bad else i :: bad
      end
  | _ => bad
  end.
Fixpoint spoiled (parse : parser) (s : st) (bad : list cid) (evs : list ev) : list cid :=
  match evs with
  | [] => bad
  | e :: evs => spoiled parse (step parse s e) (mark parse s bad e) evs
  end.

(** What the runs of a history did, in order. *)
Fixpoint logs (parse : parser) (s : st) (evs : list ev) : list report :=
  match evs with
  | [] => []
  | e :: evs =>
      match e with
      | Run q => snd (run parse s q) :: logs parse (step parse s e) evs
      | _ => logs parse (step parse s e) evs
      end
  end.

(** The result of the last run of a cell in which its text was executed. *)
Fixpoint last_result (log : list report) (i : cid) (v : option nat) : option nat :=
  match log with
  | [] => v
  | p :: log =>
      last_result log i
        (if cid_eqb (p_id p) i then match p_code p with Body => p_shown p | _ => v end else v)
  end.

Definition held (p : report) : Prop := exists a, p_code p = HeldBack a.
Definition reused (p : report) : Prop := exists k a, p_code p = Reused k a.
Definition is_run (e : ev) : bool := match e with Run _ => true | _ => false end.
