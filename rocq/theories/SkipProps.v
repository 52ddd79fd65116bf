(** C105: what is done without tracing is made up for. *)
From Coq Require Import List Arith Bool.
From Verif Require Import Base Loops SkipModel SkipSpec SkipProofs.
Import ListNotations.

(** x (1) is object 10, y (2) is the list 20 with one item. *)
Definition s0 : st := mkSt
  (fun x => match x with 1 => Some 10 | 2 => Some 20 | _ => None end)
  (fun o => if o =? 20 then Some [7] else None)
  [(1, mkSym 10 None 3); (2, mkSym 20 (Some 1) 4)] [] [] false.

Definition c0 : list stmt :=
  [ mkStmt [2] [1; 3] [Assign true 3 30; EndStmt; Assign true 1 11; EndStmt; Assign false 3 31; Assign false 1 12];
    mkStmt [2] [] [Assign false 4 40; Assign true 4 41];
    mkStmt [2; 3] [4] [Del true 3; Assign false 4 42; Fill 20 [7; 8]] ].

(** If what is assigned without tracing is visible in the text of the statement,
    after the cell all symbols of variables have their objects. *)
Theorem C105_value_partial : forall now l rest s s',
  at_rest s -> Forall textual l -> Forall seen rest ->
  run_cell now l rest s = Ok s' -> in_sync s'.
Proof. intros now l rest s s' A T R E. apply (cell_inv now l rest s s' A T R E). Qed.
Print Assumptions C105_value_partial.

(** And each variable that is another object than before has a symbol, and it
    counts as updated by this cell. *)
Theorem C105_updated_partial : forall now l rest s s' x,
  at_rest s -> Forall textual l -> Forall seen rest ->
  run_cell now l rest s = Ok s' -> env s' x <> None -> env s' x <> env s x ->
  exists y, dget (syms s') x = Some y /\ env s' x = Some (obj y) /\ ts y = now.
Proof.
  intros now l rest s s' x A T R E V C. destruct (cell_inv now l rest s s' A T R E) as (I & Y).
  destruct (i_new _ _ _ _ I x V C) as [(y & G & TS)|[]]. exists y. repeat split; auto.
Qed.
Print Assumptions C105_updated_partial.

Definition c1 : list stmt := [nth 0 c0 (mkStmt [] [] []); nth 2 c0 (mkStmt [] [] [])].

Example C105_value_case :
  at_rest s0 /\ Forall textual c1 /\
  match run_cell 5 c1 [] s0 with Ok s' => syms s' = [(1, mkSym 12 None 5); (2, mkSym 20 (Some 2) 5); (4, mkSym 42 None 5)] /\
    env s' 1 = Some 12 /\ env s' 4 = Some 42 /\ env s' 3 = None | Err _ => False end.
Proof.
  split; [|split].
  - split; [|repeat split; auto].
    + intros x y. cbn. destruct x as [|[|[|x]]]; try discriminate; intros E; injection E as <-; reflexivity.
    + unfold dwf. cbn. repeat constructor; cbn; intuition discriminate.
  - unfold textual, c1, c0. cbn [nth happens dead].
    repeat (apply Forall_cons || apply Forall_nil); cbn; auto.
  - vm_compute. repeat split.
Qed.

(** A variable to which nothing happens keeps its symbol as it is. *)
Theorem C105_quiet_partial : forall now l rest s s' x y,
  at_rest s -> dget (syms s) x = Some y -> clen y = len s (obj y) ->
  Forall (spares x (obj y)) (events l rest) ->
  run_cell now l rest s = Ok s' -> dget (syms s') x = Some y.
Proof.
  intros now l rest s s' x y (Y & W & _) G L P E.
  apply (still_cell now x y l rest s s' P E). repeat split; auto.
Qed.
Print Assumptions C105_quiet_partial.

Example C105_quiet_case :
  Forall (spares 2 20) (events [nth 0 c0 (mkStmt [] [] [])] []) /\
  match run_cell 5 [nth 0 c0 (mkStmt [] [] [])] [] s0 with Ok s' => dget (syms s') 2 = Some (mkSym 20 (Some 1) 4) | Err _ => False end.
Proof. split; [repeat constructor; discriminate|]. vm_compute. repeat split. Qed.

(** And what the cell updated has its length cached, so that it is quiet for the
    next cell. *)
Theorem C105_cached_partial : forall now l rest s s' x y,
  at_rest s -> Forall textual l -> Forall seen rest ->
  run_cell now l rest s = Ok s' -> dget (syms s') x = Some y -> ts y = now ->
  clen y = len s' (obj y).
Proof. exact cell_clen. Qed.
Print Assumptions C105_cached_partial.

Example C105_cached_case :
  match run_cell 5 [mkStmt [] [6] [Assign true 6 20; Fill 20 [7; 8; 9]]] [] s0 with
  | Ok s' => dget (syms s') 6 = Some (mkSym 20 (Some 3) 5) /\ len s' 20 = Some 3
  | Err _ => False
  end.
Proof. vm_compute. auto. Qed.

(** A variable in the text of a statement with untraced parts counts as updated
    if it is a list with another length than before. *)
Theorem C105_length_partial : forall now s t s' x y,
  let s1 := fold_left (step now) (happens t) s in
  run_stmt now s t = Ok s' -> off s1 = true -> In x (live t ++ dead t) -> ~ In x (upd s1) ->
  dget (syms s1) x = Some y -> env s1 x = Some (obj y) -> clen y <> len s1 (obj y) ->
  exists y', dget (syms s') x = Some y' /\ obj y' = obj y /\ ts y' = now.
Proof.
  intros now s t s' x y s1 E F I U G V L. unfold run_stmt in E. fold s1 in E. cbv zeta in E.
  rewrite F in E. apply rmap_Ok in E. destruct E as (s2 & E & <-).
  unfold catch_up in E. apply rbind_Ok in E. destruct E as (s3 & E3 & E). injection E as <-.
  destruct (grown_fold now _ s1 s3 x E3 U y G V) as (y' & A & _ & _ & D & O & _).
  assert (T : ts y' = now) by (apply D; auto).
  exists y'. split; [|auto]. cbn [with_off syms]. clear E3 D I. revert s3 A.
  induction (dead t) as [|z d IH]; intros s3 A; [exact A|]. cbn [fold_left]. apply IH.
  destruct (dget (syms s3) z) eqn:GZ; auto. destruct (env s3 z) eqn:VZ; auto.
  cbn [upsert with_syms syms]. rewrite dget_dset. destruct (Nat.eqb_spec x z); congruence.
Qed.
Print Assumptions C105_length_partial.

Example C105_length_case :
  let t := mkStmt [2] [] [Assign false 4 40; Fill 20 [7; 8; 9]] in
  match run_stmt 5 s0 t with Ok s' => dget (syms s') 2 = Some (mkSym 20 (Some 3) 5) | Err _ => False end.
Proof. vm_compute. repeat split. Qed.

(** Nothing raises if no list is empty. *)
Theorem C105_safe_partial : forall now l rest s,
  no_empty_lists s (events l rest) -> exists s', run_cell now l rest s = Ok s'.
Proof. intros now l rest s (F & P). now apply cell_full. Qed.
Print Assumptions C105_safe_partial.

Example C105_safe_case : no_empty_lists s0 (events c0 []).
Proof.
  split; [intros c; cbn; destruct (c =? 20); discriminate|].
  cbn. repeat constructor; discriminate.
Qed.

(** Symbols of elements: those that take another object take the last of their
    list, and had the variable's old one. *)
Theorem C105_elements_partial : forall s old new es es',
  move s old new es = Ok es' ->
  Forall2 (fun e e' => e' = e \/
    (snd e = old /\ fst e' = fst e /\ snd e' = new /\
     exists l, items s (fst e) = Some (l ++ [new]))) es es'.
Proof.
  intros s old new es. induction es as [|[c o] es IH]; intros es' E; cbn [move] in E.
  - injection E as <-. constructor.
  - apply rbind_Ok in E. destruct E as (e & E1 & E). apply rmap_Ok in E. destruct E as (r & E & <-).
    constructor; [|now apply IH]. cbn [fst snd].
    destruct (Nat.eqb_spec o old) as [ -> |N]; [|injection E1 as <-; auto].
    destruct (items s c) as [[|i l]|] eqn:I; [discriminate| |injection E1 as <-; auto].
    destruct (Nat.eqb_spec (last (i :: l) 0) new) as [LN|LN]; injection E1 as <-; [|auto].
    right. repeat split; auto. exists (removelast (i :: l)). f_equal.
    rewrite <- LN. apply app_removelast_last. discriminate.
Qed.
Print Assumptions C105_elements_partial.

Example C105_elements_case :
  move (with_items s0 (fun _ => Some [10; 12])) 10 12 [(20, 10); (20, 9)] = Ok [(20, 12); (20, 9)].
Proof. reflexivity. Qed.

(** But a call that is not traced, in a statement that does not name the
    variable, leaves the symbol with the old object: [for i in range(2): if i:
    f()], where [f] assigns to the global [x]. *)
Theorem C105_call_refuted :
  at_rest s0 /\
  match run_cell 5 [mkStmt [6] [3] [Assign true 3 0; Assign false 3 1; Assign false 1 12]] [] s0 with Ok s' => env s' 1 = Some 12 /\ dget (syms s') 1 = Some (mkSym 10 None 3) | Err _ => False end.
Proof. split; [exact (proj1 C105_value_case)|]. vm_compute. repeat split. Qed.
Print Assumptions C105_call_refuted.

(** And a variable that is deleted without tracing keeps its symbol. *)
Theorem C105_deleted_refuted :
  match run_cell 5 [mkStmt [1] [1; 3] [Assign true 3 0; Assign false 3 1; Del false 1]] [] s0 with Ok s' => env s' 1 = None /\ dget (syms s') 1 = Some (mkSym 10 None 3) | Err _ => False end.
Proof. vm_compute. repeat split. Qed.
Print Assumptions C105_deleted_refuted.

(** And if the statement raises, what it assigned without tracing is not made up
    for. *)
Theorem C105_raised_refuted :
  match run_cell 5 [] [Assign true 3 0; EndStmt; Assign false 3 1; Assign false 1 12] s0 with Ok s' => env s' 1 = Some 12 /\ dget (syms s') 1 = Some (mkSym 10 None 3) | Err _ => False end.
Proof. vm_compute. repeat split. Qed.
Print Assumptions C105_raised_refuted.

(** And a list with as many items as before does not count as updated. *)
Theorem C105_items_refuted :
  match run_cell 5 [mkStmt [2] [3] [Assign true 3 0; Assign false 3 1; Fill 20 [9]]] [] s0 with Ok s' => items s' 20 = Some [9] /\ dget (syms s') 2 = Some (mkSym 20 (Some 1) 4) | Err _ => False end.
Proof. vm_compute. repeat split. Qed.
Print Assumptions C105_items_refuted.

(** And an empty list that has had the variable's object raises. *)
Theorem C105_empty_refuted :
  run_cell 5 [mkStmt [2] [1] [Track 20 10; Assign true 1 10; EndStmt; Fill 20 []; Assign false 1 12]] [] s0 = Err IndexError.
Proof. reflexivity. Qed.
Print Assumptions C105_empty_refuted.
