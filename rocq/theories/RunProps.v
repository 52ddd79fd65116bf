(** C80-C83: what a run sets up is taken down; transformers added by cells; tracers
    and import hooks between runs; the result of a run. *)

From Coq Require Import List Bool Arith Lia.
From Verif Require Import Base RunModel RunSpec RunProofs.
Import ListNotations.

(** ** A session *)

(** Tracers 5 (output), 6 (dataflow, derived from the manager 8) and 7 (interrupts);
    4 is derived from 3. *)
Definition O0 : outside :=
  mkOutside
    (fun c => if c =? 0 then [0] else if c =? 1 then [1] else if c =? 2 then [2]
              else if c =? 4 then [4; 3; 1] else if c =? 6 then [6; 8; 1] else [c; 1])
    (fun c => c) (fun c => (c =? 6) || (c =? 8)) (fun c => c =? 6) 5 6 8 (fun t => 100 + t) 99.

Definition own0 (c a : nat) : option fn :=
  if c =? PYC then (if (a =? EXEC) || (a =? EVAL) then Some (Plain (10 + a)) else None)
  else if c =? BASE then (if a <=? EVAL then Some (Plain (20 + a)) else None)
  else if c =? SHELL then (if (a =? LINE) || (a =? CELL) then Some (Plain (30 + a))
                           else if a <=? CHECKER then Some (Plain (40 + a)) else None)
  else if (c =? 6) && (a <=? CHECKER) then Some (Plain (50 + a)) else None.

(** [PASSES] and [CHECKER] are asked of tracers only; [PYC] is given them so that
    the world is complete. *)
Definition P0 : patched :=
  mkPatched (fun c a => if (c =? PYC) && (a <=? CHECKER) then Some (Plain (60 + a)) else own0 c a)
    [(0, [7]); (1, [8])] 0 1.

Definition h0 : hooks := mkHooks [Other 1; Other 2] [] [] [] false [5; 6; 7] 0.
Definition w0 : world := mkWorld P0 h0 None None.

Definition cell0 : M nat := fun w => (w, Done 42).

Lemma O0_single : single_inheritance O0.
Proof.
  split; [|split; [|split; [|auto]]].
  - intros x. cbn [mro O0]. destruct (Nat.eqb_spec x 0) as [->|N0]; [eexists; reflexivity|].
    destruct (Nat.eqb_spec x 1) as [->|N1]; [eexists; reflexivity|].
    destruct (Nat.eqb_spec x 2) as [->|N2]; [eexists; reflexivity|].
    destruct (Nat.eqb_spec x 4) as [->|N4]; [eexists; reflexivity|].
    destruct (Nat.eqb_spec x 6) as [->|N6]; eexists; reflexivity.
  - intros x. cbn [mro O0].
    destruct (Nat.eqb_spec x 0) as [->|N0]; [repeat constructor; cbn; lia|].
    destruct (Nat.eqb_spec x 1) as [->|N1]; [repeat constructor; cbn; lia|].
    destruct (Nat.eqb_spec x 2) as [->|N2]; [repeat constructor; cbn; lia|].
    destruct (Nat.eqb_spec x 4) as [->|N4]; [repeat constructor; cbn; lia|].
    destruct (Nat.eqb_spec x 6) as [->|N6]; repeat constructor; cbn; lia.
  - intros x y. cbn [mro O0].
    destruct (Nat.eqb_spec x 0) as [->|N0]; [intros [<-|[]]; exists []; reflexivity|].
    destruct (Nat.eqb_spec x 1) as [->|N1]; [intros [<-|[]]; exists []; reflexivity|].
    destruct (Nat.eqb_spec x 2) as [->|N2]; [intros [<-|[]]; exists []; reflexivity|].
    destruct (Nat.eqb_spec x 4) as [->|N4].
    { intros [<-|[<-|[<-|[]]]]; [exists []|exists [4]|exists [4; 3]]; reflexivity. }
    destruct (Nat.eqb_spec x 6) as [->|N6].
    { intros [<-|[<-|[<-|[]]]]; [exists []|exists [6]|exists [6; 8]]; reflexivity. }
    intros [<-|[<-|[]]].
    + exists []. cbn. rewrite (proj2 (Nat.eqb_neq x 0) N0), (proj2 (Nat.eqb_neq x 1) N1),
        (proj2 (Nat.eqb_neq x 2) N2), (proj2 (Nat.eqb_neq x 4) N4), (proj2 (Nat.eqb_neq x 6) N6). reflexivity.
    + exists [x]. reflexivity.
Qed.

Lemma P0_complete : complete O0 P0.
Proof.
  split.
  - intros t. unfold lookup. cbn [mro O0].
    destruct (Nat.eqb_spec t 0) as [->|N0]; [split; discriminate|].
    destruct (Nat.eqb_spec t 1) as [->|N1]; [split; discriminate|].
    destruct (Nat.eqb_spec t 2) as [->|N2]; [split; discriminate|].
    destruct (Nat.eqb_spec t 4) as [->|N4]; [split; discriminate|].
    destruct (Nat.eqb_spec t 6) as [->|N6]; [split; discriminate|].
    split; apply first_own_some; exists 1; (split; [right; left; reflexivity|discriminate]).
  - repeat split; discriminate.
Qed.

Lemma cell0_polite : polite cell0.
Proof.
  split.
  - intros w w' r E. inversion E; subst. repeat split; auto.
  - intros w w' r E. inversion E; subst. repeat split; eauto.
Qed.

(** ** C80: what is patched *)

(** C80: however a run ends, whatever raises in it, all attributes and both lists of
    transformers are as before, provided the cell leaves them alone and no tracer
    comes before one derived from it. *)
Theorem C80_partial : forall F O H cell w w' r,
  single_inheritance O -> complete O (pt w) -> derived_first O (tracers_of O H w) ->
  leaves_alone cell ->
  ipyflow_run_cell F O H cell w = (w', r) ->
  looks_same O (pt w) (pt w').
Proof.
  intros F O H cell w w' r SI C D L E. destruct (run_restoring F O H cell w w' r SI D L E) as [S R].
  eapply restoring_looks; eauto.
Qed.
Print Assumptions C80_partial.

(** Met by the session above, also when the hook after the cell raises; while the
    cell is run things are not as before. *)
Example C80_ex : single_inheritance O0 /\ complete O0 P0 /\
  derived_first O0 (tracers_of O0 (ordinary true false) w0) /\ leaves_alone cell0 /\
  (exists w', ipyflow_run_cell (fun p => match p with PFinish => Some (Fault 1) | _ => None end)
     O0 (ordinary true false) cell0 w0 = (w', Done 42) /\ kept w' = Some (Fault 1)) /\
  (exists d, seen O0 true w0 d /\ lookup O0 (pt d) SHELL LINE = Some (Paused (Plain 34)) /\
     ast_transformers (pt d) = Some [7; 99] /\ input_transformers (pt d) = Some [8; 105; 106; 107]).
Proof.
  split; [apply O0_single|]. split; [apply P0_complete|]. split.
  - cbn. repeat constructor; cbn; lia.
  - split; [apply (proj1 cell0_polite)|]. split.
    + eexists. split; [vm_compute; reflexivity|reflexivity].
    + eexists. split; [eexists; vm_compute; reflexivity|]. split; [|split]; reflexivity.
Qed.

(** A tracer before one derived from it: the filter that the latter inherits is the
    patched one when it is read, and stays.  Once the former is deregistered, the
    latter gets no more events. *)
Theorem C80_inherit_refuted : exists O cell w w' r,
  single_inheritance O /\ complete O (pt w) /\ leaves_alone cell /\
  ipyflow_run_cell no_faults O (ordinary true false) cell w = (w', Done r) /\
  exists t u f f', In t (registered (hk w')) /\
    lookup O (pt w) t PASSES = Some f /\ lookup O (pt w') t PASSES = Some f' /\
    passes (registered (hk w)) (fun _ => true) f = true /\
    passes (registered (deregister O u (hk w'))) (fun _ => true) f' = false /\
    In t (registered (deregister O u (hk w'))).
Proof.
  exists O0, cell0, (mkWorld P0 (mkHooks [] [] [] [] false [3; 4] 0) None None).
  do 2 eexists. split; [apply O0_single|]. split; [apply P0_complete|].
  split; [apply (proj1 cell0_polite)|]. split; [vm_compute; reflexivity|].
  exists 4, 3. do 2 eexists. split; [vm_compute; auto|]. split; [vm_compute; reflexivity|].
  split; [vm_compute; reflexivity|]. split; [reflexivity|]. split; [reflexivity|]. vm_compute. auto.
Qed.
Print Assumptions C80_inherit_refuted.

(** ** C81: transformers that a cell adds *)

(** The cell appends to the list of transformers in effect, as IPython's
    documentation says to. *)
Definition adds_transformer (n : nat) : M nat := fun w =>
  let P := pt w in
  match dget (lists P) (ast_at P) with
  | Some l => (with_pt w (mkPatched (own P) (dset (lists P) (ast_at P) (l ++ [n])) (ast_at P) (input_at P)), Done 0)
  | None => (w, Raised NoAttr)
  end.

(** C81, with dataflow off: everything patched is as the cell left it. *)
Theorem C81_partial : forall F O H cell w wc x,
  trace H = false -> F PBefore = None -> F PCurrent = None ->
  cell (begun w) = (wc, Done x) ->
  exists w', ipyflow_run_cell F O H cell w = (w', Done x) /\ pt w' = pt wc.
Proof.
  intros F O H cell w wc x HT F1 F2 E. unfold ipyflow_run_cell. unfold bind at 1. cbn [set_ret].
  fold (begun w). unfold bind at 1, at_point at 1. rewrite F1. cbn [ret]. rewrite HT.
  unfold bind at 1. unfold inner_run, bind, at_point. rewrite F2. cbn [ret]. rewrite E.
  cbn. eexists. split; [reflexivity|reflexivity].
Qed.
Print Assumptions C81_partial.

Example C81_ex : exists w', ipyflow_run_cell no_faults O0 (mkHow false false false true false)
  (adds_transformer 3) w0 = (w', Done 0) /\ ast_transformers (pt w') = Some [7; 3].
Proof. eexists. split; [vm_compute; reflexivity|reflexivity]. Qed.

(** With dataflow on, the addition goes to a list made for the run and is lost. *)
Theorem C81_refuted : exists O n w w',
  complete O (pt w) /\
  ipyflow_run_cell no_faults O (ordinary true false) (adds_transformer n) w = (w', Done 0) /\
  (forall l, ast_transformers (pt w') = Some l -> ~ In n l).
Proof.
  exists O0, 3, w0. eexists. split; [apply P0_complete|]. split; [vm_compute; reflexivity|].
  intros l E. vm_compute in E. inversion E. cbn. lia.
Qed.
Print Assumptions C81_refuted.

(** ** C82: tracers and import hooks *)

(** C82: after any runs of cells that leave pyccolo's entries in front and tracers
    to [register_tracer] and [deregister_tracer], no tracer is on and the path has
    no entry of pyccolo.  When a cell is run next, exactly the tracers asked for
    are on while it runs, there is one entry in front of the path (none without
    tracers), and afterwards the other entries are as the cell left them. *)
Theorem C82_partial : forall O cs w0,
  start O w0 -> Forall (fun c => polite (snd c)) cs ->
  let w := runs O cs w0 in
  quiet w /\
  forall syn magic cell, polite cell ->
    let ts := tracers_of O (ordinary syn magic) w in
    exists d wc x, seen O (syn && negb magic) (begun w) d /\ cell d = (wc, Done x) /\
      (forall t, In t (enabled (hk d)) <-> In t ts) /\
      (exists fs, meta (hk d) = fs ++ meta (hk w) /\ (forall e, In e fs -> is_finder e = true) /\
         length fs = if is_nil ts then 0 else 1) /\
      meta (hk (run1 O (syn, magic, cell) w)) = filter (fun e => negb (is_finder e)) (meta (hk wc)).
Proof.
  intros O cs w0 (C & (Q1 & Q2) & S1 & S2) PO w.
  assert (X : complete O (pt w) /\ resting O (hk w)).
  { unfold w, runs. clear w. assert (R0 : resting O (hk w0)) by (repeat split; auto).
    clear Q1 Q2 S1 S2. revert w0 C R0.
    induction PO as [|[[syn magic] cell] cs P PO IH]; intros w0 C R0; [auto|]. cbn [fold_left].
    destruct (run1_resting O syn magic cell w0 C R0 P) as (C1 & R1 & _). apply IH; assumption. }
  destruct X as [CW RW]. split; [destruct RW as (R1 & R2 & _); split; assumption|].
  intros syn magic cell P. destruct (run1_resting O syn magic cell w CW RW P) as (_ & _ & X). exact X.
Qed.
Print Assumptions C82_partial.

(** A cell that registers a tracer, and one that puts an entry at the end. *)
Definition registers (t : nat) : M nat := fun w =>
  (mkWorld (pt w) (register O0 t (hk w)) (ret_var w) (kept w), Done 0).
Definition appends (n : nat) : M nat := fun w =>
  let h := hk w in
  (mkWorld (pt w) (mkHooks (meta h ++ [Other n]) (saved h) (enabled h) (callbacks h) (pending h) (registered h) (made h))
     (ret_var w) (kept w), Done 1).

Lemma registers_polite t : polite (registers t).
Proof.
  split.
  - intros w w' r E. inversion E; subst. repeat split; auto.
  - intros w w' r E. inversion E; subst. repeat split; eauto.
Qed.

Lemma appends_polite n : polite (appends n).
Proof.
  split.
  - intros w w' r E. inversion E; subst. repeat split; auto.
  - intros w w' r E. inversion E; subst. repeat split; eauto. cbn [hk meta].
    intros fs m -> F M. exists (m ++ [Other n]). rewrite app_assoc. split; [reflexivity|].
    intros e He. apply in_app_or in He. destruct He as [He|[<-|[]]]; [apply M, He|reflexivity].
Qed.

Example C82_ex : start O0 w0 /\
  Forall (fun c => polite (snd c)) [(true, false, cell0); (true, false, registers 3); (true, true, appends 9)] /\
  let w := runs O0 [(true, false, cell0); (true, false, registers 3); (true, true, appends 9)] w0 in
  registered (hk w) = [3; 5; 6; 7] /\ meta (hk w) = [Other 1; Other 2; Other 9] /\ saved (hk w) = [Finder 1].
Proof.
  split.
  - split; [apply P0_complete|]. split; [|split; reflexivity]. split; [reflexivity|].
    intros e [<-|[<-|[]]]; reflexivity.
  - split; [|split; [|split]; reflexivity].
    apply Forall_cons; [apply cell0_polite|]. apply Forall_cons; [apply registers_polite|].
    apply Forall_cons; [apply appends_polite|apply Forall_nil].
Qed.

(** While a cell is run every tracer has its filters guarded: they say what they
    said before as long as the tracer is registered, and reject everything from
    the moment it is not. *)
Theorem C82_guard : forall O syntax w d t,
  single_inheritance O -> derived_first O (with_manager O (wanted O true (hk w))) ->
  seen O syntax w d -> In t (with_manager O (wanted O true (hk w))) ->
  forall a, a = CHECKER \/ (a = PASSES /\ (is_manager O t = false \/ t = dataflow O)) ->
  exists f g, lookup O (pt d) t a = Some f /\ lookup O (pt w) t a = Some g /\
    forall reg base, passes reg base f = if memb t reg then passes reg base g else false.
Proof.
  intros O syntax w d t (HD & _) D SE Ht a Ha.
  destruct (seen_guards O syntax w d HD D SE t Ht) as [(g & G1 & G2) G3].
  assert (L : forall b f, own (pt d) t b = Some f -> lookup O (pt d) t b = Some f).
  { intros b f E. unfold lookup. destruct (HD t) as [r ->]. cbn [first_own]. rewrite E. reflexivity. }
  destruct Ha as [->|[-> Hm]].
  - exists (Guarded t g), g. split; [apply L, G2|]. split; [exact G1|].
    intros reg base. cbn [passes]. destruct (memb t reg); reflexivity.
  - destruct G3 as (g' & G4 & G5).
    { destruct Hm as [->| ->]; [reflexivity|]. rewrite Nat.eqb_refl. apply orb_true_r. }
    exists (Guarded t g'), g'. split; [apply L, G5|]. split; [exact G4|].
    intros reg base. cbn [passes]. destruct (memb t reg); reflexivity.
Qed.
Print Assumptions C82_guard.

(** Registering: the tracer comes first, those of the same name are gone, the others
    stay, and all are set up anew; deregistering likewise. *)
Theorem C82_register : forall O t h,
  names_differ O (registered h) ->
  (exists r, registered (register O t h) = t :: r) /\
  names_differ O (registered (register O t h)) /\
  pending (register O t h) = true /\
  (forall u, In u (registered (register O t h)) <->
     u = t \/ (In u (registered h) /\ name_of O u <> name_of O t)) /\
  pending (deregister O t h) = true /\
  (forall u, In u (registered (deregister O t h)) <-> In u (registered h) /\ name_of O u <> name_of O t).
Proof.
  intros O t h N. pose proof (names_nodup _ _ N) as ND.
  assert (D : forall u, In u (registered (deregister O t h)) <-> In u (registered h) /\ name_of O u <> name_of O t).
  { intros u. unfold deregister, deregister_all. cbn [registered].
    destruct (remove_all (t :: filter (fun u => name_of O u =? name_of O t) (registered h)) (registered h) u ND) as [R _].
    rewrite R. cbn [In]. rewrite filter_In. split.
    - intros [H Q]. split; [exact H|]. intros E. apply Q. right. split; [exact H|]. apply Nat.eqb_eq, E.
    - intros [H Q]. split; [exact H|]. intros [E|[_ E]]; [subst; apply Q; reflexivity|].
      apply Nat.eqb_eq in E. contradiction. }
  split; [eexists; reflexivity|]. split; [|split; [reflexivity|split; [|split; [reflexivity|exact D]]]].
  - unfold names_differ, register. cbn [registered map]. constructor.
    + rewrite in_map_iff. intros (u & E & Hu). apply D in Hu. destruct Hu as [_ Q]. contradiction.
    + unfold deregister, deregister_all. cbn [registered].
      assert (X : forall ts l, NoDup (map (name_of O) l) ->
                NoDup (map (name_of O) (fold_left (fun l t => remove_first t l) ts l))).
      { induction ts as [|v ts IH]; intros l NL; cbn [fold_left]; [exact NL|]. apply IH.
        clear IH. induction l as [|a l IH]; [constructor|]. cbn [remove_first map] in *.
        apply NoDup_cons_iff in NL. destruct NL as [NA NL]. destruct (a =? v); [exact NL|].
        cbn [map]. constructor; [|apply IH, NL]. rewrite in_map_iff. intros (b & E & Hb).
        apply NA. rewrite in_map_iff. exists b. split; [exact E|]. eapply remove_first_incl, Hb. }
      apply X, N.
  - intros u. unfold register. cbn [registered In]. rewrite D. split; [intros [->|H]; auto|].
    intros [->|H]; auto.
Qed.
Print Assumptions C82_register.

Example C82_register_ex : names_differ O0 (registered h0) /\
  registered (register O0 6 h0) = [6; 5; 7] /\ registered (deregister O0 6 h0) = [5; 7].
Proof. split; [repeat constructor; cbn; lia|split; reflexivity]. Qed.

(** A cell that puts an entry in front of the path: pyccolo's entry stays. *)
Definition prepends (n : nat) : M nat := fun w =>
  let h := hk w in
  (mkWorld (pt w) (mkHooks (Other n :: meta h) (saved h) (enabled h) (callbacks h) (pending h) (registered h) (made h))
     (ret_var w) (kept w), Done 1).

Theorem C82_front_refuted : exists O n w,
  start O w /\ leaves_alone (prepends n) /\
  ~ foreign (meta (hk (runs O [(true, false, prepends n); (true, false, cell0)] w))).
Proof.
  exists O0, 9, w0. split; [apply C82_ex|]. split.
  - intros w w' r E. inversion E; subst. repeat split; auto.
  - intros H. specialize (H (Finder 0)). discriminate H. vm_compute. auto.
Qed.
Print Assumptions C82_front_refuted.

(** The hook after a cell raises: tracers stay on and pyccolo's entry stays. *)
Theorem C82_fault_refuted : exists F O w w' x,
  start O w /\ polite cell0 /\
  ipyflow_run_cell F O (ordinary true false) cell0 w = (w', Done x) /\
  enabled (hk w') <> [] /\ ~ foreign (meta (hk w')).
Proof.
  exists (fun p => match p with PFinish => Some (Fault 1) | _ => None end), O0, w0. do 2 eexists.
  split; [apply C82_ex|]. split; [apply cell0_polite|]. split; [vm_compute; reflexivity|].
  split; [discriminate|]. intros H. specialize (H (Finder 0)). discriminate H. vm_compute. auto.
Qed.
Print Assumptions C82_fault_refuted.

(** The first cell of a session is one with [%%capture], so the recorder of output is
    not among the tracers that get a callback; a tracer is registered in a later
    cell: the recorder stays on. *)
Theorem C82_capture_refuted : exists O w w1 w2 x y,
  start O w /\ polite cell0 /\ polite (registers 3) /\
  ipyflow_run_cell no_faults O (mkHow true true true true false) cell0 w = (w1, Done x) /\ quiet w1 /\
  ipyflow_run_cell no_faults O (ordinary true false) (registers 3) w1 = (w2, Done y) /\
  enabled (hk w2) = [recorder O].
Proof.
  exists O0, w0. do 4 eexists. split; [apply C82_ex|]. split; [apply cell0_polite|].
  split; [apply registers_polite|]. split; [vm_compute; reflexivity|]. split.
  - split; [reflexivity|]. intros e [<-|[<-|[]]]; reflexivity.
  - split; [vm_compute; reflexivity|reflexivity].
Qed.
Print Assumptions C82_capture_refuted.

(** A tracer is registered while dataflow is off: it stays on after the next run. *)
Theorem C82_untraced_refuted : exists O w w1 w2 w3 x y z,
  start O w /\ polite cell0 /\ polite (registers 3) /\
  ipyflow_run_cell no_faults O (ordinary true false) cell0 w = (w1, Done x) /\ quiet w1 /\
  ipyflow_run_cell no_faults O (mkHow false false false true false) (registers 3) w1 = (w2, Done y) /\ quiet w2 /\
  ipyflow_run_cell no_faults O (ordinary true false) cell0 w2 = (w3, Done z) /\
  enabled (hk w3) = [3].
Proof.
  exists O0, w0. do 6 eexists. split; [apply C82_ex|]. split; [apply cell0_polite|].
  split; [apply registers_polite|]. split; [vm_compute; reflexivity|]. split.
  - split; [reflexivity|]. intros e [<-|[<-|[]]]; reflexivity.
  - split; [vm_compute; reflexivity|]. split.
    + split; [reflexivity|]. intros e [<-|[<-|[]]]; reflexivity.
    + split; [vm_compute; reflexivity|reflexivity].
Qed.
Print Assumptions C82_untraced_refuted.

(** ** C83: the result *)

(** C83: what raises after the cell does not lose its result: it is kept aside. *)
Theorem C83_partial : forall F O H cell x w,
  complete O (pt w) -> late F -> only_syntax H = false ->
  leaves_alone cell -> (forall w1, exists w2, cell w1 = (w2, Done x)) ->
  exists w', ipyflow_run_cell F O H cell w = (w', Done x) /\
    (kept w' = None \/ exists p e, F p = Some e /\ kept w' = Some e).
Proof.
  intros F O H cell x w C LT HO LV HC.
  assert (CA : forall p, p <> PFinish -> p <> PAfter -> calm F p).
  { intros p N1 N2. unfold calm. destruct (F p) eqn:E; [|reflexivity]. destruct (LT _ _ E) as [_ [->| ->]]; congruence. }
  destruct (trace H) eqn:HT.
  - destruct (run_reaches F O H cell w C HT HO) as (d & D1 & CD & _ & RUN); try (apply CA; discriminate).
    destruct (HC d) as (wc & EC).
    destruct (RUN wc x EC (untouched_grows _ _ (LV _ _ _ EC))) as (w' & r' & ER & _ & _ & RES).
    exists w'. rewrite ER. cbn [ended] in RES.
    destruct (memb (dataflow O) (tracers_of O H w)).
    + destruct (F PFinish) as [e|] eqn:EF.
      * cbn [fst] in RES. destruct (LT _ _ EF) as [CE _]. rewrite CE in RES. destruct RES as [-> K].
        split; [reflexivity|]. right. exists PFinish, e. auto.
      * cbn [fst] in RES. destruct (F PAfter) as [e|] eqn:EA.
        -- destruct (LT _ _ EA) as [CE _]. rewrite CE in RES. destruct RES as [-> K].
           split; [reflexivity|]. right. exists PAfter, e. auto.
        -- destruct RES as [-> K]. auto.
    + cbn [fst] in RES. destruct (F PAfter) as [e|] eqn:EA.
      * destruct (LT _ _ EA) as [CE _]. rewrite CE in RES. destruct RES as [-> K].
        split; [reflexivity|]. right. exists PAfter, e. auto.
      * destruct RES as [-> K]. auto.
  - assert (E1 : F PBefore = None) by (apply CA; discriminate).
    assert (E2 : F PCurrent = None) by (apply CA; discriminate).
    destruct (HC (begun w)) as (wc & EC).
    unfold ipyflow_run_cell. unfold bind at 1. cbn [set_ret].
    fold (begun w). unfold bind at 1, at_point at 1. rewrite E1. cbn [ret]. rewrite HT.
    unfold bind at 1. unfold inner_run, bind, at_point. rewrite E2. cbn [ret]. rewrite EC.
    cbn. eexists. split; [reflexivity|]. left. reflexivity.
Qed.
Print Assumptions C83_partial.

Example C83_ex : late (fun p => match p with PAfter => Some (Fault 3) | _ => None end) /\
  leaves_alone cell0 /\ (forall w1, exists w2, cell0 w1 = (w2, Done 42)) /\
  exists w', ipyflow_run_cell (fun p => match p with PAfter => Some (Fault 3) | _ => None end)
    O0 (ordinary true false) cell0 w0 = (w', Done 42) /\ kept w' = Some (Fault 3).
Proof.
  split; [intros p e; destruct p; intros E; inversion E; subst; auto|].
  split; [apply (proj1 cell0_polite)|]. split; [intros w1; exists w1; reflexivity|].
  eexists. split; [vm_compute; reflexivity|reflexivity].
Qed.

(** What raises before the cell: the cell is not run, and the run ends with the error
    that [ret] is not bound, in place of the one that was raised. *)
Theorem C83_before_refuted : exists F O w w',
  complete O (pt w) /\ (forall p e, F p = Some e -> caught e = true) /\
  leaves_alone cell0 /\ (forall w1, exists w2, cell0 w1 = (w2, Done 42)) /\
  ipyflow_run_cell F O (ordinary true false) cell0 w = (w', Raised Unbound).
Proof.
  exists (fun p => match p with PRewriter => Some (Fault 3) | _ => None end), O0, w0. eexists.
  split; [apply P0_complete|]. split; [intros p e; destruct p; intros E; inversion E; reflexivity|].
  split; [apply (proj1 cell0_polite)|]. split; [intros w1; exists w1; reflexivity|].
  vm_compute. reflexivity.
Qed.
Print Assumptions C83_before_refuted.

(** An interrupt in the hook after the cell: the result is lost. *)
Theorem C83_interrupt_refuted : exists F O w w' e,
  complete O (pt w) /\ (forall p e, F p = Some e -> p = PFinish) /\
  leaves_alone cell0 /\ (forall w1, exists w2, cell0 w1 = (w2, Done 42)) /\
  ipyflow_run_cell F O (ordinary true false) cell0 w = (w', Raised e).
Proof.
  exists (fun p => match p with PFinish => Some (Interrupt 3) | _ => None end), O0, w0. do 2 eexists.
  split; [apply P0_complete|]. split; [intros p e; destruct p; intros E; inversion E; reflexivity|].
  split; [apply (proj1 cell0_polite)|]. split; [intros w1; exists w1; reflexivity|].
  vm_compute. reflexivity.
Qed.
Print Assumptions C83_interrupt_refuted.
