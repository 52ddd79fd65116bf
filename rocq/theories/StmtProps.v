(** C96, C97 and C98: the records of statements, moved widgets, and the slices they appear in. *)
Require Import List ZArith Bool Arith String.
Import ListNotations.
Require Import Verif.Base Verif.TimestampModel Verif.TimestampProofs Verif.SessionModel Verif.SliceModel Verif.StmtModel Verif.StmtSpec Verif.StmtProofs.
Local Open Scope list_scope.
Local Open Scope nat_scope.

(** ** A session *)

Definition T (c s : Z) : ts := mkTs c s.
(** Cell 1 makes a widget. It is moved; its place is (1, 1). Cell 2 uses the value, which runs a function, the node 9. The widget is
    moved again. Cell 3 uses cell 2, by the static analysis too. Cell 4 is the run of cell 2 once more, which is skipped. *)
Definition sample : list event :=
  [Ran 0 (T 1 0); Moved 1 1 (T 1 0) 7; Ran 2 (T 2 0); Depends Dynamic (T 2 0) (T 1 1) 7; Ran 9 (T 2 0); Moved 3 1 (T 1 0) 7;
   Depends Static (T 3 0) (T 2 0) 8; Ran 4 (T 3 0); Depends Dynamic (T 3 0) (T 2 0) 8; Depends Dynamic (T 3 0) (T 9 9) 8;
   Ran 5 (T 4 0); Reused Dynamic (T 4 0) (T 2 0)].

Ltac fit := repeat match goal with
  | |- _ /\ _ => split | |- True => exact I | |- ~ _ => intros ? | H : False |- _ => destruct H | H : _ \/ _ |- _ => destruct H
  | H : (_, _) = (_, _) |- _ => discriminate H | H : _ = _ |- _ => discriminate H
  | |- forall _, _ => intros ? | |- _ = _ => reflexivity end.

Lemma sample_fits : all_fit nothing sample.
Proof.
  vm_compute. fit; auto 6; try (left; fit; fail); try (right; fit; auto; fail).
Qed.

(** * C96: what is recorded about statements *)

(** After any session, a statement is on record for exactly the times at which one ran or a widget was moved, and it is for that time. *)
Theorem C96_known_partial : forall es, all_fit nothing es ->
  let st := run start es in
  (forall t, (exists u, at_timestamp st t = Ok u) <-> In t (ran (tell nothing es))) /\
  (forall t u, at_timestamp st t = Ok u -> exists s, nth_error (stmts st) u = Some s /\ time s = t).
Proof.
  intros es H. pose proof (Inv_run es start nothing Inv_start H) as I. split.
  - intros t. symmetry. apply (i_ran _ _ I).
  - intros t u A. destruct (i_head _ _ I t u A) as (s & _ & S & TS & _). eauto.
Qed.
Print Assumptions C96_known_partial.

(** A statement is on record as depending on another by a symbol exactly if the session says so. Missing: a statement that has parents when
    the parents of a reused run are put in their place, see [C96_refuted]. *)
Theorem C96_partial : forall es, all_fit nothing es ->
  forall x c p y, parent (run start es) x c p y <-> In (x, c, p, y) (deps (tell nothing es)).
Proof. intros es H x c p y. apply parent_deps, Inv_run; [exact Inv_start|exact H]. Qed.
Print Assumptions C96_partial.

(** The two statements agree about it. *)
Theorem C96_agree_partial : forall es, all_fit nothing es ->
  forall x c p y, parent (run start es) x c p y <-> child (run start es) x p c y.
Proof.
  intros es H x c p y. pose proof (Inv_run es start nothing Inv_start H) as I. now rewrite (parent_deps _ _ x c p y I), (child_deps _ _ x c p y I).
Qed.
Print Assumptions C96_agree_partial.

(** Every statement named by one on record is on record too, and is another one. *)
Theorem C96_closed_partial : forall es, all_fit nothing es ->
  let st := run start es in
  forall t u s x k, at_timestamp st t = Ok u -> nth_error (stmts st) u = Some s -> In k (dkeys (par s x)) \/ In k (dkeys (chi s x)) ->
  exists t' v o, at_timestamp st t' = Ok v /\ nth_error (stmts st) v = Some o /\ node o = k /\ from_id st k = Ok v /\ t' <> t.
Proof. intros es H st t u s x k. apply (edges_known st (tell nothing es)). now apply (Inv_run es start nothing Inv_start). Qed.
Print Assumptions C96_closed_partial.

(** No two statements depend on each other in the same context. *)
Theorem C96_one_way_partial : forall es, all_fit nothing es ->
  forall x c p y y', parent (run start es) x c p y -> ~ parent (run start es) x p c y'.
Proof.
  intros es H x c p y y'. pose proof (Inv_run es start nothing Inv_start H) as I. rewrite !(parent_deps _ _ _ _ _ _ I).
  apply (oneway_run es start nothing Inv_start); auto. intros ? ? ? ? ? [].
Qed.
Print Assumptions C96_one_way_partial.

(** Nothing raises, but a dependency at a time at which nothing ran. *)
Theorem C96_completes_partial : forall es e, all_fit nothing (es ++ [e]) ->
  (forall c p y, e = Depends Dynamic c p y -> In c (ran (tell nothing es)) /\ In p (ran (tell nothing es))) ->
  snd (does e (run start es)) = Ok tt.
Proof.
  intros es e H U. assert (all_fit nothing es /\ fits (tell nothing es) e) as (A & B).
  { revert H. generalize nothing. clear U. induction es as [|e' es IH]; intros f; cbn; [tauto|]. intros (A & B). destruct (IH _ B). auto. }
  apply (does_ok _ (tell nothing es)); auto. apply Inv_run; [exact Inv_start|assumption].
Qed.
Print Assumptions C96_completes_partial.

Example C96_example : all_fit nothing sample /\ In (T 1 1) (ran (tell nothing sample)) /\
  parent (run start sample) Dynamic (T 2 0) (T 1 1) 7 /\ parent (run start sample) Static (T 3 0) (T 2 0) 8 /\
  parent (run start sample) Dynamic (T 4 0) (T 1 1) 7 /\ List.length (deps (tell nothing sample)) = 6.
Proof.
  pose proof sample_fits as H. split; auto. split; [vm_compute; tauto|]. rewrite !C96_partial by exact H. vm_compute. tauto.
Qed.

(** The full property is false: the run of cell 3 is skipped, and [Out.get(2)] runs in its place, at a time when a variable [Out] of the
    notebook was set in cell 1. When the parents of the reused run are put in the place of its own, the statement of cell 1 keeps its child. *)
Definition reused_with_parents : list event :=
  [Ran 0 (T 1 0); Ran 1 (T 2 0); Ran 2 (T 3 0); Ran 3 (T 3 0); Depends Dynamic (T 3 0) (T 1 0) 7; Reused Dynamic (T 3 0) (T 2 0)].
Theorem C96_refuted :
  let st := run start reused_with_parents in
  child st Dynamic (T 1 0) (T 3 0) 7 /\ ~ parent st Dynamic (T 3 0) (T 1 0) 7.
Proof.
  split.
  - eexists 2, 0, _, _, _. repeat split; try (vm_compute; reflexivity). now left.
  - intros (u & v & s & o & l & A & B & C & D & E & _). vm_compute in A, B. injection A as <-. injection B as <-. vm_compute in C, D.
    injection C as <-. injection D as <-. discriminate.
Qed.
Print Assumptions C96_refuted.

(** * C97: a moved widget *)

(** When a widget is moved, the new statement is on record for its place, the one that was there is not to be found any more, and
    everything known about the place, and all else, is as before but for the dependency between the place and the statement that made
    the widget, and what was waiting for the place. *)
Theorem C97_partial : forall es n k t0 y0, all_fit nothing es -> fits (tell nothing es) (Moved n k t0 y0) ->
  let st := run start es in
  let st' := step st (Moved n k t0 y0) in
  let t := moved_to t0 k in
  (exists u s, at_timestamp st' t = Ok u /\ nth_error (stmts st') u = Some s /\ node s = n /\ time s = t /\ override s = true) /\
  (forall w o, at_timestamp st t = Ok w -> nth_error (stmts st) w = Some o -> node o <> n /\ from_id st' (node o) = Err KeyError) /\
  (forall x c p y, parent st x c p y -> parent st' x c p y) /\
  (forall x c p y, parent st' x c p y -> parent st x c p y \/
    (x = Dynamic /\ y = y0 /\ ((c = t0 /\ p = t) \/ (c = t /\ p = t0))) \/
    (x = Static /\ c = t /\ In (c, p, y) (waiting (tell nothing es)))).
Proof.
  intros es n k t0 y0 H HF st st' t. pose proof (Inv_run es start nothing Inv_start H) as I. fold st in I. set (f := tell nothing es) in *.
  destruct (Inv_moved st f n k t0 y0 I HF) as (st1 & R & I1 & A & N & OLD).
  assert (st' = st1) as -> by (unfold st', step; now rewrite R). fold t in A, OLD.
  split; [|split; [|split]].
  - destruct (i_head _ _ I1 t _ A) as (s & rest & S & TS & _ & _ & O & _). exists (List.length (stmts st)), s.
    rewrite (Nd_of _ _ _ S) in N. injection N as N. repeat split; auto. apply O. cbn. now left.
  - intros w o AW SO. split; [|eauto]. intros C. destruct HF as (NN & _). apply NN. rewrite <- C.
    destruct (i_head _ _ I t w AW) as (o' & rest & SO' & _ & _ & D & _). rewrite SO in SO'. injection SO' as <-. exact (i_nodes _ _ I _ _ D).
  - intros x c p y P. apply (parent_deps _ _ _ _ _ _ I) in P. apply (parent_deps _ _ _ _ _ _ I1). cbn. rewrite !In_link, in_app_iff. auto.
  - intros x c p y P. apply (parent_deps _ _ _ _ _ _ I1) in P. rewrite (parent_deps _ _ _ _ _ _ I). cbn in P. rewrite !In_link, in_app_iff, in_flat_map in P.
    destruct P as [[[W|P]|(_ & _ & [= -> -> -> ->])]|(_ & _ & [= -> -> -> ->])]; auto 7.
    destruct W as (((c' & p') & y') & W & E). fold t in E. destruct (ts_eqb t c') eqn:TC; [|destruct E]. apply ts_eqb_eq in TC. destruct E as [[= <- <- <- <-]|[]]. auto 7.
Qed.
Print Assumptions C97_partial.

Example C97_example : let es := firstn 5 sample in
  all_fit nothing es /\ fits (tell nothing es) (Moved 3 1 (T 1 0) 7) /\
  parent (run start es) Dynamic (T 2 0) (T 1 1) 7 /\ exists w o, at_timestamp (run start es) (moved_to (T 1 0) 1) = Ok w /\
    nth_error (stmts (run start es)) w = Some o /\ node o = 1.
Proof.
  pose proof sample_fits as H. cbn [all_fit sample] in H. assert (A : all_fit nothing (firstn 5 sample)) by (cbn [all_fit sample firstn]; tauto).
  split; auto. split; [tauto|]. rewrite C96_partial by exact A. split; [vm_compute; tauto|]. eexists 1, _. vm_compute. auto.
Qed.

(** Without the condition on the place this is false. Cell 1 has two statements and makes a widget in the first. Then the user deletes the
    second one in the editor: the place for the widget is that of the second statement, which ran and is on record no more. *)
Theorem C97_place_refuted :
  let es := [Ran 0 (T 1 0); Ran 1 (T 1 1)] in
  let st' := step (run start es) (Moved 2 1 (T 1 0) 7) in
  all_fit nothing es /\ at_timestamp (run start es) (T 1 1) = Ok 1 /\ at_timestamp st' (T 1 1) = Ok 2 /\ from_id st' 1 = Err KeyError /\
  snd (does (Moved 2 1 (T 1 0) 7) (run start es)) = Ok tt.
Proof. cbn zeta. split; [vm_compute; fit; auto 6; left; fit|]. vm_compute. auto. Qed.
Print Assumptions C97_place_refuted.

(** After a reused run with parents a move may fail half way. The slice of cell 2 could be made before, and cannot afterwards. *)
Definition half_way : list event :=
  [Ran 0 (T 1 0); Moved 1 1 (T 1 0) 7; Ran 2 (T 2 0); Ran 4 (T 3 0); Ran 5 (T 4 0); Depends Dynamic (T 4 0) (T 1 1) 7; Depends Dynamic (T 2 0) (T 1 1) 7;
   Reused Dynamic (T 4 0) (T 3 0)].
Theorem C97_half_refuted : forall text,
  let st := run start half_way in
  let e := Moved 6 1 (T 1 0) 7 in
  snd (does e st) = Err KeyError /\
  make_multi_slice (world_of text st) [Dynamic] [STs (T 2 0)] false = Ok [1; 2] /\
  make_multi_slice (world_of text (step st e)) [Dynamic] [STs (T 2 0)] false = Err KeyError.
Proof. intros text. vm_compute. auto. Qed.
Print Assumptions C97_half_refuted.

(** * C98: slices of statements *)

(** The slice of a statement consists of the statements on record for the times that it depends on, directly or not. *)
Theorem C98_partial : forall es text xs t l, all_fit nothing es ->
  make_multi_slice (world_of text (run start es)) xs [STs t] false = Ok l ->
  forall v, In v l <-> exists c, at_timestamp (run start es) c = Ok v /\ reach (uses (deps (tell nothing es)) xs) t c.
Proof. intros es text xs t l H. apply slice_is. apply Inv_run; [exact Inv_start|assumption]. Qed.
Print Assumptions C98_partial.

(** It can be made exactly if a statement ran at the time and nothing in it depends on a statement that ran later, other than one for
    a moved widget. *)
Theorem C98_when_partial : forall es text xs t, all_fit nothing es ->
  (exists l, make_multi_slice (world_of text (run start es)) xs [STs t] false = Ok l) <->
  In t (ran (tell nothing es)) /\
  forall c p, reach (uses (deps (tell nothing es)) xs) t c -> uses (deps (tell nothing es)) xs c p ->
    ts_ltb c p = false \/ In p (extras (tell nothing es)).
Proof. intros es text xs t H. apply slice_when. apply Inv_run; [exact Inv_start|assumption]. Qed.
Print Assumptions C98_when_partial.

(** The statement for the moved widget is in the slice of everything that uses the statement that made the widget. *)
Theorem C98_moved_partial : forall es n k t0 y0 text xs t l, all_fit nothing es -> fits (tell nothing es) (Moved n k t0 y0) ->
  let st' := step (run start es) (Moved n k t0 y0) in
  In Dynamic xs -> t0 <> moved_to t0 k -> (forall y, ~ parent (run start es) Dynamic (moved_to t0 k) t0 y) ->
  reach (uses (deps (tell nothing es)) xs) t t0 ->
  make_multi_slice (world_of text st') xs [STs t] false = Ok l ->
  exists u s, In u l /\ nth_error (stmts st') u = Some s /\ node s = n.
Proof.
  intros es n k t0 y0 text xs t l H HF st' IX NE NP R SL. pose proof (Inv_run es start nothing Inv_start H) as I. set (f := tell nothing es) in *.
  destruct (Inv_moved _ f n k t0 y0 I HF) as (st1 & RU & I1 & A & N & _).
  assert (st' = st1) as E by (unfold st', step; now rewrite RU). rewrite E in *. clear E.
  destruct (i_head _ _ I1 _ _ A) as (s & rest & S & _). rewrite (Nd_of _ _ _ S) in N. injection N as N.
  exists (List.length (stmts (run start es))), s. split; auto. apply (slice_is text st1 _ I1 xs t l SL). exists (moved_to t0 k). split; auto.
  eapply reach_snoc.
  - eapply reach_mono; [|exact R]. intros a b (x & y & IX' & D). exists x, y. split; auto. cbn. rewrite !In_link, in_app_iff. auto.
  - exists Dynamic, y0. split; auto. cbn. rewrite !In_link, in_app_iff. left. right. split; auto. split; auto. apply links_false. intros y C.
    rewrite in_app_iff, in_flat_map in C. destruct C as [(((c' & p') & y') & _ & E)|C]; [destruct (ts_eqb _ c'); [|destruct E]; destruct E as [E|[]]; discriminate|].
    apply (NP y). now apply (parent_deps _ f).
Qed.
Print Assumptions C98_moved_partial.

Example C98_example : forall text, let st := run start sample in
  make_multi_slice (world_of text st) [Dynamic; Static] [STs (T 3 0)] false = Ok [4; 2; 5] /\
  (forall y, ~ parent st Dynamic (T 1 1) (T 1 0) y) /\
  option_map node (nth_error (stmts st) 4) = Some 3.
Proof.
  intros text. cbn zeta. split; [vm_compute; reflexivity|]. split; [|vm_compute; reflexivity].
  intros y C. rewrite C96_partial in C by exact sample_fits. vm_compute in C. fit.
Qed.
Example C98_moved_example : let es := firstn 5 sample in
  all_fit nothing es /\ fits (tell nothing es) (Moved 3 1 (T 1 0) 7) /\ (forall y, ~ parent (run start es) Dynamic (T 1 1) (T 1 0) y) /\
  forall text, make_multi_slice (world_of text (step (run start es) (Moved 3 1 (T 1 0) 7))) [Dynamic] [STs (T 1 0)] false = Ok [0; 4].
Proof.
  pose proof sample_fits as H. cbn [all_fit sample] in H. assert (A : all_fit nothing (firstn 5 sample)) by (cbn [all_fit sample firstn]; tauto).
  split; auto. split; [tauto|]. split; [|intros text; vm_compute; reflexivity].
  intros y C. rewrite C96_partial in C by exact A. vm_compute in C. fit.
Qed.

(** The other way round it fails: the slice of a statement that uses the value of the moved widget has the assignment to [w.value], but
    not the statement that makes [w]. The dependency is added second, when there is already one in the other direction. *)
Theorem C98_refuted : forall text,
  let es := [Ran 0 (T 1 0); Moved 1 1 (T 1 0) 7; Ran 2 (T 2 0); Depends Dynamic (T 2 0) (T 1 1) 7] in
  let st := run start es in
  all_fit nothing es /\
  make_multi_slice (world_of text st) [Dynamic; Static] [STs (T 2 0)] false = Ok [1; 2] /\
  option_map node (nth_error (stmts st) 0) = Some 0.
Proof. intros text. cbn zeta. split; [vm_compute; fit; auto 6; left; fit|]. vm_compute. auto. Qed.
Print Assumptions C98_refuted.
