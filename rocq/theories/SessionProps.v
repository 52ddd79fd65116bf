(** Property theorems C03, C04, C05, C06, C07 and C15. *)
Require Import List ZArith Bool Arith Lia.
Import ListNotations.
Require Import Verif.Base Verif.SessionModel Verif.SessionSpec Verif.SessionProofs
  Verif.SessionInv Verif.SessionHist Verif.SessionRename Verif.SessionLog Verif.SessionMore.

(** * C03: edges agree from both ends *)

(** Missing from the full property: histories in which a self use is recorded after the
    run has finished (refuted below), and the other restrictions of [restricted]. *)
Theorem C03_edges_agree_partial : forall s, session s None -> edges_agree s.
Proof.
  intros s S x c p sym. apply session_inv in S. destruct S as [I _]. split.
  - apply (i_up _ _ I).
  - intros H. apply (i_down _ _ I) in H. destruct H as [H|[H _]]; [auto|discriminate].
Qed.
Print Assumptions C03_edges_agree_partial.

Theorem C03_parents_visible_while_running_partial : forall s r x c p sym,
  session s r -> lists_parent s x c p sym -> lists_child s x p c sym.
Proof. intros s r x c p sym S. apply session_inv in S. apply (i_up _ _ (proj1 S)). Qed.
Print Assumptions C03_parents_visible_while_running_partial.

(** Two cells executed, the second one reads the first one's symbol 7; then it runs again
    and reads symbol 8 instead; a rename and a replay follow. *)
Definition demo : list event :=
  [EExec 0 None false; EFinish [];
   EExec 1 None true; EUse Dynamic 1 0 7; EUse Static 1 0 7; EUse Dynamic 1 1 7; EFinish [];
   EExec 1 None false; EUse Dynamic 2 0 8; EUse Dynamic 2 2 7; EFinish [];
   EUntracked 4; EInit 99 [(4, [1; 5])];
   ERename true true 1 11;
   EExec 11 None false; EReplay true true 1; EFinish []].

Example C03_example : exists s,
  session s None /\
  lists_parent s Dynamic 11 0 7 /\ lists_child s Dynamic 0 11 7 /\
  lists_parent s Static 4 11 99 /\ lists_child s Static 11 4 99.
Proof.
  eexists. split; [apply (srun_session demo); vm_compute; reflexivity|].
  repeat split.
  - exists 4. eexists. split; [split; vm_compute; reflexivity|].
    eexists. split; [vm_compute; reflexivity|simpl; auto].
  - eexists. split; [vm_compute; reflexivity|simpl; auto].
  - exists 3. eexists. split; [split; vm_compute; reflexivity|].
    eexists. split; [vm_compute; reflexivity|simpl; auto].
  - eexists. split; [vm_compute; reflexivity|simpl; auto].
Qed.

(** The full property is false. Cell 0 is [x = 0], cell 1 is [x = x + 1]; cell 1 runs
    twice. The second run reads the [x] written by the superseded run, so it records no
    edge, and the clean-up drops the edge of the first run from both ends. The static
    check that follows the clean-up (interactiveshell.py:698) sees cell 1 using its own
    [x] and puts the dropped edge back, on the child's side only. *)
Definition self_use_after_finish : list event :=
  [EExec 0 None false; EFinish [];
   EExec 1 None false; EUse Static 1 0 7; EFinish [];
   EExec 1 None false; EFinish []; EUse Static 2 2 7].

Theorem C03_refuted : exists s,
  any_session s None /\ lists_parent s Static 1 0 7 /\ ~ lists_child s Static 0 1 7.
Proof.
  eexists. split; [apply (srun_any self_use_after_finish); vm_compute; reflexivity|].
  split.
  - exists 2. eexists. split; [split; vm_compute; reflexivity|].
    eexists. split; [vm_compute; reflexivity|simpl; auto].
  - intros (l & H & _). vm_compute in H. discriminate.
Qed.
Print Assumptions C03_refuted.

(** * C04: no self edge, no mutual edges *)

Theorem C04_no_cycle_of_length_two_partial : forall s r x c p a b,
  session s r -> lists_parent s x c p a ->
  c <> p /\ ~ lists_parent s x p c b.
Proof.
  intros s r x c p a b S H. apply session_inv in S. destruct S as [I _].
  apply (i_up _ _ I) in H. split.
  - intros ->. apply (i_keys _ _ I) in H. tauto.
  - intros G. apply (i_up _ _ I) in G. eapply (i_mutual _ _ I); eauto.
Qed.
Print Assumptions C04_no_cycle_of_length_two_partial.

(** The children's side. *)
Theorem C04_no_mutual_children_partial : forall s r x c p a b,
  session s r -> lists_child s x p c a -> c <> p /\ ~ lists_child s x c p b.
Proof.
  intros s r x c p a b S H. apply session_inv in S. destruct S as [I _]. split.
  - intros ->. apply (i_keys _ _ I) in H. tauto.
  - intros G. eapply (i_mutual _ _ I); eauto.
Qed.
Print Assumptions C04_no_mutual_children_partial.

(** Cell 1 reads from cell 0, and cell 0, run again, reads from cell 1: the second edge is
    not recorded. *)
Example C04_example : exists s,
  session s None /\ lists_parent s Dynamic 1 0 7 /\ ~ lists_parent s Dynamic 0 1 8.
Proof.
  eexists. split.
  - apply (srun_session
      [EExec 0 None false; EFinish [];
       EExec 1 None false; EUse Dynamic 1 0 7; EFinish [];
       EExec 0 None false; EUse Dynamic 2 1 8; EFinish []]).
    vm_compute. reflexivity.
  - split.
    + exists 1. eexists. split; [split; vm_compute; reflexivity|].
      eexists. split; [vm_compute; reflexivity|simpl; auto].
    + intros (u & v & [A B] & l & H & _). vm_compute in A. injection A as <-.
      vm_compute in B. injection B as <-. vm_compute in H. discriminate.
Qed.

(** Without the restriction on self uses: after the history of [C03_refuted], cell 0 is
    edited to read [x] and runs again. *)
Theorem C04_refuted : exists s,
  any_session s None /\ lists_parent s Static 1 0 7 /\ lists_parent s Static 0 1 7.
Proof.
  eexists. split.
  - apply (srun_any (self_use_after_finish ++
      [EExec 0 None false; EUse Static 3 2 7; EFinish []])).
    vm_compute. reflexivity.
  - split.
    + exists 2. eexists. split; [split; vm_compute; reflexivity|].
      eexists. split; [vm_compute; reflexivity|simpl; auto].
    + exists 3. eexists. split; [split; vm_compute; reflexivity|].
      eexists. split; [vm_compute; reflexivity|simpl; auto].
Qed.
Print Assumptions C04_refuted.

(** * C05: no edge without symbols *)

(** Whatever the events, in whatever order, and for superseded versions as well. *)
Theorem C05_no_empty_edges : forall l s,
  steps sess_init l = Ok s ->
  (forall u v x p syms, nth_error (heap s) u = Some v ->
     dget (c_par v x) p = Some syms -> syms <> []) /\
  (forall x p c syms, dget (children_of s x p) c = Some syms -> syms <> []).
Proof.
  intros l s H. apply steps_full in H; [|apply sfull_init]. split.
  - intros u v x p syms A B. apply dget_In in B. eapply f_par; eauto.
  - intros x p c syms A. apply dget_In in A.
    pose proof (sfull_children s x p H) as F. eapply F; eauto.
Qed.
Print Assumptions C05_no_empty_edges.

(** Removing symbols removes exactly those, from both ends; an edge whose last symbol goes
    is gone from both ends. *)
Theorem C05_removal_exact : forall s r i u v x p syms s',
  session s r -> current s i u v ->
  remove_parent_edges s x u p syms = Ok s' ->
  (forall y c q sym, lists_parent s' y c q sym <->
     lists_parent s y c q sym /\ ~ (y = x /\ c = i /\ q = p /\ In sym syms)) /\
  (forall y q c sym, lists_child s' y q c sym <->
     lists_child s y q c sym /\ ~ (y = x /\ c = i /\ q = p /\ In sym syms)) /\
  ((forall sym, lists_parent s x i p sym -> In sym syms) ->
   (forall sym, lists_child s x p i sym -> In sym syms) ->
   forall v', current s' i u v' ->
     dget (c_par v' x) p = None /\ dget (children_of s' x p) i = None).
Proof.
  intros s r i u v x p syms s' S C H. apply session_inv in S.
  destruct (remove_parent_edges_view _ _ _ _ _ _ _ _ _ (proj1 S) C H)
    as (_ & W & HP & HC & _).
  split; [exact HP|]. split; [exact HC|].
  intros AP AC v' C'. split.
  - destruct (dget (c_par v' x) p) as [l|] eqn:D; auto. exfalso.
    pose proof C' as [_ C2]. pose proof (proj2 (wf_par _ W _ _ x C2) _ _ D) as N.
    destruct l as [|a l]; [congruence|].
    assert (L : lists_parent s' x i p a).
    { exists u, v'. split; auto. exists (a :: l). simpl. auto. }
    apply HP in L. destruct L as [L1 L2]. apply L2. repeat split; auto.
  - destruct (dget (children_of s' x p) i) as [l|] eqn:D; auto. exfalso.
    pose proof (proj2 (wf_ch _ W x p) _ _ D) as N. destruct l as [|a l]; [congruence|].
    assert (L : lists_child s' x p i a) by (exists (a :: l); simpl; auto).
    apply HC in L. destruct L as [L1 L2]. apply L2. repeat split; auto.
Qed.
Print Assumptions C05_removal_exact.

Example C05_example : exists s s' v,
  session s None /\ current s 11 4 v /\ lists_parent s Dynamic 11 0 7 /\
  remove_parent_edges s Dynamic 4 0 [7; 8] = Ok s' /\ children_of s' Dynamic 0 = [].
Proof.
  eexists. eexists. eexists.
  split; [apply (srun_session demo); vm_compute; reflexivity|].
  split; [split; vm_compute; reflexivity|]. split.
  - exists 4. eexists. split; [split; vm_compute; reflexivity|].
    eexists. split; [vm_compute; reflexivity|simpl; auto].
  - split; [vm_compute; reflexivity|vm_compute; reflexivity].
Qed.

(** * C06: memoized re-runs *)

(** The run being skipped has recorded nothing; no parent of the reused run [v] is the cell
    itself or has meanwhile become a child of the cell. Then after the replay and the
    clean-up the cell's parents are those of the reused run, and exactly the cells among
    them list it as a child. *)
Theorem C06_replay_partial : forall s i u c v pc s',
  session s (Some i) -> current s i u c -> (forall x, c_par c x = []) ->
  nth_error (heap s) v = Some pc ->
  (forall x p sym, has (c_par pc x) p sym ->
     p <> i /\ forall sym', ~ lists_child s x i p sym') ->
  steps s [EReplay true true v; EFinish []] = Ok s' ->
  forall x p sym,
    (lists_parent s' x i p sym <-> has (c_par pc x) p sym) /\
    (lists_child s' x p i sym <-> has (c_par pc x) p sym).
Proof.
  intros s i u c v pc s' S C E V HN H x p sym. apply session_inv in S.
  cbn [steps] in H. destruct (step s (EReplay true true v)) as [s1|] eqn:R;
    cbn [rbind] in H; [|discriminate].
  destruct (replay_view _ _ _ _ _ _ _ S C E V HN R) as [I1 VP].
  destruct (step s1 (EFinish [])) as [s2|] eqn:F; cbn [rbind] in H; [|discriminate].
  injection H as <-. simpl in F.
  pose proof (finish_nil_parents _ _ _ I1 F) as VF.
  destruct (finish_inv _ _ _ _ I1 F) as [[I2 _] _].
  assert (A : lists_parent s2 x i p sym <-> has (c_par pc x) p sym)
    by (rewrite VF; apply VP).
  split; auto. rewrite <- A. split; [|apply (i_up _ _ I2)].
  intros G. apply (i_down _ _ I2) in G. destruct G as [G|[G _]]; [auto|discriminate].
Qed.
Print Assumptions C06_replay_partial.

Example C06_example : exists s s' u c pc,
  session s (Some 11) /\ current s 11 u c /\ (forall x, c_par c x = []) /\
  nth_error (heap s) 1 = Some pc /\ has (c_par pc Dynamic) 0 7 /\
  (forall x p sym, has (c_par pc x) p sym ->
     p <> 11 /\ forall sym', ~ lists_child s x 11 p sym') /\
  steps s [EReplay true true 1; EFinish []] = Ok s'.
Proof.
  eexists. eexists. exists 4. eexists. eexists.
  split; [apply (srun_session (firstn 15 demo)); vm_compute; reflexivity|].
  split; [split; vm_compute; reflexivity|].
  split; [intros []; reflexivity|].
  split; [vm_compute; reflexivity|].
  split; [eexists; split; [vm_compute; reflexivity|simpl; auto]|].
  split; [|vm_compute; reflexivity].
  intros x p sym (l & H & _).
  assert (p = 0).
  { destruct x; vm_compute in H; destruct p; auto; discriminate. }
  subst p. split; [lia|]. intros sym' (l' & G & _).
  destruct x; vm_compute in G; discriminate.
Qed.

(** Without the condition on children the property is false: cell 1 read from cell 0 in
    its first run only, cell 0 has since come to read from cell 1, and the first run of
    cell 1 is reused. *)
Theorem C06_refuted : exists s s' pc,
  session s (Some 1) /\ nth_error (heap s) 1 = Some pc /\
  steps s [EReplay true true 1; EFinish []] = Ok s' /\
  has (c_par pc Dynamic) 0 7 /\ ~ lists_parent s' Dynamic 1 0 7.
Proof.
  eexists. eexists. eexists.
  split; [apply (srun_session
    [EExec 0 None false; EFinish [];
     EExec 1 None false; EUse Dynamic 1 0 7; EFinish [];
     EExec 1 None false; EFinish [];
     EExec 0 None false; EUse Dynamic 3 2 8; EFinish [];
     EExec 1 None false]); vm_compute; reflexivity|].
  split; [vm_compute; reflexivity|]. split; [vm_compute; reflexivity|]. split.
  - eexists. split; [vm_compute; reflexivity|simpl; auto].
  - intros (u & v & [A B] & l & H & _). vm_compute in A. injection A as <-.
    vm_compute in B. injection B as <-. vm_compute in H. discriminate.
Qed.
Print Assumptions C06_refuted.

(** When the skipped run has recorded a parent that the reused run lacks, that parent keeps
    listing the cell as a child: the removal loop passes the stored set to a function that
    empties it before using it (interactiveshell.py:634-635, mixin.py:329-334). *)
Theorem C06_leftover_child_refuted : exists s s' pc,
  any_session s (Some 1) /\ nth_error (heap s) 1 = Some pc /\
  steps s [EReplay true true 1; EFinish []] = Ok s' /\
  (forall sym, ~ lists_parent s' Dynamic 1 0 sym) /\ lists_child s' Dynamic 0 1 7.
Proof.
  eexists. eexists. eexists.
  split; [apply (srun_any
    [EExec 0 None false; EFinish []; EExec 1 None false; EFinish [];
     EExec 1 None false; EUse Dynamic 2 0 7]); vm_compute; reflexivity|].
  split; [vm_compute; reflexivity|]. split; [vm_compute; reflexivity|]. split.
  - intros sym (u & v & [A B] & l & H & _). vm_compute in A. injection A as <-.
    vm_compute in B. injection B as <-. vm_compute in H. discriminate.
  - eexists. split; [vm_compute; reflexivity|simpl; auto].
Qed.
Print Assumptions C06_leftover_child_refuted.

(** * C07: renaming *)

(** Missing from the full property: parents recorded by superseded versions (refuted
    below). *)
Theorem C07_rename_partial : forall s old new u,
  session s None -> from_id s old = Ok u -> ~ In new (dkeys (cur s)) ->
  exists s', step s (ERename true true old new) = Ok s' /\
    from_id s' new = Ok u /\ from_id s' old = Err KeyError /\
    same_graph_renamed s s' old new /\ same_versions_renamed s s' old new /\
    (forall x c p sym, lists_parent s' x c p sym -> exists w, from_id s' p = Ok w).
Proof.
  intros s old new u S F N. apply session_inv in S. apply from_id_Ok in F as D.
  destruct (rename_view s old new u S D N) as (s' & E & W & G & V).
  exists s'. pose proof V as (_ & _ & V3 & _).
  split; [simpl; rewrite F; exact E|].
  split. { apply from_id_Ok, V3. exists old. now rewrite rename_id_old. }
  split.
  { unfold from_id. destruct (dget (cur s') old) eqn:Q; [|reflexivity]. exfalso.
    apply V3 in Q. destruct Q as (i0 & A & B). unfold rename_id in A.
    destruct (Nat.eqb_spec i0 old); [|congruence].
    subst new. apply N. subst i0. eapply dget_Some_key; eauto. }
  split; [exact G|]. split; [exact V|].
  assert (R : step s (ERename true true old new) = Ok s') by (simpl; rewrite F; exact E).
  apply rename_inv in R; auto.
  intros x c p sym H. apply (i_up _ _ (proj1 R)) in H. apply (i_keys _ _ (proj1 R)) in H.
  destruct H as (_ & H & _). apply key_dget in H. destruct H as [w H]. exists w.
  now apply from_id_Ok.
Qed.
Print Assumptions C07_rename_partial.

Example C07_example : exists s s',
  session s None /\ from_id s 1 = Ok 2 /\ step s (ERename true true 1 11) = Ok s' /\
  lists_parent s Dynamic 1 0 8 /\ lists_parent s' Dynamic 11 0 8 /\
  lists_parent s Static 4 1 99 /\ lists_parent s' Static 4 11 99.
Proof.
  eexists. eexists.
  split; [apply (srun_session (firstn 13 demo)); vm_compute; reflexivity|].
  split; [vm_compute; reflexivity|]. split; [vm_compute; reflexivity|].
  repeat split.
  - exists 2. eexists. split; [split; vm_compute; reflexivity|].
    eexists. split; [vm_compute; reflexivity|simpl; auto].
  - exists 2. eexists. split; [split; vm_compute; reflexivity|].
    eexists. split; [vm_compute; reflexivity|simpl; auto].
  - exists 3. eexists. split; [split; vm_compute; reflexivity|].
    eexists. split; [vm_compute; reflexivity|simpl; auto].
  - exists 3. eexists. split; [split; vm_compute; reflexivity|].
    eexists. split; [vm_compute; reflexivity|simpl; auto].
Qed.

(** A superseded version keeps the old id of a renamed parent, which then resolves to
    nothing. *)
Theorem C07_superseded_version_refuted : exists s s' v,
  session s None /\ step s (ERename true true 0 9) = Ok s' /\
  nth_error (heap s') 1 = Some v /\ has (c_par v Dynamic) 0 7 /\
  from_id s' 0 = Err KeyError.
Proof.
  eexists. eexists. eexists.
  split; [apply (srun_session
    [EExec 0 None true; EFinish [];
     EExec 1 None false; EUse Dynamic 1 0 7; EFinish [];
     EExec 1 None false; EFinish []]); vm_compute; reflexivity|].
  split; [vm_compute; reflexivity|]. split; [vm_compute; reflexivity|]. split.
  - eexists. split; [vm_compute; reflexivity|simpl; auto].
  - vm_compute. reflexivity.
Qed.
Print Assumptions C07_superseded_version_refuted.

(** * C15: the registry *)

(** Missing from the full property: histories with a counter fix-up that goes backwards
    (refuted below). *)
Theorem C15_registry_partial : forall l s r,
  history restricted l s r ->
  presents s (fst (log_after l)) /\ counter s = snd (log_after l).
Proof.
  intros l s r H. rewrite (history_log _ _ _ H). split; [|reflexivity].
  apply WF_presents. apply history_inv in H. apply H.
Qed.
Print Assumptions C15_registry_partial.

Theorem C15_counter_monotone_partial : forall l s r e s' r',
  history restricted l s r -> history restricted (l ++ [e]) s' r' ->
  (counter s <= counter s')%Z.
Proof.
  intros l s r e s' r' H G. pose proof (history_log _ _ _ H) as A.
  pose proof (history_log _ _ _ G) as B. 
  inversion G as [E|l0 s0 r0 e0 s1 r1 H0 B0 R0 S0 E]; [destruct l; discriminate|].
  apply app_inj_tail in E. destruct E as [-> ->]. subst.
  pose proof (history_log _ _ _ H0) as A0.
  unfold log_after in B. rewrite fold_left_app in B. simpl in B. fold (log_after l) in B.
  assert (C0 : counter s = counter s0) by congruence.
  rewrite A0 in B. simpl in B.
  destruct e; simpl in B; injection B as B1 B2; rewrite C0; try lia.
  simpl in R0. destruct fixup as [n|]; [|lia]. specialize (R0 n eq_refl). lia.
Qed.
Print Assumptions C15_counter_monotone_partial.

Example C15_example : exists s,
  history restricted demo s None /\
  log_after demo = ([(0, 1%Z); (11, 2%Z); (11, 3%Z); (4, (-1)%Z); (11, 4%Z)], 4%Z).
Proof.
  eexists. split; [|reflexivity].
  apply (srun_sound_gen true restricted restrictedb_sound demo [] sess_init None);
    [constructor|vm_compute; reflexivity].
Qed.

(** Cell 0 runs, runs again with [store_history=False] (which advances ipyflow's counter but
    not IPython's), and runs a third time: the counter is set back to 2, and the
    third run is not the current version. *)
Theorem C15_refuted : exists l s,
  history (fun _ _ _ => True) l s None /\
  latest (fst (log_after l)) (length (heap s)) 0 2 /\ from_id s 0 = Ok 1 /\
  at_counter s 2 = Ok 2 /\ nth_error (fst (log_after l)) 1 = Some (0, 2%Z).
Proof.
  eexists. eexists. split.
  - apply (srun_sound_gen false (fun _ _ _ => True) (fun _ _ _ _ => I)
      [EExec 0 None false; EFinish []; EExec 0 None false; EFinish [];
       EExec 0 (Some 2%Z) false; EFinish []] [] sess_init None); [constructor|].
    vm_compute. reflexivity.
  - split; [|repeat split; vm_compute; reflexivity].
    split; [vm_compute; lia|]. split; [exists 2%Z; reflexivity|].
    intros u' e R. vm_compute in R. lia.
Qed.
Print Assumptions C15_refuted.
