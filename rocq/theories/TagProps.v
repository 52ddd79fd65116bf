(** C35: the index of tags. *)
Require Import List Arith Bool Lia.
Import ListNotations.
Require Import Verif.Base Verif.Loops Verif.TagModel Verif.TagSpec Verif.TagProofs.

(** C35: after any history, [from_tag] returns exactly the current cells that carry the tag, each once.
    Missing, each refuted below: tags are removed, older versions of a cell are tagged, a cell that has tags gets
    another id, a cell gets the id of another cell, the counter is taken back. *)
Theorem C35_exact_partial : forall hash xs s,
  always (fun s x => grows s x /\ fresh s x /\ plain s x) hash xs start -> run hash xs start = Ok s -> exact s.
Proof. apply run_exact. Qed.
Print Assumptions C35_exact_partial.
Definition pair_hash (id : nat) (ctr : option nat) : nat := match ctr with Some n => 2 * id + n | None => id end.
Definition history : list op :=
  [Exec 1 [7] None; Exec 2 [8] None; Tag 7 false None; Untracked 5; Exec 1 [9] None; Rename 5 6; Tag 3 true (Some 2);
   Exec 6 [] (Some 5); Tag 8 false None].
Ltac tame := match goal with
  | |- True => exact Logic.I
  | |- ~ carries _ _ _ => let c := fresh in let E := fresh in let T := fresh in
      intros (c & E & T); cbv in E; injection E as <-; cbv in T; intuition discriminate
  | |- _ /\ _ => split
  | |- current _ _ => eexists; split; reflexivity
  | |- forall s', do _ _ _ = Ok s' -> _ => let s := fresh in let E := fresh in intros s E; cbv in E; injection E as <-; cbn [always]
  | |- grows _ _ => cbn; auto; lia
  | |- fresh _ _ => cbn; auto
  | |- plain _ (Tag _ _ _) => cbn; let s := fresh in let E := fresh in intros s E; cbv in E; injection E as <-
  | |- plain _ (Rename _ _) => cbn; let s := fresh in let t := fresh in let E := fresh in intros s t E; cbv in E; injection E as <-
  | |- plain _ _ => exact Logic.I
  end.
Example C35_exact_case :
  always (fun s x => grows s x /\ fresh s x /\ plain s x) pair_hash history start /\
  exists s, run pair_hash history start = Ok s /\ from_tag 7 s = [1; 3] /\ from_tag 8 s = [1; 4] /\ from_tag 9 s = [3].
Proof.
  split; [|eexists; split; [vm_compute; reflexivity|]; repeat split; vm_compute; reflexivity].
  unfold history. cbn [always]. repeat tame.
Qed.

(** Whatever else happens: while counters grow, every current cell that carries the tag is returned. *)
Theorem C35_found_partial : forall hash xs s o t,
  always grows hash xs start -> run hash xs start = Ok s -> current s o -> carries s o t -> In o (from_tag t s).
Proof.
  intros hash xs s o t A R (c & C & D) (c' & C' & T). destruct (run_found _ _ _ A R) as [G F].
  assert (c = c') by congruence. subst c'. destruct (F _ _ _ _ D C T) as (h & H). apply in_map_iff. exists (h, o). auto.
Qed.
Print Assumptions C35_found_partial.
Definition wild : list op :=
  [Exec 1 [7] None; Rename 1 2; Exec 2 [] None; Tag 8 false None; Tag 7 true (Some 1); Tag 8 true None; Tag 8 false None].
Example C35_found_case : always grows pair_hash wild start /\
  exists s, run pair_hash wild start = Ok s /\ current s 1 /\ carries s 1 8 /\ carries s 1 7 /\ ~ current s 0.
Proof.
  split; [unfold wild; cbn [always]; repeat tame|].
  eexists. split; [vm_compute; reflexivity|]. split; [eexists; split; reflexivity|]. split; [eexists; split; [reflexivity|]; simpl; auto|].
  split; [eexists; split; [reflexivity|]; simpl; auto|]. intros (c & C & D). cbn in C. injection C as <-. discriminate.
Qed.

(** With no condition at all: a cell is returned for a tag only if it has carried the tag at some time. *)
Theorem C35_only_given : forall hash xs s o t,
  run hash xs start = Ok s -> In o (from_tag t s) ->
  exists ys zs s1, xs = ys ++ zs /\ run hash ys start = Ok s1 /\ carries s1 o t.
Proof.
  intros hash xs. induction xs as [|x xs IH] using rev_ind; intros s o t R I.
  - injection R as <-. destruct I.
  - destruct (run_snoc _ _ _ _ _ R) as (s1 & R1 & D). destruct (index_step _ _ _ _ _ _ D I) as [J|J].
    + destruct (IH _ _ _ R1 J) as (ys & zs & s2 & -> & E & K). exists ys, (zs ++ [x]), s2. rewrite app_assoc. auto.
    + exists (xs ++ [x]), [], s. rewrite app_nil_r. auto.
Qed.
Print Assumptions C35_only_given.
Example C35_only_given_case : exists s, run pair_hash wild start = Ok s /\ In 0 (from_tag 7 s).
Proof. eexists. split; [vm_compute; reflexivity|]. simpl. auto. Qed.

(** Executing a cell again: it carries the tags of the request and those that it carried before. *)
Theorem C35_inherit_partial : forall hash xs s id tags actual s',
  always grows hash xs start -> run hash xs start = Ok s ->
  grows s (Exec id tags actual) -> do hash (Exec id tags actual) s = Ok s' ->
  exists o, dget (cur s') id = Some o /\ current s' o /\
    forall t, carries s' o t <-> In t tags \/ exists p, dget (cur s) id = Some p /\ carries s p t.
Proof.
  intros hash xs s id tags actual s' A R W H. pose proof (run_good _ _ _ A R) as G.
  exists (length (objs s)). cbn [do] in H. destruct (dget (cur s) id) as [p|] eqn:D.
  - destruct (exec_again _ _ _ _ _ _ _ G W D H) as (pc & P & I & ->). simpl. split; [apply dget_dset_same|].
    split; [eexists; simpl; rewrite nth_error_snoc, Nat.eqb_refl; split; [reflexivity|]; apply dget_dset_same|].
    intros t. unfold carries. simpl. rewrite nth_error_snoc, Nat.eqb_refl. split.
    + intros (c & C & T). injection C as <-. simpl in T. apply In_supd in T. destruct T; auto. right. exists p. eauto.
    + intros T. eexists. split; [reflexivity|]. simpl. apply In_supd. destruct T as [T|(q & Q & c & C & T)]; auto.
      right. congruence.
  - rewrite (exec_first _ _ _ _ _ _ D H). simpl. split; [apply dget_dset_same|].
    split; [eexists; simpl; rewrite nth_error_snoc, Nat.eqb_refl; split; [reflexivity|]; apply dget_dset_same|].
    intros t. unfold carries. simpl. rewrite nth_error_snoc, Nat.eqb_refl. split.
    + intros (c & C & T). injection C as <-. auto.
    + intros [T|(q & Q & _)]; [|discriminate]. eexists. split; [reflexivity|]. auto.
Qed.
Print Assumptions C35_inherit_partial.
Example C35_inherit_case : exists s s', run pair_hash history start = Ok s /\ grows s (Exec 1 [4] (Some 8)) /\
  do pair_hash (Exec 1 [4] (Some 8)) s = Ok s' /\ from_tag 4 s' = [5] /\ from_tag 7 s' = [1; 5] /\ from_tag 9 s' = [5].
Proof. do 2 eexists. split; [vm_compute; reflexivity|]. split; [simpl; lia|]. split; [vm_compute; reflexivity|]. repeat split; reflexivity. Qed.

(** Executing, noticing and renaming cells raises nothing. *)
Theorem C35_total_partial : forall hash xs s,
  always grows hash xs start -> run hash xs start = Ok s ->
  (forall id tags actual, exists s', do hash (Exec id tags actual) s = Ok s') /\
  (forall id, exists s', do hash (Untracked id) s = Ok s') /\
  (forall old new, exists s', do hash (Rename old new) s = Ok s').
Proof.
  intros hash xs s A R. pose proof (run_good _ _ _ A R) as G. split; [|split].
  - intros id tags actual. cbn [do]. unfold create. destruct (dget (cur s) id) as [p|] eqn:D; eauto.
    destruct (g_cur _ G _ _ D) as (pc & P & _). unfold deref. rewrite P. cbn [of_option rbind]. eauto.
  - intros id. cbn [do]. destruct (dget (cur s) id) eqn:D; eauto. unfold create. rewrite D. eauto.
  - intros old new. cbn [do]. destruct (dget (cur s) old) as [o|] eqn:D; eauto.
    destruct (g_cur _ G _ _ D) as (c & C & I). unfold update_id, deref. rewrite C. cbn [of_option rbind].
    destruct (chain_total (Datatypes.S (length (objs s))) o new (objs s)) as (os & O).
    { apply G. } { eapply cur_lt; eauto. } { pose proof (cur_lt _ _ _ G D). lia. }
    rewrite O. cbn [rbind]. rewrite I, D, Nat.eqb_refl. cbn [rbind]. eauto.
Qed.
Print Assumptions C35_total_partial.
Example C35_total_case : exists s, run pair_hash wild start = Ok s /\ dget (cur s) 2 = Some 1.
Proof. eexists. split; [vm_compute; reflexivity|]. reflexivity. Qed.

(** Cells that are reactive for a tag: exactly the ids of the current cells that are marked. *)
Theorem C35_reactive_partial : forall hash xs s t id,
  always (fun s x => grows s x /\ fresh s x) hash xs start -> run hash xs start = Ok s ->
  (In id (reactive_ids t s) <-> exists o, dget (cur s) id = Some o /\ marked s o t).
Proof.
  intros hash xs s t id A R. destruct (run_react _ _ _ A R) as [G [Q _]]. unfold reactive_ids. rewrite Q.
  unfold marked. split.
  - intros (o & c & D & C & T). exists o. split; auto. exists c. auto.
  - intros (o & D & c & C & T). exists o, c. auto.
Qed.
Print Assumptions C35_reactive_partial.
(** The cells that are forced to react when a cell was executed: those marked for one of its tags. *)
Theorem C35_forced_partial : forall hash xs s id l,
  always (fun s x => grows s x /\ fresh s x) hash xs start -> run hash xs start = Ok s -> forced id s = Ok l ->
  forall k, In k l <-> exists o t p, dget (cur s) id = Some o /\ carries s o t /\ dget (cur s) k = Some p /\ marked s p t.
Proof.
  intros hash xs s id l A R F k. unfold forced in F. apply rbind_Ok in F. destruct F as (o & O & F).
  apply of_option_Ok in O. apply rmap_Ok in F. destruct F as (c & C & <-). apply of_option_Ok in C.
  rewrite In_forced. split.
  - intros [[]|(t & T & K)]. apply (C35_reactive_partial _ _ _ t k A R) in K. destruct K as (p & P & M).
    exists o, t, p. split; auto. split; [exists c; auto|]. auto.
  - intros (o' & t & p & O' & (c' & C' & T) & P & M). right. exists t. split; [congruence|].
    apply (C35_reactive_partial _ _ _ t k A R). eauto.
Qed.
Print Assumptions C35_forced_partial.
Definition marks : list op :=
  [Exec 1 [] None; Mark 7; Exec 2 [] None; Mark 7; Mark 8; Rename 1 4; Exec 2 [] None; Exec 3 [7; 8] None].
Example C35_reactive_case : always (fun s x => grows s x /\ fresh s x) pair_hash marks start /\
  exists s, run pair_hash marks start = Ok s /\ reactive_ids 7 s = [4] /\ reactive_ids 8 s = [] /\ forced 3 s = Ok [4].
Proof.
  split; [unfold marks; cbn [always]; repeat tame|]. eexists. split; [vm_compute; reflexivity|]. repeat split; reflexivity.
Qed.

(** Removing a tag never takes the cell out of the index, whatever cell, tag and history. *)
Theorem C35_remove_refuted : forall hash t cell s s1 s2 o,
  target cell s = Ok o -> do hash (Tag t false cell) s = Ok s1 -> do hash (Tag t true cell) s1 = Ok s2 ->
  In o (from_tag t s2) /\ ~ carries s2 o t.
Proof.
  intros hash t cell s s1 s2 o O H1 H2. cbn [do] in *. unfold tag in H1, H2.
  rewrite O in H1. cbn [rbind] in H1. apply rbind_Ok in H1. destruct H1 as (c & C & H1). apply of_option_Ok in C.
  injection H1 as <-. assert (O' : target cell (mkSt (lset (objs s) o (set_tags (sadd t (c_tags c)) c)) (cur s) (byctr s)
    (counter s) (index_add hash o c (index s) t) (rindex s)) = Ok o) by exact O.
  rewrite O' in H2. cbn [rbind] in H2. apply rbind_Ok in H2. destruct H2 as (d & D & H2). apply of_option_Ok in D.
  cbn [objs] in D. rewrite (nth_lset_same _ _ _ _ C) in D. injection D as <-. injection H2 as <-. split.
  - apply in_map_iff. exists (hash_of hash c, o). split; auto. cbn [index with_objs]. unfold index_add.
    rewrite at_tag_dset, Nat.eqb_refl. apply In_hadd. auto.
  - intros (d & D & T). cbn [objs with_objs] in D. erewrite nth_lset_same in D by (eapply nth_lset_same; eauto).
    injection D as <-. cbn [c_tags set_tags] in T. apply In_sdiff in T. destruct T as [_ T]. apply T. left. auto.
Qed.
Print Assumptions C35_remove_refuted.
Example C35_remove_case : exists s s1 s2, run pair_hash [Exec 1 [] None] start = Ok s /\ target None s = Ok 0 /\
  do pair_hash (Tag 7 false None) s = Ok s1 /\ do pair_hash (Tag 7 true None) s1 = Ok s2.
Proof. do 3 eexists. repeat split; reflexivity. Qed.

(** Renaming a cell that has a tag and executing it again leaves the old version in the index: the set still
    has it under its old hash. *)
Theorem C35_rename_refuted : forall hash, hash 1 (Some 1) <> hash 2 (Some 1) ->
  exists s, run hash [Exec 1 [7] None; Rename 1 2; Exec 2 [7] None] start = Ok s /\
    In 0 (from_tag 7 s) /\ ~ current s 0 /\ current s 1.
Proof.
  intros hash N. eexists. split; [reflexivity|]. split.
  - apply in_map_iff. exists (hash 1 (Some 1), 0). split; auto. cbn [index].
    apply In_index_add. left. apply In_index_discard. split; [cbn; auto|]. intros [_ E]. injection E. exact N.
  - split; [intros (c & C & D); cbn in C; injection C as <-; discriminate|]. eexists. split; reflexivity.
Qed.
Print Assumptions C35_rename_refuted.
(** Tagging it after the renaming puts it into the set a second time. *)
Theorem C35_twice_refuted : forall hash, hash 1 (Some 1) <> hash 2 (Some 1) ->
  exists s, run hash [Exec 1 [7] None; Rename 1 2; Tag 7 false None] start = Ok s /\ from_tag 7 s = [0; 0].
Proof.
  intros hash N. eexists. split; [reflexivity|]. unfold from_tag. cbn. unfold hadd, same, hash_of. cbn.
  destruct (Nat.eqb_spec (hash 1 (Some 1)) (hash 2 (Some 1))); [congruence|]. reflexivity.
Qed.
Print Assumptions C35_twice_refuted.
Example C35_rename_case : pair_hash 1 (Some 1) <> pair_hash 2 (Some 1).
Proof. discriminate. Qed.

(** A cell that gets the id of another cell replaces it, but not in the index. *)
Theorem C35_replace_refuted : forall hash, exists s, run hash [Exec 1 [7] None; Exec 2 [] None; Rename 2 1] start = Ok s /\
  from_tag 7 s = [0] /\ ~ current s 0 /\ current s 1 /\ ~ carries s 1 7.
Proof.
  intros hash. eexists. split; [reflexivity|]. split; [reflexivity|].
  split; [intros (c & C & D); cbn in C; injection C as <-; discriminate|].
  split; [eexists; split; reflexivity|]. intros (c & C & D); cbn in C; injection C as <-; destruct D.
Qed.
Print Assumptions C35_replace_refuted.
(** An older version of a cell can be tagged, and is then returned. *)
Theorem C35_old_version_refuted : forall hash, exists s,
  run hash [Exec 1 [] None; Exec 1 [] None; Tag 7 false (Some 1)] start = Ok s /\ from_tag 7 s = [0] /\ ~ current s 0.
Proof.
  intros hash. eexists. split; [reflexivity|]. split; [reflexivity|].
  intros (c & C & D); cbn in C; injection C as <-; discriminate.
Qed.
Print Assumptions C35_old_version_refuted.
(** If the counter is taken back, the current cell with the tag is not returned, but a cell that is not current. *)
Theorem C35_counter_refuted : forall hash, exists s,
  run hash [Exec 1 [7] None; Exec 1 [] (Some 1)] start = Ok s /\ from_tag 7 s = [1] /\ current s 0 /\ carries s 0 7 /\ ~ current s 1.
Proof.
  intros hash. eexists. split; [reflexivity|]. split.
  { unfold from_tag. cbn. unfold hdiscard, same, hash_of. cbn. rewrite Nat.eqb_refl. reflexivity. }
  split; [eexists; split; reflexivity|]. split; [eexists; split; [reflexivity|]; simpl; auto|].
  intros (c & C & D); cbn in C; injection C as <-; discriminate.
Qed.
Print Assumptions C35_counter_refuted.
(** A replaced cell stays reactive under its id. *)
Theorem C35_reactive_refuted : forall hash, exists s,
  run hash [Exec 1 [] None; Mark 7; Exec 2 [] None; Rename 2 1] start = Ok s /\
  reactive_ids 7 s = [1] /\ dget (cur s) 1 = Some 1 /\ ~ marked s 1 7.
Proof.
  intros hash. eexists. split; [reflexivity|]. split; [reflexivity|]. split; [reflexivity|].
  intros (c & C & D); cbn in C; injection C as <-; destruct D.
Qed.
Print Assumptions C35_reactive_refuted.
