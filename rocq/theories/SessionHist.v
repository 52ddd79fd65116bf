(** Every reachable session satisfies the invariant. *)
Require Import List ZArith Bool Arith Lia.
Import ListNotations.
Require Import Verif.Base Verif.SessionModel Verif.SessionSpec Verif.SessionProofs
  Verif.SessionInv.

Lemma Inv_init : Inv sess_init None.
Proof.
  split; [|intros x c p sym R; discriminate].
  constructor.
  - assert (N : forall u v, nth_error (heap sess_init) u = Some v -> False)
      by (intros [|u] v; discriminate).
    constructor.
    + apply dwf_nil.
    + discriminate.
    + intros u v H. destruct (N _ _ H).
    + intros u v H. destruct (N _ _ H).
    + intros u v x H. destruct (N _ _ H).
    + intros x. apply dwf_nil.
    + intros x i. apply ewf_nil.
    + simpl. lia.
    + intros u v H. destruct (N _ _ H).
    + intros u v u' v' H. destruct (N _ _ H).
    + intros k u. split; [discriminate|]. intros (v & H & _). destruct (N _ _ H).
  - intros x c p sym (u & v & [H _] & _). discriminate.
  - intros x c p sym H. now apply has_nil in H.
  - intros x c p sym H. now apply has_nil in H.
  - intros x p c a b H. now apply has_nil in H.
  - discriminate.
Qed.

(** ** A new version *)

Section NewVersion.
  Variables (s : sess) (i : nat) (ctr' : Z) (counter' : Z) (prev : option nat)
            (hist : list Z) (ph : bool).
  Let u := length (heap s).
  Let cell := mkCell i ctr' prev hist ph (fun _ => []).
  Let s' := mkSess (heap s ++ [cell]) (dset (cur s) i u)
                   (if (-1 <? ctr')%Z then zset (by_ctr s) ctr' u else by_ctr s)
                   counter' (ch s).

  Hypothesis W : WF s.
  Hypothesis Hprev : prev = dget (cur s) i.
  Hypothesis Hhist : hist =
    match prev with
    | Some w => match nth_error (heap s) w with
                | Some pv => c_history pv ++ [ctr']
                | None => []
                end
    | None => if (-1 <? ctr')%Z then [ctr'] else []
    end.
  Hypothesis Hctr :
    (ctr' = counter' /\ (counter s < counter')%Z) \/
    (ctr' = (-1)%Z /\ counter' = counter s /\ prev = None).

  Lemma new_heap w : nth_error (heap s') w =
    if Nat.eqb w u then Some cell else nth_error (heap s) w.
  Proof. apply nth_error_snoc. Qed.

  Lemma old_lt w v : nth_error (heap s) w = Some v -> w < u.
  Proof. intros H. apply nth_error_Some. congruence. Qed.

  Lemma WF_new : WF s'.
  Proof.
    assert (HC : (0 <= counter')%Z) by (pose proof (wf_counter _ W); lia).
    constructor.
    - simpl. apply dwf_dset, W.
    - intros j w. simpl. rewrite dget_dset. destruct (Nat.eqb_spec j i).
      + intros [= <-]. subst j. exists cell. repeat split; auto.
        * rewrite nth_error_snoc. fold u. now rewrite Nat.eqb_refl.
        * intros u' v' H _. assert (u' < length (heap s ++ [cell])).
          { apply nth_error_Some. congruence. } rewrite app_length in H0. simpl in H0.
          fold u in H0. lia.
      + intros H. destruct (wf_last _ W _ _ H) as (v & A & B & D).
        exists v. repeat split; auto.
        * rewrite nth_error_snoc. fold u. apply old_lt in A as A'.
          destruct (Nat.eqb_spec w u); [lia|auto].
        * intros u' v'. rewrite nth_error_snoc. fold u.
          destruct (Nat.eqb_spec u' u).
          -- intros [= <-]. simpl. congruence.
          -- apply D.
    - intros w v. rewrite new_heap. simpl. rewrite dkeys_dset_In.
      destruct (Nat.eqb_spec w u).
      + intros [= <-]. auto.
      + intros H. right. eapply wf_known; eauto.
    - intros w v. rewrite new_heap. destruct (Nat.eqb_spec w u).
      + intros [= <-]. simpl. subst w. rewrite Hprev.
        destruct (dget (cur s) i) as [p|] eqn:P.
        * destruct (wf_last _ W _ _ P) as (pv & A & B & D).
          split; [eapply old_lt; eauto|]. split.
          -- exists pv. rewrite nth_error_snoc. fold u. apply old_lt in A as A'.
             destruct (Nat.eqb_spec p u); [lia|]. repeat split; auto.
             ++ rewrite Hhist, Hprev. now rewrite A.
             ++ destruct Hctr as [[-> H]|(_ & _ & H)]; [|congruence].
                pose proof (wf_counter _ W). lia.
          -- intros w' pv' R. rewrite nth_error_snoc. fold u.
             destruct (Nat.eqb_spec w' u); [lia|]. intros H E.
             specialize (D _ _ H E). lia.
        * split; [now rewrite Hhist, Hprev|].
          intros w' pv' R. rewrite nth_error_snoc. fold u.
          destruct (Nat.eqb_spec w' u); [lia|]. intros H E.
          apply dget_None in P. apply P. rewrite <- E. eapply wf_known; eauto.
      + intros H. pose proof (wf_prev _ W _ _ H) as Q. apply old_lt in H as H'.
        destruct (c_prev v) as [p|].
        * destruct Q as (Q1 & (pv & Q2 & Q3) & Q4). split; auto. split.
          -- exists pv. rewrite new_heap. destruct (Nat.eqb_spec p u); [lia|auto].
          -- intros w' pv' R. rewrite new_heap.
             destruct (Nat.eqb_spec w' u); [lia|]. apply Q4; auto.
        * destruct Q as [Q1 Q2]. split; auto.
          intros w' pv' R. rewrite new_heap.
          destruct (Nat.eqb_spec w' u); [lia|]. apply Q2; auto.
    - intros w v x. rewrite new_heap. destruct (Nat.eqb_spec w u).
      + intros [= <-]. apply ewf_nil.
      + eapply wf_par; eauto.
    - apply W.
    - apply W.
    - simpl. auto.
    - intros w v. rewrite new_heap. destruct (Nat.eqb_spec w u).
      + intros [= <-]. simpl. pose proof (wf_counter _ W). lia.
      + intros H. apply (wf_ctr_le _ W) in H. simpl. lia.
    - intros a va b vb. rewrite !new_heap.
      destruct (Nat.eqb_spec a u), (Nat.eqb_spec b u); subst; try lia.
      + intros _ H L. apply old_lt in H. lia.
      + intros H [= <-] L G. simpl in *. apply (wf_ctr_le _ W) in H. lia.
      + eapply wf_ctr_lt; eauto.
    - intros k w. simpl. rewrite nth_error_snoc. fold u. split.
      + destruct (Z.ltb_spec (-1) ctr').
        * rewrite zget_zset. destruct (Z.eqb_spec k ctr').
          -- intros [= <-]. rewrite Nat.eqb_refl. exists cell. subst. auto.
          -- intros H1. apply (wf_by _ W) in H1. destruct H1 as (v & A & B & D).
             apply old_lt in A as A'. destruct (Nat.eqb_spec w u); [lia|]. exists v; auto.
        * intros H1. apply (wf_by _ W) in H1. destruct H1 as (v & A & B & D).
          apply old_lt in A as A'. destruct (Nat.eqb_spec w u); [lia|]. exists v; auto.
      + intros (v & A & B & D). destruct (Nat.eqb_spec w u).
        * injection A as <-. simpl in B. subst. apply Z.ltb_lt in D. rewrite D.
          rewrite zget_zset, Z.eqb_refl. auto.
        * assert (G : zget (by_ctr s) k = Some w) by (apply (wf_by _ W); eauto).
          destruct (Z.ltb_spec (-1) ctr'); auto.
          rewrite zget_zset. destruct (Z.eqb_spec k ctr'); auto.
          apply (wf_ctr_le _ W) in A. lia.
  Qed.

  Lemma current_new j w v :
    current s' j w v <-> (j = i /\ w = u /\ v = cell) \/ (j <> i /\ current s j w v).
  Proof.
    unfold current. rewrite new_heap. simpl. rewrite dget_dset.
    destruct (Nat.eqb_spec j i).
    - split.
      + intros [[= <-] B]. rewrite Nat.eqb_refl in B. injection B as <-. auto.
      + intros [(-> & -> & ->)|[? _]]; [|congruence]. rewrite Nat.eqb_refl. auto.
    - split.
      + intros [A B]. right. split; auto. split; auto.
        destruct (wf_last _ W _ _ A) as (v' & A' & _). apply old_lt in A' as L.
        destruct (Nat.eqb_spec w u); [lia|auto].
      + intros [[? _]|[_ [A B]]]; [congruence|]. split; auto.
        apply old_lt in B as L. destruct (Nat.eqb_spec w u); [lia|auto].
  Qed.

  Lemma parent_new x j p sym :
    lists_parent s' x j p sym <-> j <> i /\ lists_parent s x j p sym.
  Proof.
    split.
    - intros (w & v & A & B). apply current_new in A.
      destruct A as [(-> & -> & ->)|[N A]].
      + simpl in B. now apply has_nil in B.
      + split; auto. exists w, v; auto.
    - intros (N & w & v & A & B). exists w, v. split; auto. apply current_new; auto.
  Qed.

  Lemma prev_new x j p sym :
    prev_lists s' x j p sym <->
    (j = i /\ lists_parent s x i p sym) \/ (j <> i /\ prev_lists s x j p sym).
  Proof.
    split.
    - intros (w & v & q & pv & A & B & D & E). apply current_new in A.
      rewrite new_heap in D. destruct A as [(-> & -> & ->)|[N A]].
      + left. split; auto. simpl in B. rewrite Hprev in B.
        destruct (wf_last _ W _ _ B) as (pv' & F & _). apply old_lt in F as L.
        destruct (Nat.eqb_spec q u); [lia|]. exists q, pv. split; auto. split; auto.
      + right. split; auto.
        destruct (Nat.eqb_spec q u).
        * subst q. injection D as <-. simpl in E. now apply has_nil in E.
        * exists w, v, q, pv; auto.
    - intros [(-> & q & v & [A B] & D)|(N & w & v & q & pv & A & B & D & E)].
      + exists u, cell, q, v. split; [apply current_new; auto|]. simpl. split; [congruence|].
        split; auto. rewrite nth_error_snoc. apply old_lt in B as L. fold u.
        destruct (Nat.eqb_spec q u); [lia|auto].
      + exists w, v, q, pv. split; [apply current_new; auto|]. split; auto. split; auto.
        rewrite new_heap. apply old_lt in D as L. destruct (Nat.eqb_spec q u); [lia|auto].
  Qed.

  Lemma child_new x p c sym : lists_child s' x p c sym <-> lists_child s x p c sym.
  Proof. reflexivity. Qed.
End NewVersion.

Lemma exec_inv s i fixup ph s' :
  Inv s None -> (forall n, fixup = Some n -> (counter s < n)%Z) ->
  step s (EExec i fixup ph) = Ok s' -> Inv s' (Some i).
Proof.
  intros [I _] FX. simpl. unfold create_and_track.
  pose proof (i_wf _ _ I) as W. pose proof (wf_counter _ W) as CP.
  set (counter' := match fixup with Some n => n | None => (counter s + 1)%Z end).
  assert (CL : (counter s < counter')%Z).
  { unfold counter'. destruct fixup; [auto|lia]. }
  assert (E1 : (counter' =? -1)%Z = false) by (apply Z.eqb_neq; lia).
  rewrite E1. simpl.
  assert (L1 : (-1 <? counter')%Z = true) by (apply Z.ltb_lt; lia).
  rewrite L1.
  remember (dget (cur s) i) as prev eqn:EP.
  set (hist := match prev with
    | Some w => match nth_error (heap s) w with
                | Some pv => c_history pv ++ [counter']
                | None => []
                end
    | None => if (-1 <? counter')%Z then [counter'] else []
    end).
  set (t := mkSess (heap s ++ [mkCell i counter' prev hist ph (fun _ => [])])
                   (dset (cur s) i (length (heap s)))
                   (if (-1 <? counter')%Z then zset (by_ctr s) counter' (length (heap s))
                    else by_ctr s) counter' (ch s)).
  assert (G : Inv t (Some i)).
  { assert (HC : (counter' = counter' /\ (counter s < counter')%Z) \/
                 (counter' = (-1)%Z /\ counter' = counter s /\ prev = None)) by auto.
    split.
    - constructor.
      + apply WF_new; auto.
      + intros x c p sym H. apply parent_new in H; auto. destruct H as [N H].
        apply (i_up _ _ I) in H. exact H.
      + intros x c p sym H. apply (i_down _ _ I) in H.
        destruct H as [H|[H _]]; [|discriminate].
        destruct (Nat.eq_dec c i) as [->|N].
        * right. split; auto. apply prev_new; auto.
        * left. apply parent_new; auto.
      + intros x p c sym H. apply (i_keys _ _ I) in H. simpl. rewrite !dkeys_dset_In.
        tauto.
      + intros x p c a b. apply (i_mutual _ _ I).
      + intros j [= <-]. eexists _, _. split.
        * apply current_new; auto.
        * simpl. rewrite L1, zget_zset, Z.eqb_refl. auto.
    - intros x c p sym [= <-] H. apply prev_new in H; auto.
      destruct H as [[_ H]|[N _]]; [|congruence]. apply (i_up _ _ I) in H. exact H. }
  destruct prev as [w|]; simpl.
  - symmetry in EP. destruct (wf_last _ W _ _ EP) as (pv & A & B & _).
    rewrite (proj2 (obj_Ok s w pv) A). simpl.
    assert (NW : (c_ctr pv <? counter')%Z = true).
    { apply Z.ltb_lt. apply (wf_ctr_le _ W) in A. lia. }
    rewrite NW. intros [= <-].
    unfold t, hist in G. rewrite A, L1 in G. exact G.
  - intros [= <-]. unfold t, hist in G. rewrite L1 in G. exact G.
Qed.

Lemma untracked_inv s r i s' :
  Inv s r -> step s (EUntracked i) = Ok s' -> Inv s' r.
Proof.
  intros [I P]. simpl. pose proof (i_wf _ _ I) as W.
  destruct (dget (cur s) i) as [w|] eqn:EP; [intros [= <-]; split; auto|].
  unfold create_and_track. rewrite EP. simpl. intros [= <-].
  set (t := mkSess _ _ _ _ _).
  assert (HC : ((-1)%Z = counter s /\ (counter s < counter s)%Z) \/
               ((-1)%Z = (-1)%Z /\ counter s = counter s /\ @None nat = None)) by auto.
  assert (Ni : ~ In i (dkeys (cur s))) by now apply dget_None.
  assert (NE : forall j u v, current s j u v -> j <> i).
  { intros j u v [A _] ->. congruence. }
  split.
  - constructor.
    + apply (WF_new s i (-1) (counter s) None [] false); auto.
    + intros x c p sym H.
      apply (parent_new s i (-1) (counter s) None [] false W) in H.
      destruct H as [_ H]. apply (i_up _ _ I) in H. exact H.
    + intros x c p sym H. apply (i_down _ _ I) in H.
      assert (N : c <> i).
      { destruct H as [(u & v & H & _)|[_ (u & v & w & pv & H & _)]]; eauto. }
      destruct H as [H|[R H]].
      * left. apply (parent_new s i (-1) (counter s) None [] false W). auto.
      * right. split; auto.
        apply (prev_new s i (-1) (counter s) None [] false W); auto.
    + intros x p c sym H. apply (i_keys _ _ I) in H. simpl. rewrite !dkeys_dset_In. tauto.
    + intros x p c a b. apply (i_mutual _ _ I).
    + intros j R. destruct (i_run _ _ I _ R) as (u & v & C & Z).
      exists u, v. split; auto.
      apply (current_new s i (-1) (counter s) None [] false W). right. split; eauto.
  - intros x c p sym R H.
    apply (prev_new s i (-1) (counter s) None [] false W) in H; auto.
    destruct H as [[-> H]|[_ H]].
    + destruct H as (u & v & C & _). apply NE in C. congruence.
    + apply P in H; auto.
Qed.

Lemma use_inv s r x u pu sym s' :
  Inv s r ->
  (is_self_use s u pu -> exists i v, r = Some i /\ current s i u v) ->
  step s (EUse x u pu sym) = Ok s' -> Inv s' r.
Proof.
  intros I SU. simpl. unfold add_data_dep.
  destruct (obj s u) as [c|] eqn:O1; simpl; [|discriminate].
  destruct (obj s pu) as [p|] eqn:O2; simpl; [|discriminate].
  apply obj_Ok in O1. apply obj_Ok in O2.
  destruct (is_current s u c) eqn:C1; simpl; [|intros [= <-]; auto].
  destruct (is_current s pu p) eqn:C2; simpl; [|intros [= <-]; auto].
  apply is_current_spec in C1; auto. apply is_current_spec in C2; auto.
  intros H.
  apply (add_parent_edges_inv s r x u pu [sym] s' (c_id c) c (c_id p) p) in H; auto;
    [apply H|].
  intros E. destruct SU as (i & v & -> & C); [exists c, p; auto|].
  pose proof (i_wf _ _ (proj1 I)) as W. f_equal. eapply current_inj; eauto.
Qed.

Lemma init_parents_inv fake l : forall s r s',
  Inv s r -> (forall c ps, In (c, ps) l -> ~ In c ps) ->
  init_parents s fake l = Ok s' -> Inv s' r.
Proof.
  unfold init_parents.
  induction l as [|[c ps] l IH]; intros s r s' I N; simpl.
  - intros [= <-]. auto.
  - assert (N' : forall c ps, In (c, ps) l -> ~ In c ps).
    { intros. apply N. right; auto. }
    destruct (dget (cur s) c) as [u|] eqn:D; [|apply IH; auto].
    assert (Q : forall qs t t', ~ In c qs -> Inv t r -> same_reg s t ->
      rfold (fun s p => match dget (cur s) p with
                        | None => Ok s
                        | Some pu => add_parent_edges s Static u pu [fake]
                        end) qs t = Ok t' -> Inv t' r).
    { induction qs as [|q qs IHq]; intros t t' Nq It SR; simpl; [intros [= <-]; auto|].
      destruct (dget (cur t) q) as [pu|] eqn:Dq; simpl.
      - destruct (add_parent_edges t Static u pu [fake]) as [t1|] eqn:A; simpl;
          [|discriminate].
        pose proof (i_wf _ _ (proj1 It)) as W.
        assert (Dc : dget (cur t) c = Some u) by (destruct SR as (-> & _); auto).
        destruct (wf_last _ W _ _ Dc) as (v & V1 & _).
        destruct (wf_last _ W _ _ Dq) as (pv & V2 & _).
        eapply add_parent_edges_inv with (i := c) (pi := q) in A; eauto.
        + destruct A as [It1 SR1]. apply IHq; auto.
          * intros H. apply Nq. right; auto.
          * eapply same_reg_trans; eauto.
        + split; eauto.
        + split; eauto.
        + intros <-. exfalso. apply Nq. left; auto.
      - apply IHq; auto. intros H. apply Nq. right; auto. }
    destruct (rfold _ ps s) as [t|] eqn:R; simpl; [|discriminate].
    apply Q in R; auto.
    + eapply IH; eauto.
    + apply (N c ps). left; auto.
    + apply same_reg_refl.
Qed.

Lemma replay_ctx_inv s i u c x v s' :
  Inv s (Some i) -> current s i u c -> c_par c x = [] ->
  replay_ctx s x u v = Ok s' -> Inv s' (Some i) /\ same_reg s s'.
Proof.
  intros I C E. unfold replay_ctx. pose proof C as [C1 C2].
  rewrite (proj2 (obj_Ok s u c) C2). simpl. rewrite E. simpl.
  destruct (obj s v) as [pc|]; simpl; [|discriminate].
  generalize (c_par pc x) as l.
  assert (Q : forall l t t', Inv t (Some i) -> same_reg s t ->
    rfold (fun s kv => rbind (from_id s (fst kv))
                         (fun pu => add_parent_edges s x u pu (snd kv))) l t = Ok t' ->
    Inv t' (Some i) /\ same_reg s t').
  { induction l as [|[k e] l IH]; intros t t' It SR; simpl; [intros [= <-]; auto|].
    destruct (from_id t k) as [pu|] eqn:F; simpl; [|discriminate].
    destruct (add_parent_edges t x u pu e) as [t1|] eqn:A; simpl; [|discriminate].
    apply from_id_Ok in F. pose proof (i_wf _ _ (proj1 It)) as W.
    destruct (wf_last _ W _ _ F) as (pv & V2 & _).
    destruct (same_current _ _ _ _ _ SR C) as (c' & C' & _).
    eapply add_parent_edges_inv with (i := i) (pi := k) in A; eauto.
    - destruct A as [It1 SR1]. apply IH; auto. eapply same_reg_trans; eauto.
    - split; eauto. }
  intros l H. eapply Q; eauto. apply same_reg_refl.
Qed.

(** Edges in the other context are not touched. *)
Lemma add_parent_edges_frame s x u pu syms s' :
  add_parent_edges s x u pu syms = Ok s' ->
  forall y w c, y <> x -> nth_error (heap s) w = Some c ->
  exists c', nth_error (heap s') w = Some c' /\ c_par c' y = c_par c y.
Proof.
  unfold add_parent_edges. destruct (is_nil syms).
  { intros [= <-] y w c N H. exists c; auto. }
  destruct (obj s u) as [c0|] eqn:O; simpl; [|discriminate].
  destruct (obj s pu) as [p|]; simpl; [|discriminate].
  apply obj_Ok in O.
  assert (K : forall e y w c, y <> x -> nth_error (heap s) w = Some c ->
    exists c', nth_error (heap (set_cell s u (with_par c0 x e))) w = Some c' /\
               c_par c' y = c_par c y).
  { intros e y w c N H. rewrite heap_set_cell by congruence.
    destruct (Nat.eqb_spec w u).
    - subst. rewrite O in H. injection H as <-. eexists; split; eauto. simpl.
      destruct (ctx_eqb_spec y x); congruence.
    - eauto. }
  destruct (dhas _ _). { intros [= <-] y w c N H. exists c; auto. }
  destruct (Nat.eqb _ _).
  - destruct (c_prev c0). 2:{ intros [= <-] y w c N H. exists c; auto. }
    destruct (obj s n); simpl; [|discriminate]. intros [= <-]. apply K.
  - intros [= <-]. apply K.
Qed.

Lemma replay_ctx_frame s x u v s' c :
  c_par c x = [] -> nth_error (heap s) u = Some c ->
  replay_ctx s x u v = Ok s' ->
  forall y w d, y <> x -> nth_error (heap s) w = Some d ->
  exists d', nth_error (heap s') w = Some d' /\ c_par d' y = c_par d y.
Proof.
  intros E O. unfold replay_ctx. rewrite (proj2 (obj_Ok s u c) O). simpl. rewrite E. simpl.
  destruct (obj s v) as [pc|]; simpl; [|discriminate].
  generalize (c_par pc x) as l. intros l. revert s O. induction l as [|[k e] l IH];
    intros s O; simpl.
  - intros [= <-]; eauto.
  - destruct (from_id s k); simpl; [|discriminate].
    destruct (add_parent_edges s x u a e) as [t|] eqn:A; simpl; [|discriminate].
    intros R y w d N H.
    destruct (add_parent_edges_frame _ _ _ _ _ _ A y w d N H) as (d' & H1 & H2).
    (* the fold does not need the parents of [u] to be empty *)
    assert (Q : forall l t t', 
      rfold (fun s kv => rbind (from_id s (fst kv))
               (fun pu => add_parent_edges s x u pu (snd kv))) l t = Ok t' ->
      forall w d, nth_error (heap t) w = Some d ->
      exists d', nth_error (heap t') w = Some d' /\ c_par d' y = c_par d y).
    { clear - N. induction l as [|[k e] l IH]; intros t t'; simpl; [intros [= <-]; eauto|].
      destruct (from_id t k); simpl; [|discriminate].
      destruct (add_parent_edges t x u a e) as [t1|] eqn:A; simpl; [|discriminate].
      intros R w d H.
      destruct (add_parent_edges_frame _ _ _ _ _ _ A y w d N H) as (d' & H1 & H2).
      destruct (IH _ _ R _ _ H1) as (d'' & H3 & H4). exists d''. split; congruence. }
    destruct (Q _ _ _ R _ _ H1) as (d'' & H3 & H4). exists d''. split; congruence.
Qed.

Lemma replay_inv s i u c v dyn stat s' :
  Inv s (Some i) -> current s i u c -> (forall x, c_par c x = []) ->
  step s (EReplay dyn stat v) = Ok s' -> Inv s' (Some i).
Proof.
  intros I C E. simpl.
  destruct (i_run _ _ (proj1 I) i eq_refl) as (u' & c' & C' & Z).
  destruct (current_fun _ _ _ _ _ _ C C') as [<- <-].
  rewrite (proj2 (at_counter_Ok _ _ _) Z). simpl. unfold replay.
  destruct dyn; simpl.
  - destruct (replay_ctx s Dynamic u v) as [s1|] eqn:R; simpl; [|discriminate].
    pose proof C as [Ca Cb].
    destruct (replay_ctx_frame _ _ _ _ _ _ (E Dynamic) Cb R Static u c)
      as (c1 & H1 & H2); auto; [discriminate|].
    destruct (replay_ctx_inv _ _ _ _ _ _ _ I C (E Dynamic) R) as [I1 SR1].
    destruct stat; [|intros [= <-]; auto].
    intros R2. eapply replay_ctx_inv in R2; [apply R2|auto| |].
    + split; [|eauto]. destruct SR1 as (-> & _). auto.
    + rewrite H2. auto.
  - destruct stat; [|intros [= <-]; auto].
    intros R2. eapply replay_ctx_inv in R2; [apply R2|auto|eauto|auto].
Qed.

Lemma untraced_inv s i u c s' :
  Inv s (Some i) -> current s i u c -> (forall x, c_par c x = []) ->
  step s EUntraced = Ok s' -> Inv s' None.
Proof.
  intros [I P] C E. simpl. pose proof (i_wf _ _ I) as W.
  destruct (i_run _ _ I i eq_refl) as (u' & c' & C' & Z).
  destruct (current_fun _ _ _ _ _ _ C C') as [<- <-].
  rewrite (proj2 (at_counter_Ok _ _ _) Z). simpl. unfold untraced_parents.
  pose proof C as [Ca Cb]. rewrite (proj2 (obj_Ok s u c) Cb). simpl.
  assert (NoPar : forall x p sym, ~ lists_parent s x i p sym).
  { intros x p sym (w & d & A & B). destruct (current_fun _ _ _ _ _ _ C A) as [<- <-].
    rewrite E in B. now apply has_nil in B. }
  destruct (c_prev c) as [w|] eqn:PV.
  - destruct (obj s w) as [pc|] eqn:O; simpl; [|discriminate].
    apply obj_Ok in O. intros [= <-].
    set (c1 := with_par c Static (c_par pc Static)).
    set (s1 := set_cell s u c1).
    assert (W1 : WF s1) by (apply WF_set_par; auto; eapply wf_par; eauto).
    assert (C1 : current s1 i u c1).
    { apply (proj2 (current_set_par s i u c Static _ _ _ _ W C)). auto. }
    assert (EQ : set_cell s u (with_par c1 Dynamic (c_par pc Dynamic)) =
                 set_cell s1 u (with_par c1 Dynamic (c_par pc Dynamic))).
    { unfold s1, set_cell. simpl. f_equal. clear. generalize (heap s) u.
      induction l; destruct u0; simpl; auto. f_equal; auto. }
    rewrite EQ. set (s2 := set_cell s1 u (with_par c1 Dynamic (c_par pc Dynamic))).
    assert (HP : forall x j p sym, lists_parent s2 x j p sym <->
       if Nat.eqb j i then has (c_par pc x) p sym else lists_parent s x j p sym).
    { intros. unfold s2. rewrite (parent_set_par s1 i u c1 Dynamic _ x j p sym W1 C1).
      destruct (Nat.eqb_spec j i).
      - rewrite andb_true_r. destruct x; simpl; [reflexivity|].
        unfold s1, c1.
        rewrite (parent_set_par s i u c Static (c_par pc Static) Static j p sym W C).
        subst. rewrite Nat.eqb_refl. simpl. reflexivity.
      - rewrite andb_false_r. unfold s1, c1.
        rewrite (parent_set_par s i u c Static (c_par pc Static) x j p sym W C).
        apply Nat.eqb_neq in n. rewrite n, andb_false_r. reflexivity. }
    assert (HQ : forall x p sym, has (c_par pc x) p sym <-> lists_child s x p i sym).
    { intros. split.
      - intros H. apply P; auto. exists u, c, w, pc. auto.
      - intros H. apply (i_down _ _ I) in H. destruct H as [H|[_ H]].
        + now apply NoPar in H.
        + destruct H as (u1 & v1 & w1 & pv & A & B & D & F).
          destruct (current_fun _ _ _ _ _ _ C A) as [<- <-]. congruence. }
    split; [|intros x d p sym R; discriminate].
    constructor.
    + apply WF_set_par; [exact W1|apply C1|exact (wf_par s W _ _ _ O)].
    + intros x d p sym. rewrite HP. destruct (Nat.eqb_spec d i).
      * subst. rewrite HQ. auto.
      * intros H. apply (i_up _ _ I) in H. exact H.
    + intros x d p sym H. left. rewrite HP. destruct (Nat.eqb_spec d i).
      * subst. apply HQ. exact H.
      * apply (i_down _ _ I) in H. destruct H as [H|[[= <-] _]]; [auto|congruence].
    + intros x p d sym. apply (i_keys _ _ I).
    + intros x p d a b. apply (i_mutual _ _ I).
    + discriminate.
  - intros [= <-]. split; [|intros x d p sym R; discriminate].
    constructor; try apply I.
    + intros x d p sym H. left. apply (i_down _ _ I) in H.
      destruct H as [H|[[= <-] H]]; auto.
      destruct H as (u1 & v1 & w1 & pv & A & B & D).
      destruct (current_fun _ _ _ _ _ _ C A) as [<- <-]. congruence.
    + discriminate.
Qed.
