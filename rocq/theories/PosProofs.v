(** Proofs about the position index. *)
Require Import List ZArith Bool Arith Lia Sorted Permutation.
Import ListNotations.
Require Import Verif.Base Verif.SliceModel Verif.SliceProofs Verif.PosModel Verif.PosSpec.

Lemma pos_eqb_eq a b : pos_eqb a b = true <-> a = b.
Proof.
  destruct a, b; simpl; split; try congruence.
  - intros H. apply Z.eqb_eq in H. congruence.
  - intros [= ->]. apply Z.eqb_refl.
Qed.

Lemma pos_eqb_refl a : pos_eqb a a = true.
Proof. now apply pos_eqb_eq. Qed.

Lemma pos_leb_total a b : pos_leb a b = true \/ pos_leb b a = true.
Proof. destruct a, b; simpl; auto. rewrite !Z.leb_le. lia. Qed.

Lemma pos_leb_trans a b c : pos_leb a b = true -> pos_leb b c = true -> pos_leb a c = true.
Proof. destruct a, b, c; simpl; auto; try discriminate. rewrite !Z.leb_le. lia. Qed.

Lemma pos_leb_above a b : pos_leb a b = true -> a <> b -> above a b.
Proof.
  destruct a, b; simpl; auto; try discriminate; try congruence.
  rewrite Z.leb_le. intros H N. assert (z <> z0) by congruence. lia.
Qed.

(** ** The reindexing loop *)

Definition rfun (acc : dict pos * list (pos * nat)) (i : nat) :=
  match dget (fst acc) i with
  | None => (dset (fst acc) i Inf, snd acc)
  | Some p => (fst acc, rset (snd acc) p i)
  end.

Lemma reindex_eq old m : reindex old m = fold_left rfun (dkeys old) (m, []).
Proof. reflexivity. Qed.


Lemma rset_keys d p i q : In q (map fst (rset d p i)) <-> q = p \/ In q (map fst d).
Proof.
  induction d as [|[q' j'] d IH]; simpl.
  - intuition.
  - destruct (pos_eqb p q') eqn:E; simpl.
    + apply pos_eqb_eq in E. subst. intuition.
    + rewrite IH. intuition.
Qed.

Lemma rset_NoDup d p i : NoDup (map fst d) -> NoDup (map fst (rset d p i)).
Proof.
  induction d as [|[q' j'] d IH]; simpl; intros H.
  - constructor; auto; constructor.
  - inversion H; subst. destruct (pos_eqb p q') eqn:E; simpl; constructor; auto.
    rewrite rset_keys. intros [->|X]; [|contradiction]. rewrite pos_eqb_refl in E. discriminate.
Qed.

Lemma rset_In d p i q j : NoDup (map fst d) ->
  In (q, j) (rset d p i) <-> (q = p /\ j = i) \/ (q <> p /\ In (q, j) d).
Proof.
  induction d as [|[q' j'] d IH]; simpl; intros H.
  - split; [intros [[= <- <-]|[]]; auto|intros [[-> ->]|[_ []]]; auto].
  - inversion H; subst. destruct (pos_eqb p q') eqn:E; simpl.
    + apply pos_eqb_eq in E. subst q'. split.
      * intros [[= <- <-]|X]; auto. right. split; auto. intros ->. apply H2.
        change p with (fst (p, j)). now apply in_map.
      * intros [[-> ->]|[N [[= ? ?]|X]]]; auto. congruence.
    + rewrite IH; auto. assert (p <> q') by (intros ->; rewrite pos_eqb_refl in E; discriminate).
      split.
      * intros [[= <- <-]|[?|[? ?]]]; auto.
      * intros [?|[N [?|?]]]; auto.
Qed.

(** The forward index after the loop. *)
Lemma rfun_fst : forall l m r,
  (forall i, dget (fst (fold_left rfun l (m, r))) i =
     match dget m i with
     | Some p => Some p
     | None => if memb i l then Some Inf else None
     end).
Proof.
  induction l as [|k l IH]; simpl; intros m r i.
  - destruct (dget m i); auto.
  - unfold rfun at 2. simpl. destruct (dget m k) eqn:E.
    + rewrite IH. destruct (dget m i) eqn:Ei; auto.
      destruct (Nat.eqb_spec i k); auto. subst. congruence.
    + rewrite IH, dget_dset. destruct (Nat.eqb_spec i k); simpl.
      * subst. now rewrite E.
      * destruct (dget m i); auto.
Qed.

Lemma rfun_fst_dwf : forall l m r, dwf m -> dwf (fst (fold_left rfun l (m, r))).
Proof.
  induction l as [|k l IH]; simpl; intros m r W; auto.
  unfold rfun at 2. simpl. destruct (dget m k); apply IH; auto. now apply dwf_dset.
Qed.

(** The reverse index after the loop, when the new order is injective on [l]. *)
Lemma rfun_snd : forall l m r, NoDup l -> NoDup (map fst r) ->
  (forall i j p, dget m i = Some p -> dget m j = Some p -> i = j) ->
  (forall p i, In (p, i) r -> dget m i = Some p /\ ~ In i l) ->
  NoDup (map fst (snd (fold_left rfun l (m, r)))) /\
  forall p i, In (p, i) (snd (fold_left rfun l (m, r))) <->
    In (p, i) r \/ (In i l /\ dget m i = Some p).
Proof.
  induction l as [|k l IH]; simpl; intros m r ND NR INJ RI.
  - split; auto. intros; tauto.
  - inversion ND; subst. unfold rfun at 2 4. simpl. destruct (dget m k) eqn:E.
    + destruct (IH m (rset r p k)) as [A B]; auto.
      * now apply rset_NoDup.
      * intros q i Hi. apply rset_In in Hi; auto. destruct Hi as [[-> ->]|[N Hi]]; auto.
        destruct (RI _ _ Hi) as [X Y]. split; auto.
      * split; auto. intros q i. rewrite B, rset_In; auto. split.
        -- intros [[[-> ->]|[N Hi]]|[Hi X]]; auto.
        -- intros [Hi|[[<-|Hi] X]]; auto.
           ++ destruct (RI _ _ Hi) as [X Y]. left. right. split; auto.
              intros ->. apply Y. left. eapply INJ; eauto.
           ++ left. left. split; congruence.
    + assert (G : forall i, i <> k -> dget (dset m k Inf) i = dget m i)
        by (intros; now apply dget_dset_other).
      (* the loop only looks at the entries of the remaining keys *)
      assert (L : forall l m1 m2 r, (forall i, In i l -> dget m1 i = dget m2 i) -> NoDup l ->
        snd (fold_left rfun l (m1, r)) = snd (fold_left rfun l (m2, r))).
      { clear. induction l as [|k l IH]; simpl; intros m1 m2 r H ND; auto.
        inversion ND; subst. unfold rfun at 2 4. simpl. rewrite <- (H k) by auto.
        destruct (dget m1 k); apply IH; auto. intros i Hi.
        rewrite !dget_dset_other by (intros ->; contradiction). auto. }
      rewrite (L l (dset m k Inf) m r); auto.
      2: { intros i Hi. apply G. intros ->; contradiction. }
      destruct (IH m r) as [A B]; auto.
      { intros p i Hi. destruct (RI _ _ Hi). auto. }
      split; auto. intros p i. rewrite B. split.
      * intros [?|[? ?]]; auto.
      * intros [?|[[<-|?] ?]]; auto. congruence.
Qed.

(** ** Reports *)

Lemma good_inj m : good_report m ->
  forall i j p, dget m i = Some p -> dget m j = Some p -> i = j.
Proof.
  intros (_ & ND & _) i j p Hi Hj. apply dget_In in Hi, Hj.
  apply In_nth_error in Hi, Hj. destruct Hi as [a Ha], Hj as [b Hb].
  assert (a = b).
  { apply (proj1 (NoDup_nth_error (map snd m)) ND).
    - rewrite map_length. apply nth_error_Some. congruence.
    - rewrite !nth_error_map, Ha, Hb. reflexivity. }
  subst. congruence.
Qed.

Lemma good_get m i p : good_report m -> (In (i, p) m <-> dget m i = Some p).
Proof.
  intros (W & _ & _). split; [now apply In_dget|apply dget_In].
Qed.

Lemma set_positions_get s m i :
  dget (at_ (set_positions s m)) i =
  match dget m i with
  | Some p => Some p
  | None => if (in_order s && negb (ipython s) && memb i (dkeys (at_ s)))%bool
            then Some Inf else None
  end.
Proof.
  unfold set_positions. destruct (in_order s && negb (ipython s))%bool; simpl.
  - rewrite reindex_eq, rfun_fst. reflexivity.
  - destruct (dget m i); auto.
Qed.

Lemma set_positions_dwf s m : dwf m -> dwf (at_ (set_positions s m)).
Proof.
  unfold set_positions. destruct (in_order s && negb (ipython s))%bool; simpl; auto.
  rewrite reindex_eq. apply rfun_fst_dwf.
Qed.

Lemma set_positions_known s m : known (set_positions s m) = known s /\
  in_order (set_positions s m) = in_order s /\ ipython (set_positions s m) = ipython s.
Proof.
  unfold set_positions. destruct (in_order s && negb (ipython s))%bool; auto.
Qed.

Lemma find_pos s p i : dwf (at_ s) -> dget (at_ s) i = Some p ->
  (forall j, dget (at_ s) j = Some p -> j = i) ->
  find (fun kv => pos_eqb (snd kv) p) (at_ s) = Some (i, p).
Proof.
  intros W G U. destruct (find _ (at_ s)) as [[j q]|] eqn:F.
  - apply find_some in F. destruct F as [F1 F2]. simpl in F2. apply pos_eqb_eq in F2. subst q.
    apply In_dget in F1; auto. now rewrite (U _ F1).
  - exfalso. pose proof (find_none _ _ F _ (dget_In _ _ _ G)) as X. simpl in X.
    now rewrite pos_eqb_refl in X.
Qed.

Lemma report_found s m i p : good_report m -> In (i, p) m -> In i (known s) ->
  at_position (set_positions s m) p = Ok (Some i).
Proof.
  intros G H K. pose proof G as (W & _ & F). unfold at_position.
  apply good_get in H; auto.
  rewrite (find_pos _ p i).
  - simpl. unfold p_from_id. destruct (set_positions_known s m) as [-> _].
    apply memb_In in K. now rewrite K.
  - now apply set_positions_dwf.
  - rewrite set_positions_get, H. auto.
  - intros j. rewrite set_positions_get. destruct (dget m j) eqn:E.
    + intros [= ->]. eapply good_inj; eauto.
    + destruct (in_order s && negb (ipython s) && memb j (dkeys (at_ s)))%bool; [|discriminate].
      intros [= <-]. exfalso. exact (F i Inf (proj2 (good_get m i Inf G) H) eq_refl).
Qed.

Lemma report_nobody s m z : good_report m -> (forall i, ~ In (i, Fin z) m) ->
  at_position (set_positions s m) (Fin z) = Ok None.
Proof.
  intros G H. unfold at_position.
  destruct (find _ _) as [[j q]|] eqn:F; auto.
  apply find_some in F. destruct F as [F1 F2]. simpl in F2. apply pos_eqb_eq in F2. subst q.
  exfalso. apply In_dget in F1; [|apply set_positions_dwf, G].
  rewrite set_positions_get in F1. destruct (dget m j) eqn:E.
  - injection F1 as ->. apply (H j). now apply good_get.
  - destruct (_ && _)%bool; discriminate.
Qed.

(** ** Iteration *)

Lemma iterate_fold s : forall l acc,
  (forall p i, In (p, i) l -> In i (known s)) ->
  rfold (fun acc (kv : pos * nat) => rmap (fun i => acc ++ [i]) (p_from_id s (snd kv))) l acc
  = Ok (acc ++ map snd l).
Proof.
  induction l as [|[p i] l IH]; simpl; intros acc H.
  - now rewrite app_nil_r.
  - unfold p_from_id. assert (K : In i (known s)) by eauto.
    apply memb_In in K. rewrite K. simpl. rewrite IH; [|intros; eapply H; eauto].
    now rewrite <- app_assoc.
Qed.

Lemma iterate_ok s : (forall p i, In (p, i) (rev_ s) -> In i (known s)) ->
  iterate s = Ok (map snd (sort_by (fun a b => pos_leb (fst a) (fst b)) (rev_ s))).
Proof.
  intros H. unfold iterate. rewrite iterate_fold; auto.
  intros p i X. eapply H. eapply Permutation_in; [|exact X]. apply sort_by_perm.
Qed.

Lemma sorted_order where_ : forall l : list (pos * nat),
  StronglySorted (fun a b => pos_leb (fst a) (fst b) = true) l ->
  NoDup (map fst l) -> (forall p i, In (p, i) l -> where_ i = p) ->
  in_notebook_order where_ (map snd l).
Proof.
  induction 1 as [|[p i] l S IH F]; simpl; intros ND W; constructor.
  - intros j Hj. apply in_map_iff in Hj. destruct Hj as ([q j'] & <- & Hj). simpl.
    rewrite (W p i), (W q j') by auto. rewrite Forall_forall in F. specialize (F _ Hj).
    simpl in F. apply pos_leb_above; auto. intros ->.
    inversion ND; subst. apply H1. change q with (fst (q, j')). now apply in_map.
  - apply IH; [now inversion ND|eauto].
Qed.

(** The reverse index reflects a set of cells. *)
Lemma iterate_spec s (P : nat -> Prop) :
  NoDup (map fst (rev_ s)) ->
  (forall p i, In (p, i) (rev_ s) <-> P i /\ dget (at_ s) i = Some p) ->
  (forall i, P i -> In i (dkeys (at_ s))) ->
  (forall i, P i -> In i (known s)) ->
  exists l, iterate s = Ok l /\ (forall i, In i l <-> P i) /\
            in_notebook_order (where_of s) l.
Proof.
  intros ND R D K. eexists. split; [|split].
  - apply iterate_ok. intros p i H. apply R in H. now apply K.
  - intros i. rewrite in_map_iff. split.
    + intros ([p j] & <- & H). simpl. apply (Permutation_in _ (sort_by_perm _ _)) in H.
      now apply R in H.
    + intros H. destruct (key_dget _ _ (D _ H)) as [p Hp]. exists (p, i). split; auto.
      apply (Permutation_in _ (Permutation_sym (sort_by_perm _ _))). now apply R.
  - apply sorted_order.
    + apply (sort_by_sorted (fun a b : pos * nat => pos_leb (fst a) (fst b))).
      * intros a b. apply pos_leb_total.
      * intros a b c. apply pos_leb_trans.
    + eapply Permutation_NoDup; [|exact ND]. apply Permutation_map, Permutation_sym, sort_by_perm.
    + intros p i H. apply (Permutation_in _ (sort_by_perm _ _)) in H. apply R in H.
      unfold where_of. now rewrite (proj2 H).
Qed.

Lemma report_rev s m : tracked s -> dwf (at_ s) -> good_report m ->
  NoDup (map fst (rev_ (set_positions s m))) /\
  forall p i, In (p, i) (rev_ (set_positions s m)) <->
    In i (dkeys (at_ s)) /\ dget m i = Some p.
Proof.
  intros [T1 T2] W G. unfold set_positions. rewrite T1, T2. simpl.
  rewrite reindex_eq. destruct (rfun_snd (dkeys (at_ s)) m []) as [A B].
  - exact W.
  - constructor.
  - now apply good_inj.
  - intros ? ? [].
  - split; auto. intros p i. rewrite B. simpl. tauto.
Qed.

(** Re-assigning the index to itself (what the exit of an override does) rebuilds the
    reverse index from the whole of it. *)
Lemma same_rev s : tracked s -> dwf (at_ s) ->
  (forall i j p, dget (at_ s) i = Some p -> dget (at_ s) j = Some p -> i = j) ->
  NoDup (map fst (rev_ (set_positions s (at_ s)))) /\
  forall p i, In (p, i) (rev_ (set_positions s (at_ s))) <-> dget (at_ s) i = Some p.
Proof.
  intros [T1 T2] W INJ. unfold set_positions. rewrite T1, T2. simpl.
  rewrite reindex_eq. destruct (rfun_snd (dkeys (at_ s)) (at_ s) []) as [A B]; auto.
  - constructor.
  - intros ? ? [].
  - split; auto. intros p i. rewrite B. simpl. split; [tauto|]. intros H. right. split; auto.
    eapply dget_Some_key; eauto.
Qed.

Lemma rfun_same : forall l m r, (forall i, In i l -> dget m i <> None) ->
  fst (fold_left rfun l (m, r)) = m.
Proof.
  induction l as [|k l IH]; simpl; intros m r H; auto.
  unfold rfun at 2. simpl. destruct (dget m k) eqn:E; [|exfalso; eapply H; eauto].
  apply IH. auto.
Qed.

Lemma same_at s m : (forall i, In i (dkeys (at_ s)) -> dget m i <> None) ->
  at_ (set_positions s m) = m.
Proof.
  intros H. unfold set_positions. destruct (in_order s && negb (ipython s))%bool; simpl; auto.
  rewrite reindex_eq. now apply rfun_same.
Qed.

(** ** Overrides *)

Lemma key_in_self (m : dict pos) i : In i (dkeys m) -> dget m i <> None.
Proof. intros H E. apply dget_None in E. contradiction. Qed.

Lemma quiet_run p : quiet p -> forall s s' o r, prun p s = (s', o, r) ->
  at_ s' = at_ s /\ known s' = known s /\ ipython s' = ipython s.
Proof.
  induction 1; simpl; intros s s' o r E.
  - injection E as <- <- <-. auto.
  - injection E as <- <- <-. auto.
  - injection E as <- <- <-. auto.
  - injection E as <- <- <-. auto.
  - destruct (prun p s) as [[s1 o1] []] eqn:E1.
    + injection E as <- <- <-. eauto.
    + destruct (prun q s1) as [[s2 o2] r2] eqn:E2. injection E as <- <- <-.
      destruct (IHquiet1 _ _ _ _ E1) as (A & B & C), (IHquiet2 _ _ _ _ E2) as (A' & B' & C').
      split; [|split]; congruence.
  - destruct (prun p s) as [[s1 o1] []] eqn:E1.
    + destruct (prun q s1) as [[s2 o2] r2] eqn:E2. injection E as <- <- <-.
      destruct (IHquiet1 _ _ _ _ E1) as (A & B & C), (IHquiet2 _ _ _ _ E2) as (A' & B' & C').
      split; [|split]; congruence.
    + injection E as <- <- <-. eauto.
  - destruct (prun p _) as [[s1 o1] r1] eqn:E1. injection E as <- <- <-.
    destruct (IHquiet _ _ _ _ E1) as (A & B & C).
    destruct (set_positions_known s1 (at_ s)) as (K1 & K2 & K3).
    destruct (set_positions_known s []) as (L1 & L2 & L3).
    split; [|split].
    + apply same_at. intros i. rewrite A. destruct (in_order s) eqn:O.
      * apply key_in_self.
      * unfold set_positions. rewrite O. simpl. tauto.
    + rewrite K1, B. destruct (in_order s); auto.
    + rewrite K3, C. destruct (in_order s); auto.
Qed.

(** What code inside an override sees. *)
Lemma steady_sees p : steady p -> forall s s' o r, prun p s = (s', o, r) ->
  in_order s' = in_order s /\
  forall d, In d o -> d = at_ s \/ (in_order s = false /\ d = []).
Proof.
  assert (Q : forall p, steady p -> quiet p) by (induction 1; constructor; auto).
  induction 1; simpl; intros s s' o r E.
  - injection E as <- <- <-. split; auto. intros d [].
  - injection E as <- <- <-. split; auto. intros d [].
  - injection E as <- <- <-. split; auto. intros d [<-|[]]; auto.
  - destruct (prun p s) as [[s1 o1] []] eqn:E1.
    + injection E as <- <- <-. eauto.
    + destruct (prun q s1) as [[s2 o2] r2] eqn:E2. injection E as <- <- <-.
      destruct (IHsteady1 _ _ _ _ E1) as (A & B), (IHsteady2 _ _ _ _ E2) as (A' & B').
      destruct (quiet_run _ (Q _ H) _ _ _ _ E1) as (C & _).
      split; [congruence|]. intros d Hd. apply in_app_or in Hd. destruct Hd as [Hd|Hd]; auto.
      apply B' in Hd. rewrite C, A in Hd. auto.
  - destruct (prun p s) as [[s1 o1] []] eqn:E1.
    + destruct (prun q s1) as [[s2 o2] r2] eqn:E2. injection E as <- <- <-.
      destruct (IHsteady1 _ _ _ _ E1) as (A & B), (IHsteady2 _ _ _ _ E2) as (A' & B').
      destruct (quiet_run _ (Q _ H) _ _ _ _ E1) as (C & _).
      split; [congruence|]. intros d Hd. apply in_app_or in Hd. destruct Hd as [Hd|Hd]; auto.
      apply B' in Hd. rewrite C, A in Hd. auto.
    + injection E as <- <- <-. eauto.
  - destruct (prun p _) as [[s1 o1] r1] eqn:E1. injection E as <- <- <-.
    destruct (IHsteady _ _ _ _ E1) as (A & B).
    destruct (set_positions_known s1 (at_ s)) as (_ & K2 & _).
    destruct (set_positions_known s []) as (_ & L2 & _).
    split.
    + rewrite K2, A. destruct (in_order s) eqn:O; congruence.
    + assert (X : in_order s = false -> at_ (set_positions s []) = [])
        by (intros X; unfold set_positions; rewrite X; reflexivity).
      intros d Hd. apply B in Hd. destruct (in_order s) eqn:O.
      * destruct Hd as [->|[? ->]]; auto. congruence.
      * right. split; auto. destruct Hd as [->|[_ ->]]; auto.
Qed.

Lemma override_sees p : steady p -> forall s s' o r, prun (POverride p) s = (s', o, r) ->
  forall d, In d o -> d = if in_order s then at_ s else [].
Proof.
  intros H s s' o r E d Hd. simpl in E.
  destruct (prun p _) as [[s1 o1] r1] eqn:E1. injection E as <- <- <-.
  destruct (steady_sees _ H _ _ _ _ E1) as (A & B). apply B in Hd.
  destruct (in_order s) eqn:O.
  - destruct Hd as [->|[? ->]]; congruence.
  - destruct Hd as [->|[_ ->]]; auto. unfold set_positions. rewrite O. reflexivity.
Qed.

(** ** Iterating after a report followed by an override *)

Lemma report_then_override s m p s' o r :
  tracked s -> dwf (at_ s) -> good_report m ->
  (forall i, In i (dkeys (at_ s)) -> In i (dkeys m)) ->
  (forall i, In i (dkeys m) -> In i (known s)) ->
  steady p -> prun (PSeq (PReport m) (POverride p)) s = (s', o, r) ->
  exists l, iterate s' = Ok l /\ (forall i, In i l <-> In i (dkeys m)) /\
            in_notebook_order (where_of s') l /\ at_ s' = m.
Proof.
  intros T W G D K St E.
  assert (Q : forall p, steady p -> quiet p) by (induction 1; constructor; auto).
  change (prun (PSeq (PReport m) (POverride p)) s) with
    (match prun (POverride p) (set_positions s m) with (s2, o2, r) => (s2, [] ++ o2, r) end) in E.
  set (s1 := set_positions s m) in *.
  assert (A1 : at_ s1 = m) by (apply same_at; intros i Hi; apply key_in_self; auto).
  destruct (set_positions_known s m) as (K1 & K2 & K3). fold s1 in K1, K2, K3.
  destruct (prun (POverride p) s1) as [[s2 o2] r2] eqn:E2. injection E as <- <- <-.
  simpl in E2. rewrite K2, (proj1 T) in E2.
  destruct (prun p s1) as [[s3 o3] r3] eqn:E3. injection E2 as <- <- <-.
  destruct (quiet_run _ (Q _ St) _ _ _ _ E3) as (B1 & B2 & B3).
  destruct (steady_sees _ St _ _ _ _ E3) as (B4 & _).
  assert (T3 : tracked s3).
  { destruct T. split; congruence. }
  assert (E4 : at_ s1 = at_ s3) by congruence. rewrite E4.
  assert (A3 : at_ s3 = m) by congruence.
  assert (INJ : forall i j q, dget (at_ s3) i = Some q -> dget (at_ s3) j = Some q -> i = j)
    by (rewrite A3; now apply good_inj).
  assert (W3 : dwf (at_ s3)) by (rewrite A3; apply G).
  destruct (same_rev s3 T3 W3 INJ) as [N R].
  assert (A4 : at_ (set_positions s3 (at_ s3)) = m)
    by (rewrite same_at; auto; apply key_in_self).
  destruct (iterate_spec (set_positions s3 (at_ s3)) (fun i => In i (dkeys m))) as (l & X & Y & Z).
  - exact N.
  - intros q i. rewrite R, A4, A3. split; [|tauto]. intros H. split; auto.
    eapply dget_Some_key; eauto.
  - intros i. now rewrite A4.
  - intros i Hi. destruct (set_positions_known s3 (at_ s3)) as (-> & _).
    rewrite B2, K1. auto.
  - exists l. auto.
Qed.
