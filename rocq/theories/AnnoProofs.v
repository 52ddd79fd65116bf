Require Import List Arith ZArith Bool Lia.
Import ListNotations.
Require Import Verif.Base Verif.Loops Verif.AnnoModel Verif.AnnoSpec.
Local Open Scope nat_scope.

Lemma index_of_nth : forall p l k i, index_of p l k = Some i -> k <= i /\ nth_error l (i - k) = Some p.
Proof.
  intros p l. induction l as [|q l IH]; intros k i H; simpl in H; [discriminate|]. destruct (Nat.eqb_spec q p) as [->|].
  - injection H as <-. rewrite Nat.sub_diag. auto.
  - destruct (IH (S k) i H) as (A & B). split; [lia|]. replace (i - k) with (S (i - S k)) by lia. exact B.
Qed.
Lemma index_of_In : forall p l k, In p l -> exists i, index_of p l k = Some i.
Proof.
  intros p l. induction l as [|q l IH]; intros k H; simpl in *; [destruct H|]. destruct (Nat.eqb_spec q p); eauto. destruct H; [congruence|]. eauto.
Qed.
Lemma index_of_None : forall p l k, index_of p l k = None -> ~ In p l.
Proof. intros p l k H I. destruct (index_of_In p l k I). congruence. Qed.

Lemma nodup_nth : forall (l : list nat) i j p, NoDup l -> nth_error l i = Some p -> nth_error l j = Some p -> i = j.
Proof.
  intros l i j p N A B. apply (NoDup_nth_error l); auto; [apply nth_error_Some|]; congruence.
Qed.

Lemma received_nth : forall b c i a, nth_error (received b c) i = Some a ->
  (b = true /\ i = 0 /\ a = None) \/ exists x, a = Some x /\ (if b then 1 else 0) <= i /\ nth_error (positional c) (i - if b then 1 else 0) = Some x.
Proof.
  intros [|] c i a H; unfold received in H; simpl in H.
  - destruct i as [|i]; [injection H as <-; auto|]. right. cbn [nth_error] in H. rewrite nth_error_map in H.
    destruct (nth_error (positional c) i) as [x|] eqn:E; [|discriminate]. injection H as <-. exists x. simpl. rewrite Nat.sub_0_r. split; auto. split; [lia|auto].
  - right. rewrite nth_error_map in H. destruct (nth_error (positional c) i) as [x|] eqn:E; [|discriminate]. injection H as <-.
    exists x. rewrite Nat.sub_0_r. split; auto. split; [lia|auto].
Qed.
Lemma nth_received : forall (b : bool) c i x, (if b then 1 else 0) <= i -> nth_error (positional c) (i - if b then 1 else 0) = Some x ->
  nth_error (received b c) i = Some (Some x).
Proof.
  intros [|] c i x L H; unfold received; simpl.
  - destruct i as [|i]; [lia|]. simpl in *. rewrite Nat.sub_0_r in H. rewrite nth_error_map, H. reflexivity.
  - rewrite Nat.sub_0_r in H. rewrite nth_error_map, H. reflexivity.
Qed.

Lemma py_nth_pos : forall A (l : list A) (i : nat) x, nth_error l i = Some x -> py_nth l (Z.of_nat i) = Ok x.
Proof.
  intros A l i x H. unfold py_nth. replace (Z.of_nat i <? 0)%Z with false by (symmetry; apply Z.ltb_ge; lia).
  cbv zeta. replace (Z.of_nat i <? 0)%Z with false by (symmetry; apply Z.ltb_ge; lia). rewrite Nat2Z.id, H. reflexivity.
Qed.

(** At which position a parameter is. *)
Lemma param_place : forall sg p i, legal_sig sg -> nth_error (posonly sg ++ regular sg ++ kwonly sg) i = Some p ->
  (i < length (posonly sg) + length (regular sg) <-> nth_error (params sg) i = Some p) /\
  (i < length (posonly sg) <-> In p (posonly sg)) /\
  (length (posonly sg) + length (regular sg) <= i <-> In p (kwonly sg)) /\
  (length (posonly sg) <= i <-> In p (regular sg ++ kwonly sg)).
Proof.
  intros sg p i L N. unfold params.
  assert (A : forall (l1 l2 : list nat) j, NoDup (l1 ++ l2) -> nth_error (l1 ++ l2) j = Some p -> (j < length l1 <-> In p l1) /\ (length l1 <= j <-> In p l2)).
  { intros l1 l2 j D M. split; split.
    - intros Q. rewrite nth_error_app1 in M by auto. eapply nth_error_In; eauto.
    - intros Q. apply In_nth_error in Q. destruct Q as (k & K). assert (k < length l1) by (apply nth_error_Some; congruence).
      replace j with k; auto. apply (nodup_nth (l1 ++ l2) k j p); auto. rewrite nth_error_app1; auto.
    - intros Q. rewrite nth_error_app2 in M by auto. eapply nth_error_In; eauto.
    - intros Q. apply In_nth_error in Q. destruct Q as (k & K). replace j with (length l1 + k); [lia|].
      apply (nodup_nth (l1 ++ l2) (length l1 + k) j p); auto. rewrite nth_error_app2 by lia. replace (length l1 + k - length l1) with k by lia. auto. }
  destruct (A _ _ i L N) as (A1 & A2). unfold legal_sig in L. rewrite app_assoc in L, N. destruct (A _ _ i L N) as (A3 & A4).
  rewrite app_length in A3, A4. split; [|split; [|split]]; auto. split.
  - intros Q. rewrite nth_error_app1 in N by (rewrite app_length; auto). auto.
  - intros Q. rewrite <- app_length. apply nth_error_Some. congruence.
Qed.

Lemma handle_bound : forall b sg c p o, legal_sig sg -> legal_call b sg c -> p <> n_module -> p <> n_self ->
  In p (posonly sg ++ regular sg ++ kwonly sg) -> (b = true -> nth_error (params sg) 0 <> Some p) ->
  exists h, mutate_name_handler sg b p o = Ok (Some h) /\
    (forall a, binds b sg c p a -> handle h c = Ok (updates_of o a)) /\
    ((forall a, ~ binds b sg c p a) -> handle h c = Ok []).
Proof.
  intros b sg c p o L C P1 P2 I F.
  unfold mutate_name_handler. apply Nat.eqb_neq in P1, P2. rewrite P1, P2. unfold arg_position.
  destruct (index_of_In p _ 0 I) as (i & E). rewrite E. apply index_of_nth in E. rewrite Nat.sub_0_r in E. destruct E as (_ & N).
  destruct (param_place sg p i L N) as (Q1 & Q2 & Q3 & Q4). cbn [rbind].
  assert (U : forall j a, nth_error (params sg) j = Some p -> nth_error (received b c) j = Some a -> j = i).
  { intros j a J _. apply (nodup_nth (posonly sg ++ regular sg ++ kwonly sg) j i p); auto. rewrite app_assoc. rewrite nth_error_app1; auto.
    apply nth_error_Some. unfold params in J. congruence. }
  assert (Z0 : i < length (posonly sg) + length (regular sg) -> (if b then 1 else 0) <= i).
  { intros Z. apply Q1 in Z. destruct b; [|lia]. destruct i; [|lia]. exfalso. apply (F eq_refl Z). }
  assert (HP : forall name, i < length (posonly sg) + length (regular sg) -> match name with Some n => dget (keywords c) n | None => None end = None ->
     (forall x, nth_error (positional c) (i - if b then 1 else 0) = Some x ->
       handle_argument (Some (Z.of_nat i - (if b then 1 else 0))%Z) name o c = Ok (updates_of o (Some x))) /\
     (nth_error (positional c) (i - if b then 1 else 0) = None ->
       handle_argument (Some (Z.of_nat i - (if b then 1 else 0))%Z) name o c = Ok [])).
  { intros name Z K. specialize (Z0 Z). unfold handle_argument. rewrite K.
    replace (Z.of_nat i - (if b then 1 else 0))%Z with (Z.of_nat (i - if b then 1 else 0)) by (destruct b; lia).
    split.
    - intros x X. replace (Z.of_nat (i - if b then 1 else 0) <? Z.of_nat (length (positional c)))%Z with true.
      + rewrite (py_nth_pos _ _ _ _ X). cbn [rmap]. unfold updates_of. destruct x as [|[s|] x]; reflexivity.
      + symmetry. apply Z.ltb_lt. assert (i - (if b then 1 else 0) < length (positional c)) by (apply nth_error_Some; congruence). lia.
    - intros X. apply nth_error_None in X. replace (Z.of_nat (i - if b then 1 else 0) <? Z.of_nat (length (positional c)))%Z with false; [reflexivity|].
      symmetry. apply Z.ltb_ge. lia. }
  destruct (i <? length (posonly sg)) eqn:S1.
  - apply Nat.ltb_lt in S1. assert (Z : i < length (posonly sg) + length (regular sg)) by lia.
    replace (length (posonly sg) + length (regular sg) <=? i) with false by (symmetry; apply Nat.leb_gt; auto). cbn [mutate_argument rmap].
    destruct (HP None Z eq_refl) as (HP1 & HP2). eexists. split; [reflexivity|]. cbn [handle]. split.
    + intros a B. destruct B as [j a J R|a K D].
      * pose proof (U j a J R); subst j. destruct (received_nth b c i a R) as [(-> & -> & ->)|(x & -> & _ & X)]; [exfalso; apply (F eq_refl J)|]. auto.
      * exfalso. apply Q4 in K. lia.
    + intros B. destruct (nth_error (positional c) (i - if b then 1 else 0)) as [x|] eqn:X; [|auto].
      exfalso. apply (B (Some x)). apply (by_position b sg c p i); [apply Q1; auto|]. apply nth_received; auto.
  - apply Nat.ltb_ge in S1. destruct (length (posonly sg) + length (regular sg) <=? i) eqn:S2.
    + cbn [mutate_argument rmap]. apply Nat.leb_le in S2. eexists. split; [reflexivity|]. cbn [handle]. unfold handle_argument. split.
      * intros a B. destruct B as [j a J R|a K D].
        -- exfalso. pose proof (U j a J R); subst j. apply Q1 in J. lia.
        -- rewrite D. cbn. unfold updates_of. destruct a as [|[s|] a]; reflexivity.
      * intros B. destruct (dget (keywords c) p) as [a|] eqn:D; [|reflexivity]. exfalso. apply (B (Some a)). apply by_keyword; auto. apply Q4. lia.
    + cbn [mutate_argument rmap]. apply Nat.leb_gt in S2. eexists. split; [reflexivity|]. cbn [handle]. split.
      * intros a B. destruct B as [j a J R|a K D].
        -- pose proof (U j a J R); subst j. assert (D : dget (keywords c) p = None).
           { apply (C i p); auto; [|apply nth_error_Some; congruence]. pose proof (proj1 Q4 S1) as W. apply in_app_iff in W. destruct W as [W|W]; auto.
             apply Q3 in W. lia. }
           destruct (HP (Some p) S2 D) as (HP1 & HP2).
           destruct (received_nth b c i a R) as [(-> & -> & ->)|(x & -> & _ & X)]; [exfalso; apply (F eq_refl J)|]. auto.
        -- unfold handle_argument. rewrite D. cbn. unfold updates_of. destruct a as [|[s|] a]; reflexivity.
      * intros B. destruct (dget (keywords c) p) as [a|] eqn:D.
        -- exfalso. apply (B (Some a)). apply by_keyword; auto. apply Q4. auto.
        -- destruct (HP (Some p) S2 D) as (HP1 & HP2). destruct (nth_error (positional c) (i - if b then 1 else 0)) as [x|] eqn:X; [|auto].
           exfalso. apply (B (Some x)). apply (by_position b sg c p i); [apply Q1; auto|]. apply nth_received; auto.
Qed.

Lemma binds_dec : forall b sg c p, (exists a, binds b sg c p a) \/ (forall a, ~ binds b sg c p a).
Proof.
  intros b sg c p.
  destruct (in_dec Nat.eq_dec p (regular sg ++ kwonly sg)) as [I|I].
  - destruct (dget (keywords c) p) as [a|] eqn:D; [left; exists (Some a); apply by_keyword; auto|].
    assert (Q : (exists i a, nth_error (params sg) i = Some p /\ nth_error (received b c) i = Some a) \/ ~ (exists i a, nth_error (params sg) i = Some p /\ nth_error (received b c) i = Some a)).
    { generalize (params sg) (received b c). intros l. induction l as [|q l IH]; intros m.
      - right. intros (i & a & A & _). destruct i; discriminate.
      - destruct m as [|x m]; [right; intros (i & a & _ & A); destruct i; discriminate|]. destruct (Nat.eq_dec q p) as [->|N]; [left; exists 0, x; auto|].
        destruct (IH m) as [(i & a & A & B)|H]; [left; exists (S i), a; auto|]. right. intros ([|i] & a & A & B); simpl in *; [congruence|]. apply H. eauto. }
    destruct Q as [(i & a & A & B)|Q]; [left; exists a; apply (by_position b sg c p i); auto|].
    right. intros a [i a' A B|a' A B]; [apply Q; eauto|congruence].
  - assert (Q : (exists i a, nth_error (params sg) i = Some p /\ nth_error (received b c) i = Some a) \/ ~ (exists i a, nth_error (params sg) i = Some p /\ nth_error (received b c) i = Some a)).
    { generalize (params sg) (received b c). intros l. induction l as [|q l IH]; intros m.
      - right. intros (i & a & A & _). destruct i; discriminate.
      - destruct m as [|x m]; [right; intros (i & a & _ & A); destruct i; discriminate|]. destruct (Nat.eq_dec q p) as [->|N]; [left; exists 0, x; auto|].
        destruct (IH m) as [(i & a & A & B)|H]; [left; exists (S i), a; auto|]. right. intros ([|i] & a & A & B); simpl in *; [congruence|]. apply H. eauto. }
    destruct Q as [(i & a & A & B)|Q]; [left; exists a; apply (by_position b sg c p i); auto|].
    right. intros a [i a' A B|a' A B]; [apply Q; eauto|contradiction].
Qed.

Lemma handle_effect : forall b sg c p o, legal_sig sg -> legal_call b sg c -> declarable b sg p ->
  exists h, mutate_name_handler sg b p o = Ok (Some h) /\ forall u, handle h c = Ok u <-> effect b sg c o p u.
Proof.
  intros b sg c p o L C (D1 & D2 & D3 & D4). destruct (handle_bound b sg c p o L C D1 D2 D3 D4) as (h & E & H1 & H2).
  exists h. split; auto. intros u. split.
  - intros H. destruct (binds_dec b sg c p) as [(a & B)|B].
    + left. exists a. split; auto. rewrite (H1 a B) in H. congruence.
    + right. split; auto. rewrite (H2 B) in H. congruence.
  - intros [(a & B & ->)|(B & ->)]; auto.
Qed.

(** The handlers for several names. *)
Lemma multi_compile : forall b sg o ps hs0, (forall p, In p ps -> exists h, mutate_name_handler sg b p o = Ok h) ->
  exists hs, rfold (fun hs p => rmap (fun h => hs ++ [h]) (mutate_name_handler sg b p o)) ps hs0 = Ok (hs0 ++ hs) /\
    Forall2 (fun p h => mutate_name_handler sg b p o = Ok h) ps hs.
Proof.
  intros b sg o ps. induction ps as [|p ps IH]; intros hs0 H.
  - exists []. rewrite app_nil_r. split; [reflexivity|constructor].
  - destruct (H p (or_introl eq_refl)) as (h & E). cbn [rfold]. rewrite E. cbn [rmap rbind].
    destruct (IH (hs0 ++ [h]) (fun q I => H q (or_intror I))) as (hs & A & B). exists (h :: hs). rewrite A, <- app_assoc. split; auto.
Qed.

Lemma multi_handle : forall hs c us, Forall2 (fun h u => exists h', h = Some h' /\ handle h' c = Ok u) hs us -> handle (HMulti hs) c = Ok (concat us).
Proof.
  intros hs c us F. cbn [handle]. induction F as [|h u hs us (h' & -> & E) F IH]; [reflexivity|]. rewrite E. cbn [rbind]. rewrite IH. reflexivity.
Qed.

Lemma names_of_some : forall ps, names_of (map Some ps) = Some ps.
Proof. induction ps as [|p ps IH]; simpl; auto. rewrite IH. reflexivity. Qed.

Lemma fold_set_other : forall (ns : list nat) (h : option handler) d n, ~ In n ns -> dget (fold_left (fun d n => dset d n h) ns d) n = dget d n.
Proof.
  induction ns as [|m ns IH]; intros h d n H; simpl in *; auto. rewrite IH by tauto. apply dget_dset_other. intuition congruence.
Qed.
Lemma fold_set_in : forall (ns : list nat) (h : option handler) d n, In n ns -> dget (fold_left (fun d n => dset d n h) ns d) n = Some h.
Proof.
  induction ns as [|m ns IH]; intros h d n H; simpl in *; [destruct H|]. destruct (in_dec Nat.eq_dec n ns) as [I|I]; auto.
  rewrite fold_set_other by auto. destruct H as [->|H]; [apply dget_dset_same|contradiction].
Qed.
