(** Proofs about the whole checker. *)
Require Import List ZArith Bool Arith Lia Permutation.
Import ListNotations.
Require Import Verif.Base Verif.Loops Verif.TimestampModel Verif.TimestampProofs
  Verif.SessionModel Verif.SliceModel Verif.SliceProofs Verif.PosModel Verif.PosSpec
  Verif.PosProofs Verif.FrontModel Verif.FrontSpec Verif.FrontDag Verif.FrontLinks.
Local Open Scope nat_scope.

Definition is_ready_now (e : fenv) (i : nat) : Prop :=
  exists c k n, checked_with e i c k /\ readiness e c k = Ok (true, n).

Definition is_dag_iff e : is_dag (e_schedule e) = false <-> e_schedule e = LivenessBased.
Proof. destruct (e_schedule e); simpl; split; congruence. Qed.

(** ** The loop over the cells to check *)

Record CInv (e : fenv) (lp : option pos) (flags : dict bool) (done : list nat) (r : fres)
  : Prop := {
  ci_waiting : forall i, In i (r_waiting r) <-> In i done /\ live_waits e i;
  ci_waiting_nodup : NoDup (r_waiting r);
  ci_ready : forall i, In i (r_ready r) <->
               In i done /\ ~ live_waits e i /\ is_ready_now e i;
  ci_new : forall i, In i (r_new_ready r) -> In i (r_ready r) /\
             (e_in_order e = true -> forall p c, lp = Some p -> cell_is e i c ->
                above p (f_pos c));
  ci_typecheck : forall i, In i (r_typecheck r) <->
                   In i done /\ exists c k, checked_with e i c k /\ k_typechecks k = false;
  ci_flags : forall i c k, In i done -> checked_with e i c k ->
               (flag r i = true <-> In i (r_ready r));
  ci_wsyms : forall i s, In s (lget (r_wsyms r) i) <->
               In i done /\ e_schedule e = LivenessBased /\
               exists c k, checked_with e i c k /\ In s (k_waiting k);
  ci_killing : forall i s, In i (lget (r_killing r) s) <->
               In i done /\ exists c k, checked_with e i c k /\ In s (k_dead k);
  ci_killing_nodup : forall s, NoDup (lget (r_killing r) s);
  ci_known : forall i, In i done -> exists c, cell_is e i c
}.

Lemma checked_fun e i c k c' k' : checked_with e i c k -> checked_with e i c' k' ->
  c = c' /\ k = k'.
Proof.
  intros [A B] [A' B']. pose proof (cell_is_fun _ _ _ _ A A'). subst. split; congruence.
Qed.

Lemma killing_fold i : forall l d s j,
  In j (lget (fold_left (fun d s =>
          dset d s (sadd i (match dget d s with Some l => l | None => [] end))) l d) s) <->
  In j (lget d s) \/ (j = i /\ In s l).
Proof.
  induction l as [|a l IH]; intros d s j; simpl; [tauto|].
  rewrite IH, lget_dset'. destruct (Nat.eqb_spec s a).
  - subst. rewrite In_sadd. unfold lget. tauto.
  - split; [tauto|]. intros [?|[-> [<-|?]]]; tauto.
Qed.

Lemma killing_nodup i : forall l d, (forall s, NoDup (lget d s)) ->
  forall s, NoDup (lget (fold_left (fun d s =>
          dset d s (sadd i (match dget d s with Some l => l | None => [] end))) l d) s).
Proof.
  induction l as [|a l IH]; intros d H s; simpl; auto.
  apply IH. intros s'. rewrite lget_dset'. destruct (Nat.eqb s' a); auto.
  apply NoDup_sadd, H.
Qed.

Lemma pos_not_leb a b : pos_leb a b = false -> above b a.
Proof. intros H. apply pos_ltb_above. unfold pos_ltb. now rewrite H. Qed.

Lemma readiness_new e c k n : readiness e c k = Ok (false, n) -> n = false.
Proof.
  unfold readiness. rewrite rbind_Ok. intros ([r1 n1] & E & H).
  assert (Q : r1 = false -> n1 = false).
  { destruct (is_dag (e_schedule e)); [|injection E as <- <-; auto].
    apply rbind_Ok in E. destruct E as (latest & _ & E). revert E.
    assert (L : forall x all l r rr nn,
              ready_loop e x c latest all l r = Ok (rr, nn) -> nn = true -> rr = true).
    { intros x all. induction l as [|[pid raw] l IH]; simpl; intros r rr nn E.
      - injection E as <- <-. discriminate.
      - apply rbind_Ok in E. destruct E as (par & _ & E).
        destruct (_ && _ && _)%bool in E; [injection E as <- <-; auto|].
        apply rbind_Ok in E. destruct E as (nl & _ & E). destruct nl; [eauto|].
        destruct (parent_changed _ _ _ _); [|eauto].
        apply rbind_Ok in E. destruct E as (sk & _ & E). destruct sk; [eauto|].
        destruct (_ && _)%bool in E; [injection E as <- <-; auto|eauto]. }
    generalize false at 1. induction (e_ctxs e) as [|x xs IH]; simpl; intros r E.
    - injection E as <- <-. auto.
    - apply rbind_Ok in E. destruct E as (d & _ & E). apply rbind_Ok in E.
      destruct E as ([r2 n2] & E2 & E). simpl in E. destruct n2.
      + injection E as <- <-. intros ->. specialize (L _ _ _ _ _ _ E2 eq_refl). congruence.
      + eauto. }
  simpl in H. destruct (negb n1 && _)%bool.
  - destruct (_ <? _)%Z; [discriminate|]. injection H as -> ->. auto.
  - injection H as -> ->. auto.
Qed.

Lemma check_one_inv e lp flags done r i r' :
  CInv e lp flags done r -> check_one e lp r i = Ok r' -> CInv e lp flags (done ++ [i]) r'.
Proof.
  intros V E. unfold check_one in E. apply rbind_Ok in E. destruct E as (c & C & E).
  apply fcell_of_Ok in C.
  assert (KN : forall j, In j (done ++ [i]) -> exists c, cell_is e j c).
  { intros j Hj. apply in_app_or in Hj. destruct Hj as [Hj|[<-|[]]]; eauto.
    now apply (ci_known _ _ _ _ _ V). }
  assert (DI : forall j, In j (done ++ [i]) <-> In j done \/ j = i).
  { intros j. rewrite in_app_iff. simpl. split; [intros [?|[?|[]]]|intros [?|?]]; auto. }
  destruct (f_check c) as [k|] eqn:K.
  2: { injection E as <-.
    assert (NO : forall c' k', ~ checked_with e i c' k').
    { intros c' k' [A B]. rewrite <- (cell_is_fun _ _ _ _ C A) in B. congruence. }
    destruct V as [V1 V2 V3 V4 V5 V6 V7 V8 V9 V10].
    split; auto; try (intros j; rewrite DI).
    - rewrite V1. split; [tauto|]. intros [[Hin| ->] HL]; [tauto|].
      exfalso. destruct HL as (_ & c' & k' & H & _). exact (NO _ _ H).
    - rewrite V3. split; [tauto|]. intros [[Hin| ->] [? (c' & k' & n & H & HR)]]; [|exfalso; exact (NO _ _ H)].
      split; [exact Hin|]. split; [assumption|]. exists c', k', n. auto.
    - rewrite V5. split; [tauto|]. intros [[Hin| ->] (c' & k' & H & ?)]; [|exfalso; exact (NO _ _ H)].
      split; eauto.
    - intros j c' k' Hj H. apply DI in Hj.
      destruct Hj as [Hj| ->]; [eauto|exfalso; exact (NO _ _ H)].
    - intros j s. rewrite V7, DI. split; [tauto|].
      intros [[Hin| ->] (? & c' & k' & H & ?)]; [|exfalso; exact (NO _ _ H)]. eauto 8.
    - intros j s. rewrite V8, DI. split; [tauto|].
      intros [[Hin| ->] (c' & k' & H & ?)]; [|exfalso; exact (NO _ _ H)]. eauto 8. }
  assert (CW : checked_with e i c k) by (split; auto).
  assert (CF : forall c' k', checked_with e i c' k' -> c' = c /\ k' = k)
    by (intros c' k' H; exact (checked_fun _ _ _ _ _ _ H CW)).
  cbv zeta in E.
  set (wsyms := if negb (is_dag (e_schedule e)) then k_waiting k else []) in *.
  set (unres := (negb (is_dag (e_schedule e)) && k_unresolved k)%bool) in *.
  set (waiting := if (negb (is_nil wsyms) || unres)%bool
                  then sadd i (r_waiting r) else r_waiting r) in *.
  apply rbind_Ok in E. destruct E as ([rd nw] & RD & E). injection E as <-.
  destruct V as [V1 V2 V3 V4 V5 V6 V7 V8 V9 V10].
  (* is the cell waiting? *)
  assert (LW : live_waits e i <-> (negb (is_nil wsyms) || unres)%bool = true).
  { unfold live_waits, wsyms, unres. split.
    - intros (S & c' & k' & H & X). destruct (CF _ _ H); subst. rewrite S. simpl.
      apply orb_true_iff. destruct X as [X|X]; [left|right; auto].
      apply negb_true_iff. now apply is_nil_false.
    - intros H. destruct (is_dag (e_schedule e)) eqn:D; [discriminate|].
      apply is_dag_iff in D. split; auto. exists c, k. split; auto.
      simpl in H. apply orb_true_iff in H. destruct H as [H|H]; auto.
      left. apply negb_true_iff in H. now apply is_nil_false in H. }
  assert (WI : forall j, In j waiting <-> In j (done ++ [i]) /\ live_waits e j).
  { intros j. rewrite DI. unfold waiting.
    destruct (negb (is_nil wsyms) || unres)%bool.
    - rewrite In_sadd, V1. split.
      + intros [-> |[? ?]]; tauto.
      + intros [[Hin| ->] Hx]; tauto.
    - rewrite V1. split; [tauto|]. intros [[Hin| ->] H]; [tauto|]. apply LW in H. discriminate. }
  assert (RI : forall j, In j (if rd then sadd i (r_ready r) else r_ready r) <->
             In j (done ++ [i]) /\ ~ live_waits e j /\ is_ready_now e j).
  { assert (RX : rd = true <-> ~ live_waits e i /\ is_ready_now e i).
    { destruct (memb i waiting) eqn:M.
      - injection RD as <- <-. apply memb_In, WI in M. split; [discriminate|]. tauto.
      - apply memb_nIn in M.
        assert (NW : ~ live_waits e i) by (intros H; apply M, WI; rewrite DI; auto).
        split.
        + intros ->. split; auto. exists c, k, nw. auto.
        + intros [_ (c' & k' & n & H & R)]. destruct (CF _ _ H); subst.
          rewrite RD in R. congruence. }
    intros j. rewrite DI. destruct rd.
    - rewrite In_sadd, V3. destruct RX as [RX _]. specialize (RX eq_refl). split.
      + intros [-> |[? ?]]; tauto.
      + intros [[Hin| ->] Hx]; tauto.
    - rewrite V3. split; [tauto|]. intros [[Hin| ->] H]; [tauto|]. apply RX in H. discriminate. }
  split; simpl; auto.
  - (* waiting NoDup *) unfold waiting. destruct (_ || _)%bool; auto. now apply NoDup_sadd.
  - (* new ready *)
    intros j Hj.
    assert (MONO : forall j, In j (r_ready r) -> In j (if rd then sadd i (r_ready r) else r_ready r)).
    { intros j' H. destruct rd; auto. apply In_sadd. auto. }
    destruct (negb _ && _)%bool eqn:B in Hj.
    + apply In_sadd in Hj. destruct Hj as [-> |Hj].
      * apply andb_true_iff in B. destruct B as [B1 B2].
        assert (rd = true).
        { destruct rd; auto. assert (nw = false); [|subst; simpl in B2].
          - destruct (memb i waiting); [congruence|]. now apply readiness_new in RD.
          - rewrite andb_false_r in B2. discriminate. }
        subst rd. split; [apply In_sadd; auto|].
        intros O p c' -> C'. rewrite <- (cell_is_fun _ _ _ _ C C').
        rewrite O in B1. simpl in B1. apply negb_true_iff in B1. now apply pos_not_leb.
      * destruct (V4 _ Hj). auto.
    + destruct (V4 _ Hj). auto.
  - (* typecheck *)
    intros j. rewrite DI. destruct (k_typechecks k) eqn:T.
    + rewrite V5. split; [tauto|]. intros [[Hin| ->] (c' & k' & H & X)]; [eauto|].
      destruct (CF _ _ H); subst. congruence.
    + rewrite In_sadd, V5. split.
      * intros [-> |[? ?]]; [|tauto]. split; auto. eauto.
      * intros [[Hin| ->] Hx]; tauto.
  - (* flags *)
    intros j c' k' Hj H. unfold flag. simpl. rewrite dget_dset.
    destruct (Nat.eqb_spec j i) as [-> |N].
    + rewrite RI. destruct rd.
      * split; auto. intros _. apply RI. apply In_sadd. auto.
      * split; [discriminate|]. intros X. exfalso.
        destruct X as (_ & NW & (c2 & k2 & n & H2 & R)).
        destruct (CF _ _ H2); subst.
        destruct (memb i waiting) eqn:M; [apply memb_In, WI in M; tauto|].
        rewrite RD in R. congruence.
    + apply DI in Hj. destruct Hj as [Hj|]; [|contradiction].
      rewrite (RI j), DI.
      specialize (V6 j c' k' Hj H). unfold flag in V6. rewrite V6, V3. tauto.
  - (* waiting symbols *)
    intros j s. rewrite DI. unfold wsyms. destruct (is_dag (e_schedule e)) eqn:D.
    + simpl. rewrite V7. split; [tauto|].
      intros (_ & S & _). rewrite S in D. discriminate.
    + apply is_dag_iff in D. simpl. destruct (is_nil (k_waiting k)) eqn:N.
      * apply is_nil_true in N. rewrite V7. split; [tauto|].
        intros [[Hin| ->] (? & c' & k' & H & X)]; [eauto 8|].
        destruct (CF _ _ H); subst. rewrite N in X. destruct X.
      * rewrite lget_dset'. destruct (Nat.eqb_spec j i) as [-> |Ne].
        -- split; [eauto 8|]. intros (_ & _ & c' & k' & H & X). now destruct (CF _ _ H); subst.
        -- rewrite V7. split; [tauto|]. intros [[?|?] ?]; [tauto|contradiction].
  - (* killing *)
    intros j s. rewrite killing_fold, V8, DI. split.
    + intros [[? ?]|[-> ?]]; [tauto|]. eauto 8.
    + intros [[Hin| ->] (c' & k' & H & X)]; [left; eauto|]. destruct (CF _ _ H); subst. auto.
  - now apply killing_nodup.
Qed.

Lemma check_all e lp flags checked r :
  rfold (check_one e lp) checked (mkR [] [] [] [] flags [] []) = Ok r ->
  CInv e lp flags checked r.
Proof.
  apply (rfold_prefix (check_one e lp) (CInv e lp flags)).
  - split; simpl; try (intros; tauto); try constructor; try (intros; split; [intros []|tauto]).
  - intros done i t t' _. apply check_one_inv.
Qed.
