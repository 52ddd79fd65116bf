(** Exact characterisation of readiness. *)
Require Import List ZArith Bool Arith Lia Permutation.
Import ListNotations.
Require Import Verif.Base Verif.Loops Verif.TimestampModel Verif.TimestampProofs
  Verif.SessionModel Verif.SliceModel Verif.SliceProofs Verif.PosModel Verif.PosSpec
  Verif.PosProofs Verif.FrontModel Verif.FrontSpec Verif.FrontDag Verif.FrontLinks
  Verif.FrontMain Verif.FrontLatest Verif.FrontReady Verif.FrontPipe Verif.FrontTotal.
Local Open Scope nat_scope.

Lemma pos_tri a b : above a b \/ a = b \/ above b a.
Proof.
  destruct a, b; simpl; auto.
  destruct (Z.lt_trichotomy z z0) as [H|[->|H]]; auto.
Qed.

Lemma not_above_leb a b : ~ above a b -> pos_leb b a = true.
Proof.
  intros H. destruct (pos_leb b a) eqn:B; auto. exfalso. apply H, pos_ltb_above.
  unfold pos_ltb. now rewrite B.
Qed.

Section One.
Variables (e : fenv) (i : nat) (c : fcell).
Hypothesis Hc : cell_is e i c.
Hypothesis DP : e_in_order e = true -> distinct_positions e.

Lemma uses_parent s j : uses e i s j -> parent e i j.
Proof. intros (x & raw & _ & P & _). exists x, raw. auto. Qed.

(** The latest-parent filter, exactly. *)
Lemma not_latest_iff m x pid p raw : e_in_order e = true ->
  latest_parents e c = Ok (Some m) -> par_edge e x i pid raw -> cell_is e pid p ->
  (not_latest e (Some m) pid (sdiff raw (f_removed c)) = Ok false <->
   still_used c raw (e_fake e) \/ exists s, still_used c raw s /\ lowest_source e i s pid).
Proof.
  intros O L P Cp. split.
  - intros NL. destruct (not_latest_false e i c Hc m pid _ L NL) as [F|(s & Hs & LS)].
    + intros s Hs. eapply usable; eauto.
    + left. now apply still_used_In.
    + right. exists s. split; auto. now apply still_used_In.
  - intros H. destruct (not_latest_total e i c Hc (Some m) pid (sdiff raw (f_removed c)) L)
      as (b & B); eauto.
    { intros s Hs. eapply usable; eauto. }
    rewrite B. destruct b; auto. exfalso. unfold not_latest in B.
    destruct (memb (e_fake e) _) eqn:F; [discriminate|].
    apply memb_nIn in F. rewrite still_used_In in F.
    destruct H as [H|(s & Hs & LS)]; [contradiction|].
    apply rmap_Ok in B. destruct B as (l & B & X). apply negb_true_iff, memb_nIn in X. apply X.
    assert (G : forall s k q, In s (sdiff raw (f_removed c)) ->
              tsget m (s_shallow (e_syms e s)) = Some (k, q) -> In k l).
    { revert B. apply (rfold_prefix _ (fun done l => forall s k q, In s done ->
              tsget m (s_shallow (e_syms e s)) = Some (k, q) -> In k l)).
      - intros ? ? ? [].
      - intros done a t t' _ IH B s' k' q Hs' T. apply rmap_Ok in B.
        destruct B as ([k2 q2] & B & <-). apply of_option_Ok in B.
        apply in_or_app. apply in_app_or in Hs'. destruct Hs' as [Hs'|[<-|[]]].
        + left. eapply IH; eauto.
        + right. left. simpl. congruence. }
    destruct (latest_spec e i c Hc m L) as (SR & CV).
    assert (sF : s <> e_fake e) by (intros ->; auto).
    assert (Us : uses e i s pid) by (exists x, raw, c; auto).
    destruct (CV s pid p Us sF Cp) as (k & pk & T & LE).
    destruct (SR _ _ _ T) as (s1 & p1 & U1 & N1 & T1 & C1 & ->).
    pose proof (LS s1 k p p1 U1 N1 T1 Cp C1) as NA. apply not_above_leb in NA.
    assert (f_pos p = f_pos p1).
    { destruct (pos_tri (f_pos p) (f_pos p1)) as [A|[A|A]]; auto.
      - apply pos_leb_not_above in NA. contradiction.
      - apply pos_leb_not_above in LE. contradiction. }
    assert (k = pid).
    { apply (DP O i k pid p1 p); auto.
      - eapply uses_parent; eauto.
      - eapply uses_parent; eauto. }
    subst k. apply (G s pid (f_pos p1)); auto. now apply still_used_In.
Qed.

Lemma shadowed_false p syms : forall l b, shadowed e p syms l = Ok b ->
  (b = false <-> forall j raw p', In (j, raw) l -> cell_is e j p' ->
     above (f_pos p) (f_pos p') ->
     ~ In (e_fake e) raw /\ exists s, In s syms /\ ~ In s raw).
Proof.
  induction l as [|[j raw] l IH]; simpl; intros b E.
  - injection E as <-. split; auto. intros _ ? ? ? [].
  - apply rbind_Ok in E. destruct E as (o & C & E). apply fcell_of_Ok in C.
    destruct (pos_leb (f_pos o) (f_pos p)) eqn:L.
    + rewrite (IH _ E). apply pos_leb_not_above in L. split.
      * intros H j' raw' p' [[= <- <-]|H1] H2 H3; [|eauto].
        rewrite (cell_is_fun _ _ _ _ C H2) in L. contradiction.
      * eauto.
    + assert (A : above (f_pos p) (f_pos o)).
      { apply pos_ltb_above. unfold pos_ltb. now rewrite L. }
      destruct (subset syms raw || memb (e_fake e) raw)%bool eqn:S.
      * injection E as <-. split; [discriminate|]. intros H. exfalso.
        destruct (H j raw o) as (F & s & Hs & N); auto.
        apply orb_true_iff in S. destruct S as [S|S].
        -- apply subset_incl in S. auto.
        -- apply memb_In in S. auto.
      * apply orb_false_iff in S. destruct S as [S1 S2]. apply memb_nIn in S2.
        rewrite (IH _ E). split.
        -- intros H j' raw' p' [[= <- <-]|H1] H2 H3; [|eauto].
           split; auto.
           destruct (existsb (fun s => negb (memb s raw)) syms) eqn:X.
           ++ apply existsb_exists in X. destruct X as (s & Hs & X).
              apply negb_true_iff, memb_nIn in X. eauto.
           ++ exfalso. assert (subset syms raw = true); [|congruence].
              apply subset_incl. intros s Hs. apply memb_In.
              destruct (memb s raw) eqn:M; auto. exfalso.
              assert (existsb (fun s => negb (memb s raw)) syms = true); [|congruence].
              apply existsb_exists. exists s. rewrite M. auto.
        -- eauto.
Qed.

Lemma passes_iff x latest d j p raw : In x (e_ctxs e) ->
  latest_parents e c = Ok latest -> dparents e x c = Ok d ->
  par_edge e x i j raw -> cell_is e j p ->
  (exists b, (if (e_in_order e && ctx_eqb x Static)%bool
   then shadowed e p (sdiff raw (f_removed c)) d else Ok false) = Ok b) ->
  (passes e x c latest d j p raw <-> selected e x i j c p raw).
Proof.
  intros Hx L D P Cj (b & B). unfold passes, selected. rewrite B.
  assert (O : e_in_order e = true \/ e_in_order e = false)
    by (destruct (e_in_order e); auto).
  destruct O as [O|O]; rewrite O in B; rewrite O at 1.
  - assert (exists m, latest = Some m) as (m & ->).
    { unfold latest_parents in L. rewrite O in L. apply rmap_Ok in L. destruct L as (m & _ & <-). eauto. }
    rewrite (not_latest_iff m x j p raw O L P Cj). simpl in B.
    assert (SH : x = Static -> (b = false <-> forall j' raw' p', par_edge e x i j' raw' ->
       cell_is e j' p' -> above (f_pos p) (f_pos p') ->
       ~ In (e_fake e) raw' /\ exists s, still_used c raw s /\ ~ In s raw')).
    { intros ->. simpl in B. rewrite (shadowed_false _ _ _ _ B). split.
      - intros H j' raw' p' P' C' A'. destruct (H j' raw' p') as (F & s & Hs & N); auto.
        + now apply (dparents_par e Static i c d).
        + split; auto. exists s. split; auto. now apply still_used_In.
      - intros H j' raw' p' P' C' A'. destruct (H j' raw' p') as (F & s & Hs & N); auto.
        + now apply (dparents_par e Static i c d).
        + split; auto. exists s. split; auto. now apply still_used_In. }
    split.
    + intros [A [= ->]] _. split; auto. intros X. now apply SH.
    + intros H. destruct (H eq_refl) as (A & A'). split; auto. f_equal.
      destruct x; [simpl in B; congruence|]. apply (proj2 (SH eq_refl)). exact (A' eq_refl).
  - simpl in B. injection B as <-.
    assert (latest = None) by (unfold latest_parents in L; rewrite O in L; congruence).
    subst latest. simpl. split; auto. discriminate.
Qed.

End One.

(** What readiness computes. *)
Lemma readiness_iff e i c k r n :
  registered e -> (e_in_order e = true -> distinct_positions e) ->
  cell_is e i c -> readiness e c k = Ok (r, n) ->
  (r = true <-> e_schedule e <> LivenessBased /\ stale_by_parent e i c \/ stale_by_liveness e c k) /\
  (n = true <-> newly_stale e i c k).
Proof.
  intros Reg DP Hc E. unfold readiness in E. apply rbind_Ok in E. destruct E as ([r1 n1] & E & H).
  simpl in H.
  assert (A : (r1 = true <-> e_schedule e <> LivenessBased /\ stale_by_parent e i c) /\
    (n1 = true <-> e_schedule e <> LivenessBased /\ (0 < f_ctr c)%Z /\
      exists x j raw p, par_edge e x i j raw /\ cell_is e j p /\
      changed_since e c p raw /\ selected e x i j c p raw /\ is_new_at e (f_ctr p))).
  { destruct (is_dag (e_schedule e)) eqn:Dg.
    - assert (S : e_schedule e <> LivenessBased) by (intros X; rewrite X in Dg; discriminate).
      apply rbind_Ok in E. destruct E as (latest & L & E).
      destruct (ready_ctxs_spec e i c latest Hc _ _ _ _ (incl_refl _) E) as (R & N).
      assert (PI : forall x d j raw p, In x (e_ctxs e) -> dparents e x c = Ok d ->
        par_edge e x i j raw -> cell_is e j p ->
        (passes e x c latest d j p raw <-> selected e x i j c p raw)).
      { intros x d j raw p Hx D P Cj. apply passes_iff; auto.
        destruct (e_in_order e && ctx_eqb x Static)%bool; [|eauto].
        apply (shadowed_total e). intros j' s' H'. exact (dparents_known e Reg i c x d j' s' Hc D H'). }
      assert (PX : forall x j raw, par_edge e x i j raw -> In x (e_ctxs e)).
      { intros x j raw (? & _ & ? & _). auto. }
      split.
      + rewrite R. split.
        * intros [X|(x & d & j & raw & p & H1 & H2 & H3 & H4 & H5)]; [discriminate|].
          split; auto. exists x, j, raw, p. split; auto. split; auto.
          destruct H5 as [H5|[H5 H6]]; auto. right. split; auto.
          now apply (PI x d j raw p).
        * intros (_ & x & j & raw & p & H3 & H4 & H5). right.
          destruct (dparents_total e Reg i c x Hc) as (d & D).
          exists x, d, j, raw, p. split; [eauto|]. split; auto. split; auto. split; auto.
          destruct H5 as [H5|[H5 H6]]; auto. right. split; auto.
          apply (PI x d j raw p); eauto.
      + rewrite N. split.
        * intros (x & d & j & raw & p & H1 & H2 & H3 & H4 & H5 & H6 & H7 & H8).
          split; auto. split; auto. exists x, j, raw, p. split; auto. split; auto. split; auto.
          split; auto. now apply (PI x d j raw p).
        * intros (_ & H5 & x & j & raw & p & H3 & H4 & H6 & H7 & H8).
          destruct (dparents_total e Reg i c x Hc) as (d & D).
          exists x, d, j, raw, p. split; [eauto|]. split; auto. split; auto. split; auto.
          split; auto. split; auto. split; auto. apply (PI x d j raw p); eauto.
    - apply is_dag_iff in Dg. injection E as <- <-.
      split; (split; [discriminate|]); intros [X _]; congruence. }
  destruct A as (A1 & A2).
  assert (NR : n1 = true -> r1 = true).
  { intros X. apply A1. apply A2 in X. destruct X as (S & _ & x & j & raw & p & H1 & H2 & H3 & H4 & _).
    split; auto. exists x, j, raw, p. auto. }
  set (app := match e_schedule e with
           | LivenessBased => true
           | HybridDagLiveness => e_in_order e
           | DagBased => false
           end) in *.
  assert (AP : app = true <-> e_schedule e = LivenessBased \/
               (e_schedule e = HybridDagLiveness /\ e_in_order e = true)).
  { unfold app. destruct (e_schedule e); split; auto; try discriminate.
    - intros [X|[X _]]; discriminate.
    - intros [X|[_ X]]; [discriminate|auto]. }
  assert (LT : (Z.max (f_ctr c) (e_min_ts e) <? k_max_ctr k)%Z = true <->
     (f_ctr c < k_max_ctr k)%Z /\ (e_min_ts e < k_max_ctr k)%Z).
  { rewrite Z.ltb_lt, Z.max_lub_lt_iff. tauto. }
  assert (NW : (min_new_ready e <=? k_max_ctr k)%Z = true <-> is_new_at e (k_max_ctr k)).
  { unfold min_new_ready, is_new_at. rewrite Z.leb_le, !Z.max_lub_iff. tauto. }
  unfold newly_stale, stale_by_liveness. rewrite <- AP, <- LT, <- NW.
  destruct (negb n1 && app)%bool eqn:B.
  - apply andb_true_iff in B. destruct B as [B1 B2]. apply negb_true_iff in B1. subst n1.
    rewrite B2. destruct (_ <? _)%Z eqn:LL.
    + injection H as <- <-. split; [tauto|]. rewrite andb_true_iff, Z.ltb_lt. split.
      * intros [? ?]. tauto.
      * intros (P & [X|[_ X]]); auto. assert (false = true); [|discriminate].
        apply A2. destruct X as (X1 & X2). auto.
    + injection H as <- <-. split.
      * rewrite A1. split; [tauto|]. intros [?|[_ ?]]; [tauto|discriminate].
      * split; [discriminate|]. intros (P & [X|[[_ X] _]]); [|discriminate].
        apply A2. destruct X as (X1 & X2). auto.
  - injection H as <- <-. split.
    + split; [tauto|]. intros [X|[X _]]; [tauto|]. apply NR.
      rewrite X, andb_true_r in B. now apply negb_false_iff in B.
    + split.
      * intros X. apply A2 in X. tauto.
      * intros (P & [X|[[X _] _]]).
        -- apply A2. destruct X as (X1 & X2). auto.
        -- rewrite X, andb_true_r in B. now apply negb_false_iff in B.
Qed.

Lemma ready_now_iff e i :
  registered e -> (e_in_order e = true -> distinct_positions e) ->
  (~ live_waits e i /\ is_ready_now e i <-> needs_run e i).
Proof.
  intros Reg DP. unfold is_ready_now, needs_run. split.
  - intros (NW & c & k & n & [C K] & R). exists c, k.
    split; [split; auto|]. split; auto.
    now apply (readiness_iff e i c k true n).
  - intros (c & k & [C K] & NW & S). split; auto.
    destruct (readiness_total e Reg i c k C) as ([r n] & E).
    exists c, k, n. split; [split; auto|]. rewrite E.
    assert (r = true) as ->; auto. now apply (readiness_iff e i c k r n).
Qed.

(** ** Newly ready cells *)

Definition new_reason (e : fenv) (lp : option pos) (flags : dict bool) (i : nat) : Prop :=
  exists c k r n, checked_with e i c k /\ ~ live_waits e i /\ readiness e c k = Ok (r, n) /\
    (e_in_order e = true -> forall p, lp = Some p -> above p (f_pos c)) /\
    (n = true \/ ((0 < f_ctr c)%Z /\ dget flags i <> Some true /\ r = true /\
                  (min_new_ready e <= e_counter e)%Z)).

Lemma blocked_iff e lp c :
  (e_in_order e && match lp with None => false | Some p => pos_leb (f_pos c) p end)%bool = false
  <-> (e_in_order e = true -> forall p, lp = Some p -> above p (f_pos c)).
Proof.
  rewrite andb_false_iff. split.
  - intros [H|H] O p ->; [congruence|]. now apply pos_not_leb.
  - intros H. destruct (e_in_order e); auto. right. destruct lp as [p|]; auto.
    destruct (pos_leb (f_pos c) p) eqn:L; auto. apply pos_leb_not_above in L.
    exfalso. apply L. auto.
Qed.

Record NInv (e : fenv) (lp : option pos) (flags : dict bool) (done : list nat) (r : fres) : Prop := {
  ni_base : CInv e lp flags done r;
  ni_flags : forall i, ~ In i done -> dget (r_flags r) i = dget flags i;
  ni_new : NoDup done -> forall i, In i (r_new_ready r) <-> In i done /\ new_reason e lp flags i
}.

Lemma check_one_new e lp flags done r i r' :
  NInv e lp flags done r -> check_one e lp r i = Ok r' -> NInv e lp flags (done ++ [i]) r'.
Proof.
  intros [V F N] E. pose proof (check_one_inv _ _ _ _ _ _ _ V E) as V'. split; auto.
  - unfold check_one in E. apply rbind_Ok in E. destruct E as (c & C & E).
    intros j Hj. assert (j <> i /\ ~ In j done) as [NJ ND].
    { rewrite in_app_iff in Hj. simpl in Hj. split; [intros ->|]; tauto. }
    destruct (f_check c) as [k|]; [|injection E as <-; auto]. cbv zeta in E.
    apply rbind_Ok in E. destruct E as ([rd nw] & _ & E). injection E as <-. simpl.
    rewrite dget_dset. destruct (Nat.eqb_spec j i); [contradiction|auto].
  - intros ND. assert (ND' : NoDup done /\ ~ In i done).
    { apply NoDup_remove in ND. rewrite app_nil_r in ND. auto. }
    destruct ND' as (ND' & NI). specialize (N ND'). intros j.
    rewrite in_app_iff. simpl.
    unfold check_one in E. apply rbind_Ok in E. destruct E as (c & C & E). apply fcell_of_Ok in C.
    assert (OLD : ~ new_reason e lp flags i ->
              (In j (r_new_ready r) <-> (In j done \/ i = j \/ False) /\ new_reason e lp flags j)).
    { intros X. rewrite N. split; [tauto|]. intros [[H|[->|[]]] H']; tauto. }
    destruct (f_check c) as [k|] eqn:K.
    2: { injection E as <-. apply OLD. intros (c' & k' & _ & _ & [C' K'] & _).
         rewrite <- (cell_is_fun _ _ _ _ C C') in K'. congruence. }
    assert (CW : checked_with e i c k) by (split; auto).
    cbv zeta in E.
    apply rbind_Ok in E. destruct E as ([rd nw] & RD & E).
    match type of RD with (if memb i ?w then _ else _) = _ => set (waiting := w) in * end.
    assert (WI : memb i waiting = true <-> live_waits e i).
    { rewrite memb_In. replace waiting with (r_waiting r') by (injection E as <-; reflexivity).
      rewrite (ci_waiting _ _ _ _ _ V'), in_app_iff. simpl. tauto. }
    assert (WAS : flag r i = true <-> dget flags i = Some true).
    { unfold flag. rewrite (F i NI). destruct (dget flags i); split; congruence. }
    injection E as <-. simpl.
    match goal with |- In j (if ?b then _ else _) <-> _ => destruct b eqn:B end.
    + apply andb_true_iff in B. destruct B as [B1 B2]. apply negb_true_iff in B1.
      pose proof (proj1 (blocked_iff e lp c) B1) as BL.
      assert (NR : new_reason e lp flags i).
      { destruct (memb i waiting) eqn:M.
        - injection RD as <- <-. simpl in B2. rewrite andb_false_r in B2. discriminate.
        - exists c, k, rd, nw. split; auto. split; [intros X; apply WI in X; congruence|].
          split; auto. split; auto. apply orb_true_iff in B2. destruct B2 as [B2|B2]; auto.
          right. rewrite !andb_true_iff in B2. destruct B2 as (((H1 & H2) & H3) & H4).
          apply Z.ltb_lt in H1. apply Z.leb_le in H4. split; auto. split; auto.
          intros X. apply WAS in X. rewrite X in H2. discriminate. }
      rewrite In_sadd, N. split.
      * intros [->|[H H']]; auto.
      * intros [[H|[<-|[]]] H']; auto.
    + apply OLD. intros (c' & k' & r2 & n2 & C' & NL & R2 & BL & X).
      destruct (checked_fun _ _ _ _ _ _ CW C'); subst c' k'.
      destruct (memb i waiting) eqn:M; [apply NL; now apply WI|].
      rewrite RD in R2. injection R2 as -> ->.
      apply (proj2 (blocked_iff e lp c)) in BL. rewrite BL in B. simpl in B.
      apply orb_false_iff in B. destruct B as [-> B].
      destruct X as [X|(X1 & X2 & -> & X4)]; [discriminate|].
      apply Z.ltb_lt in X1. apply Z.leb_le in X4. rewrite X1, X4 in B. simpl in B.
      rewrite !andb_true_r in B. apply negb_false_iff in B. apply X2, WAS. exact B.
Qed.

Lemma check_all_new e lp flags checked r :
  rfold (check_one e lp) checked (mkR [] [] [] [] flags [] []) = Ok r ->
  NInv e lp flags checked r.
Proof.
  apply (rfold_prefix (check_one e lp) (NInv e lp flags)).
  - split.
    + now apply check_all.
    + auto.
    + intros _ i. simpl. tauto.
  - intros done i t t' _. apply check_one_new.
Qed.

(** ** The report, exactly *)

Section Report.
Variables (e : fenv) (tc : list nat) (last : option nat) (tagged : list nat)
  (flags : dict bool) (p : report).
Hypothesis E : compute e tc last tagged flags = Ok p.
Hypothesis Reg : registered e.
Hypothesis DP : e_in_order e = true -> distinct_positions e.

Lemma report_exact : exists needs,
  (forall i, In i needs <-> In i tc /\ needs_run e i) /\
  (e_schedule e <> LivenessBased -> forall i, In i (p_waiting p) <-> must_wait e tc needs [] i) /\
  (e_schedule e = LivenessBased -> forall i, In i (p_waiting p) <-> In i tc /\ live_waits e i) /\
  (forall i, In i (p_ready p) <-> In i needs /\ ~ In i (p_waiting p)).
Proof.
  assert (S : e_schedule e <> LivenessBased \/ e_schedule e = LivenessBased).
  { destruct (e_schedule e); auto; left; discriminate. }
  destruct S as [S|S].
  - destruct (report_dag e tc last tagged flags p E S) as (needs & A & B & C).
    exists needs. split; [|split; [auto|split; [contradiction|auto]]].
    intros i. rewrite A, <- (ready_now_iff e i Reg DP). split; [|tauto].
    intros [H H']. split; auto. split; auto. intros [X _]. contradiction.
  - destruct (report_live e tc last tagged flags p E S) as (A & B).
    exists (p_ready p). split; [|split; [congruence|split; [auto|]]].
    + intros i. rewrite B, <- (ready_now_iff e i Reg DP). tauto.
    + intros i. split; [|tauto]. intros H. split; auto.
      now apply (report_sets e tc last tagged flags p E).
Qed.

Lemma report_new_exact : NoDup tc -> forall i, In i (p_new_ready p) <->
  In i tc /\ ~ In i (p_waiting p) /\ exists c k, checked_with e i c k /\
    (e_in_order e = true -> forall l cl, last = Some l -> cell_is e l cl ->
       above (f_pos cl) (f_pos c)) /\
    (newly_stale e i c k \/
     ((0 < f_ctr c)%Z /\ dget flags i <> Some true /\ needs_run e i /\
      (e_min_new e <= e_counter e)%Z /\ (e_min_ts e <= e_counter e)%Z)).
Proof.
  intros ND i. destruct (compute_stages _ _ _ _ _ _ E) as (lp & checked & r1 & r & d & V).
  pose proof (st_inv _ _ _ _ _ _ _ _ _ _ _ V) as I.
  pose proof (st_checked _ _ _ _ _ _ _ _ _ _ _ V) as PM.
  assert (MEM : forall x, In x checked <-> In x tc).
  { intros x. split; apply Permutation_in; auto using Permutation_sym. }
  pose proof (check_all_new _ _ _ _ _ (st_check _ _ _ _ _ _ _ _ _ _ _ V)) as [_ _ NN].
  assert (NDc : NoDup checked) by (apply (Permutation_NoDup (Permutation_sym PM)); auto).
  specialize (NN NDc).
  assert (X : In i (p_new_ready p) <-> In i (r_new_ready r1) /\ ~ In i (p_waiting p)).
  { rewrite (st_new _ _ _ _ _ _ _ _ _ _ _ V), (st_waiting _ _ _ _ _ _ _ _ _ _ _ V).
    pose proof (st_dag _ _ _ _ _ _ _ _ _ _ _ V) as D.
    destruct (is_dag (e_schedule e)) eqn:Dg.
    - now destruct (dag_waiters_spec _ _ _ _ Dg D) as (_ & _ & A & _).
    - unfold dag_waiters in D. rewrite Dg in D. injection D as <-.
      split; [|tauto]. intros H. split; auto. apply (ci_new _ _ _ _ _ I) in H.
      destruct H as [H _]. apply (ci_ready _ _ _ _ _ I) in H.
      rewrite (ci_waiting _ _ _ _ _ I). tauto. }
  assert (LPI : forall c, (e_in_order e = true -> forall q, lp = Some q -> above q (f_pos c)) <->
    (e_in_order e = true -> forall l cl, last = Some l -> cell_is e l cl ->
       above (f_pos cl) (f_pos c))).
  { intros c. pose proof (st_last _ _ _ _ _ _ _ _ _ _ _ V) as L. split.
    - intros H O l cl -> Cl. destruct L as (cl' & Cl' & ->).
      rewrite (cell_is_fun _ _ _ _ Cl Cl'). auto.
    - intros H O q ->. destruct last as [l|]; [|discriminate].
      destruct L as (cl' & Cl' & [= ->]). eauto. }
  rewrite X, NN, MEM. split.
  - intros [[Hi (c & k & rd & nw & CW & NL & R & BL & Y)] NW].
    split; auto. split; auto. exists c, k. split; auto. split; [now apply LPI|].
    destruct CW as [C K]. destruct (readiness_iff e i c k rd nw Reg DP C R) as (R1 & R2).
    destruct Y as [Y|(Y1 & Y2 & Y3 & Y4)].
    + left. now apply R2.
    + right. split; auto. split; auto. split; [|unfold min_new_ready in Y4; lia].
      exists c, k. split; [split; auto|]. split; auto. now apply R1.
  - intros (Hi & NW & c & k & CW & BL & Y). split; auto. split; auto.
    assert (NL : ~ live_waits e i).
    { intros LW. apply NW. destruct LW as [S LW]. 
      apply (report_live e tc last tagged flags p E S). split; auto. split; auto. }
    pose proof CW as [C K].
    destruct (readiness_total e Reg i c k C) as ([rd nw] & R).
    destruct (readiness_iff e i c k rd nw Reg DP C R) as (R1 & R2).
    exists c, k, rd, nw. split; auto. split; auto. split; auto. split; [now apply LPI|].
    destruct Y as [Y|(Y1 & Y2 & Y3 & Y4)].
    + left. now apply R2.
    + right. split; auto. split; auto. split; [|unfold min_new_ready; lia].
      apply R1. destruct Y3 as (c' & k' & CW' & _ & Y3).
      now destruct (checked_fun _ _ _ _ _ _ CW CW'); subst.
Qed.

End Report.

(** In an acyclic notebook the waiting cells are those behind a ready one. *)
Lemma behind_ready e tc needs waiting ready :
  acyclic e ->
  (forall i, In i waiting <-> must_wait e tc needs [] i) ->
  (forall i, In i ready <-> In i needs /\ ~ In i waiting) ->
  forall i, In i waiting <-> must_wait e tc ready [] i.
Proof.
  intros AC W R.
  assert (STEP : forall i, must_wait e tc needs [] i ->
    exists r, In r needs /\ ancestor e i r /\
      (In r ready \/ must_wait e tc ready [] r -> must_wait e tc ready [] i)).
  { induction 1 as [i []|i j H1 H2 H3|i j H1 H2 H3 (r & Hr & A & IH)].
    - exists j. split; auto. split; [now apply anc_one|]. intros [H|H].
      + now apply (mw_ready _ _ _ _ i j).
      + now apply (mw_wait _ _ _ _ i j).
    - exists r. split; auto. split; [eapply anc_more; eauto|].
      intros H. apply (mw_wait _ _ _ _ i j); auto. }
  assert (G : forall k i chain, NoDup chain -> incl chain needs ->
            (forall c, In c chain -> c = i \/ ancestor e c i) ->
            length needs - length chain <= k ->
            must_wait e tc needs [] i -> must_wait e tc ready [] i).
  { induction k as [|k IH]; intros i chain ND IN CH LE Hi;
      destruct (STEP i Hi) as (r & Hr & A & K); apply K;
      (destruct (in_dec Nat.eq_dec r waiting) as [Wr|Wr]; [|left; now apply R]).
    - exfalso. assert (NI : ~ In r chain).
      { intros H. destruct (CH r H) as [->|H']; [exact (AC _ A)|].
        exact (AC _ (ancestor_trans _ _ _ _ H' A)). }
      assert (L : length (r :: chain) <= length needs).
      { apply NoDup_incl_length; [constructor; auto|]. intros y [<-|Hy]; auto. }
      simpl in L. lia.
    - right. assert (NI : ~ In r chain).
      { intros H. destruct (CH r H) as [->|H']; [exact (AC _ A)|].
        exact (AC _ (ancestor_trans _ _ _ _ H' A)). }
      apply (IH r (r :: chain)).
      + constructor; auto.
      + intros y [<-|Hy]; auto.
      + intros c [<-|Hc]; auto. right. destruct (CH c Hc) as [->|H']; auto.
        eapply ancestor_trans; eauto.
      + simpl. lia.
      + now apply W. }
  intros i. rewrite W. split.
  - intros H. apply (G (length needs) i []); auto.
    + constructor.
    + intros y [].
    + intros c [].
    + simpl. lia.
  - induction 1 as [i []|i j H1 H2 H3|i j H1 H2 H3 IH].
    + apply (mw_ready _ _ _ _ i j); auto. now apply R.
    + now apply (mw_wait _ _ _ _ i j).
Qed.
