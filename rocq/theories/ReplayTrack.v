(** The tracker records every read from another cell's current execution. *)
Require Import String List ZArith Bool Arith Lia Sorted.
Import ListNotations.
Require Import Verif.Base Verif.Loops Verif.TimestampModel Verif.TimestampProofs
  Verif.SessionModel Verif.SessionSpec Verif.SessionProofs Verif.SessionInv
  Verif.SessionHist Verif.SessionLog Verif.SessionMore
  Verif.SliceModel Verif.SliceSpec Verif.SliceProofs Verif.SliceSession Verif.SliceMore
  Verif.ReplayModel Verif.ReplaySpec Verif.ReplayPure.
Local Open Scope nat_scope.

(** ** Frames: only the executing version's edges change *)

Lemma add_parent_edges_other s x u pu syms s' u' :
  add_parent_edges s x u pu syms = Ok s' -> u' <> u ->
  nth_error (heap s') u' = nth_error (heap s) u'.
Proof.
  intros H NE. unfold add_parent_edges in H.
  destruct (is_nil syms); [now injection H as <-|].
  apply rbind_Ok in H. destruct H as (c & Hc & H). apply rbind_Ok in H. destruct H as (p & Hp & H).
  apply obj_Ok in Hc. destruct (dhas _ _); [now injection H as <-|].
  destruct (Nat.eqb _ _).
  - destruct (c_prev c); [|now injection H as <-].
    apply rbind_Ok in H. destruct H as (pc & Hpc & H). injection H as <-.
    rewrite heap_set_cell by congruence. destruct (Nat.eqb_spec u' u); congruence.
  - injection H as <-. simpl.
    change (nth_error (heap (set_cell s u (with_par c x (edge_add (c_par c x) (c_id p) syms)))) u'
            = nth_error (heap s) u').
    rewrite heap_set_cell by congruence. destruct (Nat.eqb_spec u' u); congruence.
Qed.

Lemma remove_parent_edges_other s x u pid syms s' u' :
  remove_parent_edges s x u pid syms = Ok s' -> u' <> u ->
  nth_error (heap s') u' = nth_error (heap s) u'.
Proof.
  intros H NE. unfold remove_parent_edges in H.
  destruct (is_nil syms); [now injection H as <-|].
  apply rbind_Ok in H. destruct H as (c0 & _ & H). apply rbind_Ok in H. destruct H as (c & Hc & H).
  apply obj_Ok in Hc. injection H as <-. 
  change (nth_error (heap (set_cell s u (with_par c x (edge_remove (c_par c x) pid syms)))) u'
            = nth_error (heap s) u').
  rewrite heap_set_cell by congruence. destruct (Nat.eqb_spec u' u); congruence.
Qed.

Lemma remove_stale_other s x u v s' u' :
  remove_stale_ctx s x u v = Ok s' -> u' <> u ->
  nth_error (heap s') u' = nth_error (heap s) u'.
Proof.
  unfold remove_stale_ctx. intros H NE. apply rbind_Ok in H. destruct H as (pc & _ & H).
  revert H. apply (rfold_inv _ (fun t => nth_error (heap t) u' = nth_error (heap s) u')); auto.
  intros t [k e] t' _ E R. cbv beta in R. apply rbind_Ok in R. destruct R as (c & _ & R).
  rewrite <- E. eapply remove_parent_edges_other; eauto.
Qed.

Lemma finish_other s i s' u v u' : Inv s (Some i) -> current s i u v ->
  remove_dangling_parent_edges s [] = Ok s' -> u' <> u ->
  nth_error (heap s') u' = nth_error (heap s) u'.
Proof.
  intros [I _] C H NE. unfold remove_dangling_parent_edges in H.
  apply rbind_Ok in H. destruct H as (s1 & E & H). eapply remove_dangling_nil in E; eauto. subst s1.
  apply rbind_Ok in H. destruct H as (s1 & E & H). eapply remove_dangling_nil in E; eauto. subst s1.
  apply rbind_Ok in H. destruct H as (a & E & H). apply rbind_Ok in H. destruct H as (c & E0 & H).
  apply at_counter_Ok in E. destruct (i_run _ _ I i eq_refl) as (u0 & v0 & C0 & Z).
  destruct (current_fun _ _ _ _ _ _ C C0) as [<- <-].
  assert (a = u) by congruence. subst a.
  destruct (c_prev c); [|now injection H as <-].
  apply rbind_Ok in H. destruct H as (s1 & E1 & H).
  erewrite (remove_stale_other s1) by eauto. eapply remove_stale_other; eauto.
Qed.

(** ** Histories *)

Definition last_writer (T : list (list act)) (w x : nat) : Prop :=
  writes_at T w x /\ forall w', w < w' -> ~ writes_at T w' x.

Lemma writes_app a b x : writes (a ++ b) x <-> writes a x \/ writes b x.
Proof.
  unfold writes. split.
  - intros [v I]. apply in_app_or in I. destruct I; eauto.
  - intros [[v I]|[v I]]; exists v; apply in_or_app; auto.
Qed.

Lemma nth_snoc_inv {A} (l : list A) a u b : nth_error (l ++ [a]) u = Some b ->
  (u < length l /\ nth_error l u = Some b) \/ (u = length l /\ b = a).
Proof.
  intros H. destruct (Nat.lt_ge_cases u (length l)) as [L|L].
  - left. split; auto. now rewrite nth_error_app1 in H.
  - right. rewrite nth_error_app2 in H by auto.
    destruct (u - length l) as [|d] eqn:D; simpl in H.
    + injection H as <-. split; auto. lia.
    + destruct d; discriminate.
Qed.

Lemma nth_snoc_last {A} (l : list A) a : nth_error (l ++ [a]) (length l) = Some a.
Proof. rewrite nth_error_app2 by auto. now rewrite Nat.sub_diag. Qed.

Lemma writes_at_snoc D a w x : writes_at (D ++ [a]) w x <->
  (w < length D /\ writes_at D w x) \/ (w = length D /\ writes a x).
Proof.
  split.
  - intros (t & H & W). apply nth_snoc_inv in H. destruct H as [[L H]|[-> ->]]; auto.
    left. split; auto. now exists t.
  - intros [[L (t & H & W)]|[-> W]].
    + exists t. split; auto. now rewrite nth_error_app1.
    + exists a. split; auto. apply nth_snoc_last.
Qed.

Lemma reads_outside_app a b x : reads_outside a x -> reads_outside (a ++ b) x.
Proof.
  intros (p & v & q & -> & N). exists p, v, (q ++ b). split; auto. now rewrite <- app_assoc.
Qed.

(** Extending the trace of the running cell keeps what has been read so far. *)
Lemma reads_from_grow D a b u w x :
  reads_from (D ++ [a]) u w x -> reads_from (D ++ [a ++ b]) u w x.
Proof.
  intros ((t & H & R) & L & W & N). apply nth_snoc_inv in H.
  assert (Lu : u <= length D) by (destruct H as [[? _]|[-> _]]; lia).
  split.
  - destruct H as [[L' H]|[-> ->]].
    + exists t. split; auto. now rewrite nth_error_app1.
    + exists (a ++ b). split; [apply nth_snoc_last|]. now apply reads_outside_app.
  - split; auto. split.
    + apply writes_at_snoc. apply writes_at_snoc in W. destruct W as [W|[-> W]]; auto. lia.
    + intros w' B W'. apply (N w' B). apply writes_at_snoc. apply writes_at_snoc in W'.
      destruct W' as [W'|[-> W']]; auto. lia.
Qed.

Lemma reads_from_more D a u w x : reads_from D u w x -> reads_from (D ++ [a]) u w x.
Proof.
  intros ((t & H & R) & L & W & N).
  assert (Lu : u < length D) by (apply nth_error_Some; congruence).
  split; [exists t; split; auto; now rewrite nth_error_app1|]. split; auto. split.
  - apply writes_at_snoc. left. split; auto. lia.
  - intros w' B W'. apply (N w' B). apply writes_at_snoc in W'.
    destruct W' as [[_ W']|[-> W']]; auto. lia.
Qed.

Lemma reads_from_app D E u w x : reads_from D u w x -> reads_from (D ++ E) u w x.
Proof.
  revert D. induction E as [|a E IH]; intros D H; [now rewrite app_nil_r|].
  change (a :: E) with ([a] ++ E). rewrite app_assoc. apply IH. now apply reads_from_more.
Qed.

Lemma reads_from_new D u w x : reads_from (D ++ [[]]) u w x -> reads_from D u w x.
Proof.
  intros ((t & H & R) & L & W & N). apply nth_snoc_inv in H. destruct H as [[L' H]|[-> ->]].
  2:{ destruct R as (p & v & q & E & _). destruct p; discriminate. }
  split; [now exists t|]. split; auto. split.
  - apply writes_at_snoc in W. destruct W as [[_ W]|[-> W]]; auto. lia.
  - intros w' B W'. apply (N w' B). apply writes_at_snoc. left. split; auto. lia.
Qed.

Lemma reads_outside_snoc a e x : reads_outside (a ++ [e]) x ->
  reads_outside a x \/ (~ writes a x /\ exists v, e = ARd x v).
Proof.
  intros (p & v & q & E & N). destruct q as [|q0 q'] using rev_ind.
  - right. apply app_inj_tail in E. destruct E as [<- ->]. split; eauto.
    intros [v' I]. now apply (N v').
  - clear IHq'. left. exists p, v, q'. split; auto.
    change (ARd x v :: q' ++ [q0]) with ((ARd x v :: q') ++ [q0]) in E.
    rewrite app_assoc in E. apply app_inj_tail in E. tauto.
Qed.

(** What one more action adds. *)
Lemma reads_from_snoc D a e u w x : reads_from (D ++ [a ++ [e]]) u w x ->
  reads_from (D ++ [a]) u w x \/
  (u = length D /\ (exists v, e = ARd x v) /\ last_writer (D ++ [a]) w x /\ w < u).
Proof.
  intros ((t & H & R) & L & W & N). apply nth_snoc_inv in H.
  assert (Lu : u <= length D) by (destruct H as [[? _]|[-> _]]; lia).
  assert (W' : writes_at (D ++ [a]) w x).
  { apply writes_at_snoc. apply writes_at_snoc in W. destruct W as [W|[-> W]]; auto. lia. }
  assert (N' : forall w', w < w' < u -> ~ writes_at (D ++ [a]) w' x).
  { intros w' B X. apply (N w' B). apply writes_at_snoc. apply writes_at_snoc in X.
    destruct X as [X|[-> X]]; auto. lia. }
  destruct H as [[L' H]|[-> ->]].
  - left. split; [exists t; split; auto; now rewrite nth_error_app1|]. auto.
  - apply reads_outside_snoc in R. destruct R as [R|[NW R]].
    + left. split; auto. exists a. split; auto. apply nth_snoc_last.
    + right. split; auto. split; auto. split; auto. split; auto.
      intros w' B X. destruct (Nat.lt_ge_cases w' (length D)) as [L1|L1].
      * apply (N' w'); auto.
      * apply writes_at_snoc in X. destruct X as [[? _]|[_ X]]; [lia|]. contradiction.
Qed.

(** ** The invariant *)

Record K (ids : list nat) (T : list (list act)) (s : sess) : Prop := {
  k_len : length (heap s) = length ids;
  k_ctr : counter s = Z.of_nat (length ids);
  k_cell : forall u c, nth_error (heap s) u = Some c ->
     nth_error ids u = Some (c_id c) /\ c_ctr c = Z.of_nat (S u);
  k_par : forall u w x, reads_from T u w x -> exists c i, nth_error (heap s) u = Some c /\
     nth_error ids w = Some i /\ has (c_par c Dynamic) i x;
  k_ch : forall i j sym, lists_child s Dynamic i j sym -> exists u w x, reads_from T u w x /\
     nth_error ids u = Some j /\ nth_error ids w = Some i
}.

(** The dependency of a read on an execution [w] is recorded. *)
Lemma load_one ids D a s i x v w s' :
  session s (Some i) -> length ids = S (length D) -> nth_error ids (length D) = Some i ->
  K ids (D ++ [a]) s -> last_writer (D ++ [a]) w x ->
  reads_current ids (D ++ [a ++ [ARd x v]]) -> one_way ids (D ++ [a ++ [ARd x v]]) ->
  step s (EUse Dynamic (length D) w x) = Ok s' ->
  session s' (Some i) /\ K ids (D ++ [a ++ [ARd x v]]) s'.
Proof.
  intros SS Li Hi HK LW C1 C2 H. set (u := length D) in *.
  pose proof (session_inv _ _ SS) as IV. pose proof IV as [I0 _]. pose proof (i_wf _ _ I0) as WF_.
  destruct (i_run _ _ I0 i eq_refl) as (u1 & c & Cu & Zc).
  (* the running version is number [u] *)
  assert (Eu : u1 = u).
  { apply (wf_by _ WF_) in Zc. destruct Zc as (v1 & Hv1 & Ec & _).
    apply (k_cell _ _ _ HK) in Hv1. destruct Hv1 as [Hv1 Ec'].
    rewrite (k_ctr _ _ _ HK), Li in Ec. rewrite Ec' in Ec.
    unfold u. lia. }
  subst u1.
  assert (SS' : session s' (Some i)).
  { destruct SS as [l Hl]. exists (l ++ [EUse Dynamic u w x]).
    eapply H_step; [exact Hl|reflexivity| |exact H].
    simpl. intros _. exists i, c. auto. }
  split; auto.
  simpl in H. unfold add_data_dep in H.
  apply rbind_Ok in H. destruct H as (c0 & Hc & H). apply obj_Ok in Hc.
  apply rbind_Ok in H. destruct H as (p & Hp & H). apply obj_Ok in Hp.
  pose proof Cu as [Cu1 Cu2]. assert (c0 = c) by congruence. subst c0.
  destruct (k_cell _ _ _ HK _ _ Hc) as [Ic Tc]. destruct (k_cell _ _ _ HK _ _ Hp) as [Ip Tp].
  assert (Ei : c_id c = i) by congruence.
  assert (Lw : w <= u).
  { assert (w < length (heap s)) by (apply nth_error_Some; congruence).
    rewrite (k_len _ _ _ HK), Li in H0. unfold u. lia. }
  assert (Hsnoc : forall u' w' y, reads_from (D ++ [a ++ [ARd x v]]) u' w' y ->
     reads_from (D ++ [a]) u' w' y \/ (u' = u /\ y = x /\ w' = w /\ w < u)).
  { intros u' w' y R. apply reads_from_snoc in R. destruct R as [R|(E1 & [v' E2] & E3 & E4)]; auto.
    right. injection E2 as <- _. split; auto. split; auto.
    assert (w' = w); [|subst; auto].
    destruct LW as [W1 N1]. destruct E3 as [W2 N2].
    destruct (Nat.lt_trichotomy w w') as [L|[L|L]]; auto.
    - exfalso. eapply N1; eauto.
    - exfalso. eapply N2; eauto. }
  (* the case in which nothing is recorded for another cell *)
  assert (Keep : w = u -> K ids (D ++ [a ++ [ARd x v]]) s).
  { intros ->. destruct HK as [A1 A2 A3 A4 A5]. constructor; auto.
    - intros u' w' y R. apply Hsnoc in R. destruct R as [R|(_ & _ & _ & F)]; [auto|lia].
    - intros i' j' sym L. destruct (A5 _ _ _ L) as (u2 & w2 & x2 & R & E).
      exists u2, w2, x2. split; auto. now apply reads_from_grow. }
  destruct (Nat.eq_dec w u) as [->|NEw].
  - specialize (Keep eq_refl). assert (p = c) by congruence. subst p.
    destruct (is_current s u c && is_current s u c)%bool; [|now injection H as <-].
    unfold add_parent_edges in H. simpl in H.
    rewrite (proj2 (obj_Ok s u c) Hc) in H. simpl in H.
    destruct (dhas _ _); [now injection H as <-|]. rewrite Nat.eqb_refl in H.
    destruct (c_prev c) as [pv|]; [|now injection H as <-].
    apply rbind_Ok in H. destruct H as (pc & Hpc & H). injection H as <-.
    destruct Keep as [A1 A2 A3 A4 A5]. constructor; auto.
    + simpl. rewrite lset_length. auto.
    + intros u' c' Hc'. rewrite heap_set_cell in Hc' by congruence.
      destruct (Nat.eqb_spec u' u) as [->|NE]; [|auto]. injection Hc' as <-. simpl. auto.
    + intros u' w' y R. destruct (A4 _ _ _ R) as (c' & i' & B1 & B2 & B3).
      rewrite heap_set_cell by congruence. destruct (Nat.eqb_spec u' u) as [->|NE]; eauto.
      assert (c' = c) by congruence. subst c'.
      eexists _, i'. split; [reflexivity|]. split; auto. simpl.
      apply has_inherit; auto. apply obj_Ok in Hpc. apply (wf_par _ WF_ _ _ Dynamic Hpc).
  - assert (RF : reads_from (D ++ [a ++ [ARd x v]]) u w x).
    { destruct LW as [W1 N1]. split.
      - exists (a ++ [ARd x v]). split; [apply nth_snoc_last|]. exists a, v, [].
        split; auto. intros v' I. apply (N1 u); [lia|].
        apply writes_at_snoc. right. split; auto. now exists v'.
      - split; [lia|]. split.
        + apply writes_at_snoc. apply writes_at_snoc in W1. destruct W1 as [W1|[-> _]]; auto.
          now destruct NEw.
        + intros w' B X. apply (N1 w'); [lia|]. apply writes_at_snoc. apply writes_at_snoc in X.
          destruct X as [X|[-> _]]; auto. unfold u in B. lia. }
    assert (Cw : current s (c_id p) w p).
    { split; auto. destruct (dget (cur s) (c_id p)) as [w1|] eqn:E.
      - destruct (wf_last _ WF_ _ _ E) as (v1 & Hv1 & Ev1 & M).
        specialize (M _ _ Hp eq_refl). destruct (Nat.eq_dec w w1) as [->|NE]; auto.
        exfalso. apply (C1 u w x (c_id p) RF Ip w1).
        + split; [lia|]. assert (w1 < length (heap s)) by (apply nth_error_Some; congruence).
          rewrite (k_len _ _ _ HK), Li in H0. unfold u. lia.
        + apply (k_cell _ _ _ HK) in Hv1. destruct Hv1 as [-> _]. congruence.
      - pose proof (wf_known _ WF_ _ _ Hp) as Kn. apply key_dget in Kn.
        destruct Kn as [? Kn]. congruence. }
    assert (NEi : i <> c_id p).
    { intros E. apply (C1 u w x (c_id p) RF Ip u); [lia|]. congruence. }
    assert (NoCh : forall sym, ~ lists_child s Dynamic i (c_id p) sym).
    { intros sym L. destruct (k_ch _ _ _ HK _ _ _ L) as (u2 & w2 & x2 & R & E1 & E2).
      apply (C2 u w x u2 w2 x2 i (c_id p)); auto. now apply reads_from_grow. }
    assert (CC : (is_current s u c && is_current s w p)%bool = true).
    { unfold is_current. rewrite Ei, Cu1. destruct Cw as [-> _]. now rewrite !Nat.eqb_refl. }
    rewrite CC in H.
    destruct (add_parent_edges_view s (Some i) Dynamic u w [x] s' i c (c_id p) p)
      as [VP VC]; auto; [discriminate|].
    pose proof (add_parent_edges_log _ _ _ _ _ _ H) as (LG1 & LG2 & LG3).
    assert (LH : length (heap s') = length (heap s)).
    { apply (f_equal (@length _)) in LG1. unfold log_of in LG1. now rewrite !map_length in LG1. }
    assert (HH : forall u' c', nth_error (heap s') u' = Some c' ->
       nth_error ids u' = Some (c_id c') /\ c_ctr c' = Z.of_nat (S u')).
    { intros u' c' Hc'. pose proof (nth_log s' u') as Q. rewrite Hc' in Q. simpl in Q.
      rewrite LG1, nth_log in Q. destruct (nth_error (heap s) u') as [c1|] eqn:Hc1; [|discriminate].
      simpl in Q. injection Q as Q1 Q2. apply (k_cell _ _ _ HK) in Hc1.
      destruct Hc1 as [B1 B2]. split; congruence. }
    assert (PP : forall u' y q sy c', nth_error (heap s) u' = Some c' -> has (c_par c' y) q sy ->
       exists c2, nth_error (heap s') u' = Some c2 /\ has (c_par c2 y) q sy).
    { intros u' y q sy c' Hc' Hh. destruct (Nat.eq_dec u' u) as [->|NE].
      - assert (c' = c) by congruence. subst c'.
        assert (LP : lists_parent s' y i q sy) by (apply VP; left; exists u, c; auto).
        destruct LP as (u3 & c3 & [C3 C3'] & Hh3). rewrite LG3 in C3.
        assert (u3 = u) by congruence. subst. eauto.
      - exists c'. split; auto. erewrite add_parent_edges_other; eauto. }
    constructor; auto.
    + rewrite LH. apply (k_len _ _ _ HK).
    + rewrite LG2. apply (k_ctr _ _ _ HK).
    + intros u' w' y R. apply Hsnoc in R. destruct R as [R|(-> & -> & -> & _)].
      * destruct (k_par _ _ _ HK _ _ _ R) as (c' & i' & B1 & B2 & B3).
        destruct (PP _ _ _ _ _ B1 B3) as (c2 & B4 & B5). eauto.
      * assert (LP : lists_parent s' Dynamic i (c_id p) x) by (apply VP; right; simpl; auto).
        destruct LP as (u3 & c3 & [C3 C3'] & Hh3). rewrite LG3 in C3.
        assert (u3 = u) by congruence. subst. eauto.
    + intros i' j' sym L. apply VC in L. destruct L as [L|(_ & -> & -> & _)].
      * destruct (k_ch _ _ _ HK _ _ _ L) as (u2 & w2 & x2 & R & E).
        exists u2, w2, x2. split; auto. now apply reads_from_grow.
      * exists u, w, x. split; auto.
Qed.

(** ** One cell *)

Lemma last_writer_read D a x v w y :
  last_writer (D ++ [a]) w y <-> last_writer (D ++ [a ++ [ARd x v]]) w y.
Proof.
  assert (Q : forall w', writes_at (D ++ [a]) w' y <-> writes_at (D ++ [a ++ [ARd x v]]) w' y).
  { intros w'. rewrite !writes_at_snoc, writes_app.
    assert (writes [ARd x v] y <-> False); [|tauto].
    split; [|tauto]. intros [v' [E|[]]]. discriminate. }
  unfold last_writer. rewrite Q. split; intros [A B]; split; auto; intros w' L X;
    apply (B w' L); now apply Q.
Qed.

Lemma last_writer_fun T x w w' : last_writer T w x -> last_writer T w' x -> w = w'.
Proof.
  intros [A B] [C D]. destruct (Nat.lt_trichotomy w w') as [L|[L|L]]; auto.
  - exfalso. eapply B; eauto.
  - exfalso. eapply D; eauto.
Qed.

Lemma last_writer_dec T x : (exists w, last_writer T w x) \/ forall w, ~ writes_at T w x.
Proof.
  induction T as [|t T IH] using rev_ind.
  - right. intros w (t & H & _). destruct w; discriminate.
  - destruct (writes_dec t x) as [W|N].
    + left. exists (length T). split; [apply writes_at_snoc; auto|].
      intros w' L X. apply writes_at_snoc in X. destruct X as [[X _]|[X _]]; lia.
    + destruct IH as [[w [A B]]|IH].
      * left. exists w. assert (w < length T).
        { destruct A as (t' & H & _). apply nth_error_Some. congruence. }
        split; [apply writes_at_snoc; auto|].
        intros w' L X. apply writes_at_snoc in X. destruct X as [[_ X]|[_ X]]; auto.
        eapply B; eauto.
      * right. intros w X. apply writes_at_snoc in X. destruct X as [[_ X]|[_ X]]; auto.
        eapply IH; eauto.
Qed.

Lemma last_writer_write D a x v w y :
  last_writer (D ++ [a ++ [AWr x v]]) w y <->
  (y = x /\ w = length D) \/ (y <> x /\ last_writer (D ++ [a]) w y).
Proof.
  destruct (Nat.eq_dec y x) as [->|NE].
  - assert (L : last_writer (D ++ [a ++ [AWr x v]]) (length D) x).
    { split.
      - apply writes_at_snoc. right. split; auto. exists v. apply in_or_app. right. now left.
      - intros w' L X. apply writes_at_snoc in X. destruct X as [[X _]|[X _]]; lia. }
    split.
    + intros H. left. split; auto. eapply last_writer_fun; eauto.
    + intros [[_ ->]|[F _]]; auto. now destruct F.
  - assert (Q : forall w', writes_at (D ++ [a]) w' y <-> writes_at (D ++ [a ++ [AWr x v]]) w' y).
    { intros w'. rewrite !writes_at_snoc, writes_app.
      assert (writes [AWr x v] y <-> False); [|tauto].
      split; [|tauto]. intros [v' [E|[]]]. congruence. }
    unfold last_writer. rewrite <- Q.
    split.
    + intros [A B]. right. split; auto. split; auto. intros w' L X. apply (B w' L). now apply Q.
    + intros [[F _]|[_ [A B]]]; [congruence|]. split; auto. intros w' L X. apply (B w' L).
      now apply Q.
Qed.

(** A read that nothing precedes adds no dependency. *)
Lemma K_read_none ids D a s x v : K ids (D ++ [a]) s ->
  (forall w, ~ writes_at (D ++ [a]) w x) -> K ids (D ++ [a ++ [ARd x v]]) s.
Proof.
  intros [A1 A2 A3 A4 A5] N. constructor; auto.
  - intros u w y R. apply reads_from_snoc in R. destruct R as [R|(_ & [v' E] & [W _] & _)]; auto.
    injection E as <- _. exfalso. eapply N; eauto.
  - intros i j sym L. destruct (A5 _ _ _ L) as (u & w & y & R & E). exists u, w, y.
    split; auto. now apply reads_from_grow.
Qed.

Lemma K_write ids D a s x v : K ids (D ++ [a]) s -> K ids (D ++ [a ++ [AWr x v]]) s.
Proof.
  intros [A1 A2 A3 A4 A5]. constructor; auto.
  - intros u w y R. apply reads_from_snoc in R. destruct R as [R|(_ & [v' E] & _)]; auto.
    discriminate.
  - intros i j sym L. destruct (A5 _ _ _ L) as (u & w & y & R & E). exists u, w, y.
    split; auto. now apply reads_from_grow.
Qed.

Lemma reads_current_grow ids T T' : (forall u w x, reads_from T u w x -> reads_from T' u w x) ->
  reads_current ids T' -> reads_current ids T.
Proof. intros G C u w x i R. apply (C u w x i). auto. Qed.

Lemma one_way_grow ids T T' : (forall u w x, reads_from T u w x -> reads_from T' u w x) ->
  one_way ids T' -> one_way ids T.
Proof. intros G C u w x u' w' x' i j NE R R'. apply (C u w x u' w' x' i j); auto. Qed.

Lemma exec_K : forall p ids D a t i t' tr,
  session (t_sess t) (Some i) -> length ids = S (length D) ->
  nth_error ids (length D) = Some i ->
  K ids (D ++ [a]) (t_sess t) ->
  (forall x w, t_last t x = Some w <-> last_writer (D ++ [a]) w x) ->
  reads_current ids (D ++ [a ++ tr]) -> one_way ids (D ++ [a ++ tr]) ->
  exec t (length D) p = Ok (t', tr) ->
  session (t_sess t') (Some i) /\ K ids (D ++ [a ++ tr]) (t_sess t') /\
  (forall x w, t_last t' x = Some w <-> last_writer (D ++ [a ++ tr]) w x) /\
  eval (t_store t) p = (t_store t', tr).
Proof.
  induction p as [|x k IH|x v p IH]; intros ids D a t i t' tr SS Li Hi HK LW C1 C2 H; simpl in H.
  - injection H as <- <-. rewrite app_nil_r. auto.
  - apply rbind_Ok in H. destruct H as (t1 & Hl & H). apply rmap_Ok in H.
    destruct H as ([t2 tr2] & H & E). simpl in E. injection E as E1 E2. subst t2 tr.
    set (v := t_store t x) in *.
    assert (EA : a ++ ARd x v :: tr2 = (a ++ [ARd x v]) ++ tr2) by (now rewrite <- app_assoc).
    rewrite EA in *.
    assert (G : forall u w y, reads_from (D ++ [a ++ [ARd x v]]) u w y ->
       reads_from (D ++ [(a ++ [ARd x v]) ++ tr2]) u w y) by (intros; now apply reads_from_grow).
    assert (X : session (t_sess t1) (Some i) /\ K ids (D ++ [a ++ [ARd x v]]) (t_sess t1) /\
                t_store t1 = t_store t /\ t_last t1 = t_last t).
    { unfold load in Hl. destruct (t_last t x) as [w|] eqn:Lx.
      - apply rmap_Ok in Hl. destruct Hl as (s' & Hs & Es). subst t1. simpl.
        apply LW in Lx.
        destruct (load_one ids D a (t_sess t) i x v w s') as [Y1 Y2]; auto.
        + eapply reads_current_grow; eauto.
        + eapply one_way_grow; eauto.
      - injection Hl as <-. split; auto. split; auto. apply K_read_none; auto.
        destruct (last_writer_dec (D ++ [a]) x) as [[w L]|N]; auto.
        apply LW in L. congruence. }
    destruct X as (S1 & K1 & E1 & E2).
    destruct (IH v ids D (a ++ [ARd x v]) t1 i t' tr2) as (Y1 & Y2 & Y3 & Y4); auto.
    { intros y w. rewrite E2. rewrite LW. apply last_writer_read. }
    split; auto. split; auto. split; auto. simpl. fold v.
    rewrite E1 in Y4. rewrite Y4. reflexivity.
  - apply rmap_Ok in H. destruct H as ([t2 tr2] & H & E). simpl in E. injection E as E1 E2. subst t2 tr.
    assert (EA : a ++ AWr x v :: tr2 = (a ++ [AWr x v]) ++ tr2) by (now rewrite <- app_assoc).
    rewrite EA in *.
    destruct (IH ids D (a ++ [AWr x v]) (save t (length D) x v) i t' tr2)
      as (Y1 & Y2 & Y3 & Y4); auto.
    + simpl. now apply K_write.
    + intros y w. simpl. rewrite last_writer_write, <- LW.
      destruct (Nat.eqb_spec y x) as [->|NE].
      * split; [intros [= <-]; auto|]. intros [[_ ->]|[F _]]; auto. now destruct F.
      * split; [auto|]. intros [[F _]|[_ F]]; auto. contradiction.
    + split; auto. split; auto. split; auto. simpl in *. rewrite Y4. reflexivity.
Qed.

Lemma nth_prefix {A} (l m : list A) u a : nth_error l u = Some a -> nth_error (l ++ m) u = Some a.
Proof.
  intros H. rewrite nth_error_app1; auto. apply nth_error_Some. congruence.
Qed.

Lemma exec_cell_K ids D t c t' tr :
  session (t_sess t) None -> length ids = length D -> K ids D (t_sess t) ->
  (forall x w, t_last t x = Some w <-> last_writer D w x) ->
  reads_current (ids ++ [fst c]) (D ++ [tr]) -> one_way (ids ++ [fst c]) (D ++ [tr]) ->
  exec_cell t c = Ok (t', tr) ->
  session (t_sess t') None /\ K (ids ++ [fst c]) (D ++ [tr]) (t_sess t') /\
  (forall x w, t_last t' x = Some w <-> last_writer (D ++ [tr]) w x) /\
  eval (t_store t) (snd c) = (t_store t', tr).
Proof.
  destruct c as [i p]. simpl fst. simpl snd. intros SS Li HK LW C1 C2 H.
  unfold exec_cell in H. simpl fst in H. simpl snd in H.
  apply rbind_Ok in H. destruct H as (s1 & H1 & H).
  apply rbind_Ok in H. destruct H as (u & Hu & H).
  apply rbind_Ok in H. destruct H as ([t2 tr2] & H2 & H).
  apply rbind_Ok in H. destruct H as (s3 & H3 & H). injection H as <- E. simpl in E. subst tr2.
  simpl in H2, H3.
  (* the new version *)
  assert (S1 : session s1 (Some i)).
  { destruct SS as [l Hl]. exists (l ++ [EExec i None false]).
    eapply H_step; [exact Hl|simpl; auto|simpl; discriminate|exact H1]. }
  destruct HK as [A1 A2 A3 A4 A5].
  assert (HC : exists c1, heap s1 = heap (t_sess t) ++ [c1] /\ c_id c1 = i /\
      c_ctr c1 = (counter (t_sess t) + 1)%Z /\ counter s1 = (counter (t_sess t) + 1)%Z /\
      ch s1 = ch (t_sess t)).
  { simpl in H1. apply rmap_Ok in H1. destruct H1 as ([s1' u'] & H1 & E). simpl in E. subst s1'.
    unfold create_and_track in H1.
    destruct (_ && _)%bool in H1; [discriminate|].
    destruct (match dget (cur (t_sess t)) i with None => _ | Some _ => _ end) as [pc|];
      [|discriminate].
    injection H1 as <- _. simpl. eexists. split; [reflexivity|]. simpl. auto. }
  destruct HC as (c1 & Hh & Ei & Ec & Ect & Ech).
  assert (Lh : length (heap (t_sess t)) = length D) by congruence.
  assert (Eu : u = length D).
  { apply at_counter_Ok in Hu. pose proof (session_inv _ _ S1) as [I0 _].
    apply (wf_by _ (i_wf _ _ I0)) in Hu. destruct Hu as (v1 & Hv & Ev & _).
    rewrite Hh in Hv. apply nth_snoc_inv in Hv. destruct Hv as [[L Hv]|[-> ->]]; [|congruence].
    apply A3 in Hv. destruct Hv as [_ Hv]. lia. }
  subst u.
  assert (K1 : K (ids ++ [i]) (D ++ [[]]) s1).
  { constructor.
    - rewrite Hh, !app_length. simpl. lia.
    - rewrite Ect, A2, app_length. simpl. lia.
    - intros u' c' Hc'. rewrite Hh in Hc'. apply nth_snoc_inv in Hc'.
      destruct Hc' as [[L Hc']|[-> ->]].
      + apply A3 in Hc'. destruct Hc' as [B1 B2]. split; auto. now apply nth_prefix.
      + split; [|lia]. rewrite A1. rewrite nth_snoc_last. congruence.
    - intros u' w x R. apply reads_from_new in R. destruct (A4 _ _ _ R) as (c' & i' & B1 & B2 & B3).
      exists c', i'. rewrite Hh. split; [now apply nth_prefix|]. split; auto. now apply nth_prefix.
    - intros i' j sym L. unfold lists_child, children_of in L. rewrite Ech in L.
      destruct (A5 i' j sym L) as (u' & w & x & R & B1 & B2). exists u', w, x.
      split; [now apply reads_from_more|]. split; now apply nth_prefix. }
  assert (LW1 : forall x w, t_last t x = Some w <-> last_writer (D ++ [[]]) w x).
  { intros x w. rewrite LW.
    assert (Q : forall w', writes_at D w' x <-> writes_at (D ++ [[]]) w' x).
    { intros w'. rewrite writes_at_snoc. split.
      - intros W. left. split; auto. destruct W as (t0 & W & _). apply nth_error_Some. congruence.
      - intros [[_ W]|[_ [v []]]]; auto. }
    unfold last_writer. rewrite Q. split; intros [B1 B2]; split; auto; intros w' L X;
      apply (B2 w' L); now apply Q. }
  destruct (exec_K p (ids ++ [i]) D [] (mkT s1 (t_store t) (t_last t)) i t2 tr)
    as (Y1 & Y2 & Y3 & Y4); auto.
  { rewrite app_length. simpl. lia. }
  { rewrite <- Li. apply nth_snoc_last. }
  simpl in Y1, Y2, Y3, Y4.
  assert (S3 : session s3 None).
  { destruct Y1 as [l Hl]. exists (l ++ [EFinish []]).
    eapply H_step; [exact Hl|simpl; split; [discriminate|auto]|simpl; auto|exact H3]. }
  split; auto. split; [|split; auto].
  simpl. pose proof (session_inv _ _ Y1) as IV. pose proof IV as [I0 _].
  destruct (i_run _ _ I0 i eq_refl) as (u3 & c3 & Cu & Zc).
  assert (LG : log_of s3 = log_of (t_sess t2) /\ counter s3 = counter (t_sess t2)).
  { destruct Y1 as [l Hl]. pose proof (history_log _ _ _ Hl) as Q1.
    assert (Hl3 : history restricted (l ++ [EFinish []]) s3 None).
    { eapply H_step; [exact Hl|simpl; split; [discriminate|auto]|simpl; auto|exact H3]. }
    pose proof (history_log _ _ _ Hl3) as Q3. unfold log_after in Q3.
    rewrite fold_left_app in Q3. simpl in Q3.
    fold (log_after l) in Q3. rewrite Q1 in Q3. simpl in Q3. injection Q3 as Q3 Q4. auto. }
  destruct LG as [LG1 LG2].
  pose proof (finish_nil_parents _ _ _ IV H3) as FP.
  destruct Y2 as [B1 B2 B3 B4 B5]. constructor.
  + assert (length (log_of s3) = length (log_of (t_sess t2))) by congruence.
    unfold log_of in H. rewrite !map_length in H. congruence.
  + congruence.
  + intros u' c' Hc'. pose proof (nth_log s3 u') as Q. rewrite Hc' in Q. simpl in Q.
    rewrite LG1, nth_log in Q. destruct (nth_error (heap (t_sess t2)) u') as [c2|] eqn:Hc2; [|discriminate].
    simpl in Q. injection Q as Q1 Q2. apply B3 in Hc2. destruct Hc2 as [Z1 Z2]. split; congruence.
  + intros u' w x R. destruct (B4 _ _ _ R) as (c' & i' & Z1 & Z2 & Z3).
    destruct (Nat.eq_dec u' u3) as [->|NE].
    * assert (LP : lists_parent s3 Dynamic i i' x).
      { apply FP. exists u3, c3. split; auto. destruct Cu as [_ Cu]. congruence. }
      destruct LP as (u4 & c4 & C4 & Hh4). exists c4, i'. split; [|auto].
      assert (u4 = u3); [|subst; apply C4].
      destruct (WF_presents s3 (i_wf _ _ (proj1 (session_inv _ _ S3)))) as (_ & P3 & _).
      destruct (WF_presents (t_sess t2) (i_wf _ _ I0)) as (_ & P2 & _).
      destruct C4 as [C4 _]. apply from_id_Ok in C4. apply P3 in C4. rewrite LG1 in C4.
      apply P2 in C4. apply from_id_Ok in C4. destruct Cu as [Cu _]. congruence.
    * exists c', i'. split; auto. erewrite finish_other; eauto.
  + intros i' j sym L. apply (B5 i' j sym). pose proof (session_inv _ _ S3) as [I3 _].
    apply (i_down _ _ I3) in L. destruct L as [L|[F _]]; [|discriminate].
    apply FP in L. now apply (i_up _ _ I0) in L.
Qed.

(** ** A whole session *)

Lemma exec_cells_K : forall l ids D t t' T,
  session (t_sess t) None -> length ids = length D -> K ids D (t_sess t) ->
  (forall x w, t_last t x = Some w <-> last_writer D w x) ->
  reads_current (ids ++ map fst l) (D ++ T) -> one_way (ids ++ map fst l) (D ++ T) ->
  exec_cells t l = Ok (t', T) ->
  session (t_sess t') None /\ K (ids ++ map fst l) (D ++ T) (t_sess t') /\
  T = behaviours (t_store t) (map snd l).
Proof.
  induction l as [|c l IH]; intros ids D t t' T SS Li HK LW C1 C2 H; simpl in H.
  - injection H as <- <-. simpl. rewrite !app_nil_r. auto.
  - apply rbind_Ok in H. destruct H as ([t1 tr] & H1 & H). apply rmap_Ok in H.
    destruct H as ([t2 T2] & H2 & E). simpl in E. injection E as E1 E2. subst t2 T. simpl in H2.
    simpl map in *.
    change (fst c :: map fst l) with ([fst c] ++ map fst l) in *.
    change (tr :: T2) with ([tr] ++ T2) in *. rewrite !app_assoc in *.
    assert (G : forall u w x, reads_from (D ++ [tr]) u w x -> reads_from ((D ++ [tr]) ++ T2) u w x)
      by (intros; now apply reads_from_app).
    destruct (exec_cell_K ids D t c t1 tr) as (Y1 & Y2 & Y3 & Y4); auto.
    { intros u w x i R Hi u' B F. apply (C1 u w x i (G _ _ _ R) (nth_prefix _ _ _ _ Hi) u' B).
      now apply nth_prefix. }
    { intros u w x u' w' x' i j NE R R' E1 E2 E3 E4.
      apply (C2 u w x u' w' x' i j NE (G _ _ _ R) (G _ _ _ R')); now apply nth_prefix. }
    destruct (IH (ids ++ [fst c]) (D ++ [tr]) t1 t' T2) as (Z1 & Z2 & Z3); auto.
    { rewrite !app_length. simpl. lia. }
    split; auto. split; auto. simpl. rewrite Y4. simpl. now rewrite Z3.
Qed.

Lemma session_of_K l s : session_of l = Ok s ->
  let T := behaviours empty (map snd l) in
  forall T', (exists t, exec_cells t_init l = Ok (t, T') /\ t_sess t = s) -> 
  reads_current (map fst l) T' -> one_way (map fst l) T' ->
  session s None /\ K (map fst l) T s /\ T' = T.
Proof.
  intros H T T' (t & E & <-) C1 C2.
  destruct (exec_cells_K l [] [] t_init t T') as (A & B & C); auto.
  - exists []. constructor.
  - constructor; simpl; auto.
    + intros u c Hc. destruct u; discriminate.
    + intros u w x ((t0 & F & _) & _). destruct u; discriminate.
    + intros i j sym (ll & F & _). discriminate.
  - intros x w. simpl. split; [discriminate|]. intros [(t0 & F & _) _]. destruct w; discriminate.
  - simpl in *. split; auto. subst T'. auto.
Qed.
