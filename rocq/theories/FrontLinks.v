(** Proofs about the waiter links. *)
Require Import List ZArith Bool Arith Lia.
Import ListNotations.
Require Import Verif.Base Verif.Loops Verif.FrontModel Verif.FrontSpec.
Local Open Scope nat_scope.

Section Links.
  Variable W : list nat.
  Variable d0 : dict (list nat).

  Let link0 (a b : nat) : Prop := In b (lget d0 a).
  Let U : list nat := concat (dvals d0).

  Definition no_self (d : dict (list nat)) : Prop := forall w, In w W -> ~ In w (lget d w).

  (** The union taken in one step. *)
  Definition grown (d : dict (list nat)) (w : nat) : list nat :=
    fold_left (fun acc m => if memb m W then supd acc (lget d m) else acc)
              (lget d w) (lget d w).

  Lemma grown_In d w r : In r (grown d w) <->
    In r (lget d w) \/ exists m, In m (lget d w) /\ In m W /\ In r (lget d m).
  Proof.
    unfold grown.
    apply (fold_left_prefix
      (fun acc m => if memb m W then supd acc (lget d m) else acc)
      (fun done acc => In r acc <->
         In r (lget d w) \/ exists m, In m done /\ In m W /\ In r (lget d m))).
    - split; auto. intros [|(m & [] & _)]; auto.
    - intros done m acc _ IH. destruct (memb m W) eqn:M.
      + apply memb_In in M. rewrite In_supd, IH. split.
        * intros [[|(m' & ? & ? & ?)]|]; auto.
          -- right. exists m'. rewrite in_app_iff. auto.
          -- right. exists m. rewrite in_app_iff. simpl. auto.
        * intros [|(m' & H & ? & ?)]; auto. rewrite in_app_iff in H.
          destruct H as [|[<-|[]]]; auto. left. right. eauto.
      + apply memb_nIn in M. rewrite IH. split.
        * intros [|(m' & ? & ? & ?)]; auto. right. exists m'. rewrite in_app_iff. auto.
        * intros [|(m' & H & ? & ?)]; auto. rewrite in_app_iff in H.
          destruct H as [|[<-|[]]]; auto. right. eauto. contradiction.
  Qed.

  Lemma grown_NoDup d w : NoDup (lget d w) -> NoDup (grown d w).
  Proof.
    intros H. unfold grown. apply fold_left_inv; auto.
    intros m acc _ N. destruct (memb m W); auto. now apply NoDup_supd.
  Qed.

  Lemma link_cell_eq d ch w : link_cell W (d, ch) w =
    (dset d w (sdiff (grown d w) [w]),
     (ch || negb (Nat.eqb (length (lget d w)) (length (sdiff (grown d w) [w]))))%bool).
  Proof. reflexivity. Qed.

  Lemma lget_dset d k l i : lget (dset d k l) i = if Nat.eqb i k then l else lget d i.
  Proof. unfold lget. rewrite dget_dset. destruct (Nat.eqb i k); auto. Qed.

  Lemma In_sdiff1 l w r : In r (sdiff l [w]) <-> In r l /\ r <> w.
  Proof. rewrite In_sdiff. simpl. split; intros [? ?]; split; auto; try congruence. intros [<-|[]]; auto. Qed.

  (** *** Invariants of every step *)
  Record LInv (d : dict (list nat)) : Prop := {
    li_nodup : forall w, NoDup (lget d w);
    li_univ : forall w, incl (lget d w) U;
    li_sound : forall w r, In r (lget d w) -> link_path W link0 w r;
    li_init : forall w r, In r (lget d0 w) -> r <> w -> In r (lget d w)
  }.

  Lemma link_path_trans a b c : link_path W link0 a b -> In b W -> link_path W link0 b c ->
    link_path W link0 a c.
  Proof. induction 1; intros; eapply lp_more; eauto. Qed.

  Lemma link_cell_inv d ch w : LInv d -> LInv (fst (link_cell W (d, ch) w)).
  Proof.
    intros [N Un S I]. rewrite link_cell_eq. simpl. split.
    - intros k. rewrite lget_dset. destruct (Nat.eqb_spec k w); auto.
      unfold sdiff. apply NoDup_filter, grown_NoDup, N.
    - intros k. rewrite lget_dset. destruct (Nat.eqb_spec k w); [|apply Un].
      intros r Hr. apply In_sdiff1 in Hr. destruct Hr as [Hr _]. apply grown_In in Hr.
      destruct Hr as [Hr|(m & _ & _ & Hr)]; eapply Un; eauto.
    - intros k r. rewrite lget_dset. destruct (Nat.eqb_spec k w); [|apply S].
      subst k. intros Hr. apply In_sdiff1 in Hr. destruct Hr as [Hr _]. apply grown_In in Hr.
      destruct Hr as [Hr|(m & Hm & Wm & Hr)]; auto. eapply link_path_trans; eauto.
    - intros k r Hr Ne. rewrite lget_dset. destruct (Nat.eqb_spec k w); [|apply I; auto].
      subst k. apply In_sdiff1. split; auto. apply grown_In. left. auto.
  Qed.

  Lemma pass_inv : forall l st, LInv (fst st) -> LInv (fst (fold_left (link_cell W) l st)).
  Proof.
    induction l as [|w l IH]; intros st H; [exact H|].
    simpl. apply IH. destruct st as [d ch]. now apply link_cell_inv.
  Qed.

  Lemma link_cell_no_self d ch w :
    no_self d -> no_self (fst (link_cell W (d, ch) w)).
  Proof.
    intros H k Hk. rewrite link_cell_eq. simpl. rewrite lget_dset.
    destruct (Nat.eqb_spec k w); [|apply H, Hk]. subst. rewrite In_sdiff1. tauto.
  Qed.

  Lemma pass_no_self : forall l st, no_self (fst st) ->
    no_self (fst (fold_left (link_cell W) l st)).
  Proof.
    induction l as [|w l IH]; intros st H; [exact H|].
    simpl. apply IH. destruct st as [d ch]. now apply link_cell_no_self.
  Qed.

  (** After one pass no waiting cell links to itself. *)
  Lemma pass_clears_self : forall l st,
    forall w, In w l -> ~ In w (lget (fst (fold_left (link_cell W) l st)) w).
  Proof.
    intros l. induction l as [|a l IH] using rev_ind; intros st w Hw; [destruct Hw|].
    rewrite fold_left_app. simpl.
    destruct (fold_left (link_cell W) l st) as [d ch] eqn:E.
    rewrite link_cell_eq. simpl. rewrite lget_dset. destruct (Nat.eqb_spec w a).
    - subst. rewrite In_sdiff1. tauto.
    - apply in_app_or in Hw. destruct Hw as [Hw|[Hw|[]]]; [|congruence].
      specialize (IH st w Hw). rewrite E in IH. exact IH.
  Qed.

  (** *** A pass that reports no change *)
  Definition same_sets (d d' : dict (list nat)) : Prop :=
    forall w r, In r (lget d w) <-> In r (lget d' w).

  Lemma ch_mono : forall l st, snd st = true -> snd (fold_left (link_cell W) l st) = true.
  Proof.
    induction l as [|w l IH]; intros [d ch] H; [exact H|].
    simpl in H. subst ch. simpl fold_left. apply IH. reflexivity.
  Qed.

  Lemma step_no_change d w : LInv d -> no_self d -> In w W ->
    length (lget d w) = length (sdiff (grown d w) [w]) ->
    forall r, In r (sdiff (grown d w) [w]) <-> In r (lget d w).
  Proof.
    intros [N _ _ _] NS Hw L r.
    assert (I : incl (lget d w) (sdiff (grown d w) [w])).
    { intros x Hx. apply In_sdiff1. split.
      - apply grown_In. auto.
      - intros ->. exact (NS _ Hw Hx). }
    split; [|apply I].
    apply (NoDup_length_incl (N w)); auto. lia.
  Qed.

  Lemma pass_fix : forall l d d', incl l W -> LInv d -> no_self d ->
    fold_left (link_cell W) l (d, false) = (d', false) ->
    same_sets d d' /\
    forall w m r, In w l -> In m (lget d w) -> In m W -> In r (lget d m) -> r <> w ->
                  In r (lget d w).
  Proof.
    induction l as [|a l IH]; intros d d' I V NS E.
    - simpl in E. injection E as <-. split; [intros w r; tauto|]. intros ? ? ? [].
    - simpl fold_left in E.
      destruct (Nat.eqb_spec (length (lget d a)) (length (sdiff (grown d a) [a]))) as [L|L].
      2: { exfalso. apply Nat.eqb_neq in L.
           assert (T : snd (fold_left (link_cell W) l
                 (dset d a (sdiff (grown d a) [a]),
                  (false || negb (Nat.eqb (length (lget d a))
                     (length (sdiff (grown d a) [a]))))%bool)) = true).
           { apply ch_mono. simpl. now rewrite L. }
           discriminate (eq_trans (eq_sym T) (f_equal snd E)). }
      assert (Wa : In a W) by (apply I; left; auto).
      pose proof (step_no_change d a V NS Wa L) as SN.
      set (d1 := dset d a (sdiff (grown d a) [a])).
      assert (SS : same_sets d d1).
      { intros w r. unfold d1. rewrite lget_dset. destruct (Nat.eqb_spec w a); [|tauto].
        subst. rewrite SN. tauto. }
      change (fold_left (link_cell W) l
                (d1, (false || negb (Nat.eqb (length (lget d a))
                    (length (sdiff (grown d a) [a]))))%bool) = (d', false)) in E.
      rewrite (proj2 (Nat.eqb_eq _ _) L) in E. simpl in E.
      destruct (IH d1 d') as [A B]; auto.
      + intros x Hx. apply I. right; auto.
      + apply (link_cell_inv d false a V).
      + apply (link_cell_no_self d false a NS).
      + split.
        * intros w r. rewrite (SS w r). apply A.
        * intros w m r [<-|Hw] Hm Wm Hr Ne.
          -- apply SN. apply In_sdiff1. split; auto. apply grown_In. right. eauto.
          -- apply SS. apply (B w m r); auto; now apply SS.
  Qed.

  (** *** The loop *)
  Lemma loop_exact : forall fuel d d', LInv d -> no_self d ->
    link_loop fuel W d = Ok d' ->
    LInv d' /\ no_self d' /\
    forall w m r, In w W -> In m (lget d' w) -> In m W -> In r (lget d' m) -> r <> w ->
                  In r (lget d' w).
  Proof.
    induction fuel as [|f IH]; intros d d' V NS E; [discriminate|].
    simpl link_loop in E.
    destruct (fold_left (link_cell W) W (d, false)) as [d1 ch] eqn:P.
    pose proof (pass_inv W (d, false) V) as V1. rewrite P in V1. simpl in V1.
    pose proof (pass_no_self W (d, false) NS) as N1. rewrite P in N1. simpl in N1.
    destruct ch.
    - apply (IH d1); auto.
    - injection E as <-.
      destruct (pass_fix W d d1 (incl_refl W) V NS P) as [SS C].
      split; auto. split; auto. intros w m r Hw Hm Wm Hr Ne.
      apply SS. apply (C w m r); auto; now apply SS.
  Qed.

  Lemma loop_complete d' : LInv d' ->
    (forall w m r, In w W -> In m (lget d' w) -> In m W -> In r (lget d' m) -> r <> w ->
                  In r (lget d' w)) ->
    forall w r, link_path W link0 w r -> In w W -> ~ In r W -> In r (lget d' w).
  Proof.
    intros V C w r H. induction H as [w r L|w m r L Wm H IH]; intros Ww Nr.
    - apply (li_init _ V); auto. intros ->. contradiction.
    - destruct (Nat.eq_dec m w) as [->|N]; [auto|].
      apply (C w m r); auto.
      + apply (li_init _ V); auto.
      + intros ->. contradiction.
  Qed.

  Lemma LInv_start : py_sets d0 -> LInv d0.
  Proof.
    intros [ND NL]. split.
    - intros w. unfold lget. destruct (dget d0 w) eqn:E; [|constructor].
      apply (NL w). now apply dget_In.
    - intros w r Hr. unfold lget in Hr. destruct (dget d0 w) eqn:E; [|destruct Hr].
      apply in_concat. exists l. split; auto. apply dget_In in E.
      change l with (snd (w, l)). unfold dvals. now apply in_map.
    - intros w r Hr. now apply lp_one.
    - auto.
  Qed.

  (** *** Termination *)
  Definition total (d : dict (list nat)) : nat :=
    list_sum (map (fun w => length (lget d w)) W).

  Lemma sum_le {A} (f g : A -> nat) l : (forall a, In a l -> f a <= g a) ->
    list_sum (map f l) <= list_sum (map g l).
  Proof.
    induction l as [|a l IH]; simpl; intros H; [lia|].
    pose proof (H a (or_introl eq_refl)). specialize (IH (fun b Hb => H b (or_intror Hb))). lia.
  Qed.

  Lemma sum_lt {A} (f g : A -> nat) l a : (forall a, In a l -> f a <= g a) ->
    In a l -> f a < g a -> list_sum (map f l) < list_sum (map g l).
  Proof.
    induction l as [|b l IH]; simpl; intros H Ha L; [destruct Ha|destruct Ha as [<-|Ha]].
    - pose proof (sum_le f g l (fun b Hb => H b (or_intror Hb))). lia.
    - pose proof (H b (or_introl eq_refl)).
      specialize (IH (fun b Hb => H b (or_intror Hb)) Ha L). lia.
  Qed.

  Lemma total_bound d : LInv d -> total d <= length W * length U.
  Proof.
    intros V. unfold total. induction W as [|w l IH]; simpl; [lia|].
    assert (length (lget d w) <= length U).
    { apply NoDup_incl_length; [apply (li_nodup _ V)|apply (li_univ _ V)]. }
    lia.
  Qed.

  Lemma step_grows d w : LInv d -> no_self d -> In w W ->
    length (lget d w) <= length (sdiff (grown d w) [w]).
  Proof.
    intros V NS Hw. apply NoDup_incl_length; [apply (li_nodup _ V)|].
    intros x Hx. apply In_sdiff1. split.
    - apply grown_In. auto.
    - intros ->. exact (NS _ Hw Hx).
  Qed.

  Lemma pass_total : forall l d ch, incl l W -> LInv d -> no_self d ->
    let r := fold_left (link_cell W) l (d, ch) in
    total d <= total (fst r) /\ (ch = false -> snd r = true -> total d < total (fst r)).
  Proof.
    induction l as [|a l IH]; intros d ch I V NS.
    - simpl. split; [lia|]. intros -> ?. discriminate.
    - simpl fold_left. cbv zeta.
      assert (Wa : In a W) by (apply I; left; auto).
      pose proof (step_grows d a V NS Wa) as G.
      set (d1 := dset d a (sdiff (grown d a) [a])).
      assert (LE : forall w, In w W -> length (lget d w) <= length (lget d1 w)).
      { intros w Hw. unfold d1. rewrite lget_dset. destruct (Nat.eqb_spec w a); [subst|]; lia. }
      pose proof (sum_le (fun w => length (lget d w)) (fun w => length (lget d1 w)) W LE) as T1.
      fold (total d) in T1. fold (total d1) in T1.
      set (ch1 := (ch || negb (Nat.eqb (length (lget d a))
                    (length (sdiff (grown d a) [a]))))%bool).
      destruct (IH d1 ch1) as [A B].
      + intros x Hx. apply I. right; auto.
      + apply (link_cell_inv d false a V).
      + apply (link_cell_no_self d false a NS).
      + change (total d <= total (fst (fold_left (link_cell W) l (d1, ch1))) /\
          (ch = false -> snd (fold_left (link_cell W) l (d1, ch1)) = true ->
           total d < total (fst (fold_left (link_cell W) l (d1, ch1))))).
        split; [lia|]. intros -> H.
        unfold ch1 in *. simpl in *.
        destruct (Nat.eqb_spec (length (lget d a)) (length (sdiff (grown d a) [a]))) as [L|L].
        * specialize (B eq_refl H). lia.
        * apply Nat.lt_le_trans with (total d1); [|exact A].
          apply (sum_lt _ _ W a LE Wa). unfold d1. rewrite lget_dset, Nat.eqb_refl. lia.
  Qed.

  Lemma loop_total : forall fuel d, LInv d -> no_self d ->
    length W * length U - total d < fuel -> exists d', link_loop fuel W d = Ok d'.
  Proof.
    induction fuel as [|f IH]; intros d V NS L; [lia|].
    simpl link_loop.
    pose proof (pass_total W d false (incl_refl W) V NS) as T. cbv zeta in T.
    destruct (fold_left (link_cell W) W (d, false)) as [d1 ch] eqn:P. simpl in T.
    pose proof (pass_inv W (d, false) V) as V1. rewrite P in V1. simpl in V1.
    pose proof (pass_no_self W (d, false) NS) as N1. rewrite P in N1. simpl in N1.
    destruct ch; eauto. apply IH; auto.
    pose proof (total_bound d1 V1). destruct T as [_ T]. specialize (T eq_refl eq_refl). lia.
  Qed.

  Lemma links_total : py_sets d0 -> exists r, compute_links W d0 = Ok r.
  Proof.
    intros PS. pose proof (LInv_start PS) as V. unfold compute_links, link_fuel.
    fold U. remember (S (length W * length U)) as f.
    simpl link_loop.
    destruct (fold_left (link_cell W) W (d0, false)) as [d1 ch] eqn:P.
    pose proof (pass_inv W (d0, false) V) as V1. rewrite P in V1. simpl in V1.
    assert (N1 : no_self d1).
    { intros w Hw. pose proof (pass_clears_self W (d0, false) w Hw) as X.
      now rewrite P in X. }
    destruct ch; [|simpl; eauto].
    destruct (loop_total f d1 V1 N1) as [d' E]; [lia|].
    rewrite E. simpl. eauto.
  Qed.
End Links.

(** ** The final step *)

Lemma lget_dset' d k l i : lget (dset d k l) i = if Nat.eqb i k then l else lget d i.
Proof. apply lget_dset. Qed.

Definition fin_step (W : list nat) (st : dict (list nat) * dict (list nat)) (w : nat) :=
  let '(d, m) := st in
  let l := sdiff (lget d w) W in
  (dset d w l, fold_left (fun m r => dset m r (sadd w (lget m r))) l m).

Lemma invert_fold w : forall l m r v,
  In v (lget (fold_left (fun m r => dset m r (sadd w (lget m r))) l m) r) <->
  In v (lget m r) \/ (v = w /\ In r l).
Proof.
  induction l as [|a l IH]; intros m r v; simpl.
  - tauto.
  - rewrite IH, lget_dset'. destruct (Nat.eqb_spec r a).
    + subst. rewrite In_sadd. tauto.
    + split; [tauto|]. intros [?|[-> [<-|?]]]; tauto.
Qed.

Lemma finish_spec W d d' m : finish_links W d = (d', m) ->
  (forall w r, In r (lget d' w) <-> In r (lget d w) /\ (In w W -> ~ In r W)) /\
  (forall w r, In w (lget m r) <-> In w W /\ In r (lget d' w)).
Proof.
  assert (EQ : finish_links W d = fold_left (fin_step W) W (d, [])) by reflexivity.
  rewrite EQ. intros E.
  assert (P : forall done st, st = fold_left (fin_step W) done (d, []) ->
    incl done W ->
    (forall w r, In r (lget (fst st) w) <-> In r (lget d w) /\ (In w done -> ~ In r W)) /\
    (forall w r, In w (lget (snd st) r) <-> In w done /\ In r (lget d w) /\ ~ In r W)).
  { intros done. induction done as [|a done IH] using rev_ind; intros st -> I.
    - simpl. split; intros w r; tauto.
    - rewrite fold_left_app. simpl.
      destruct (fold_left (fin_step W) done (d, [])) as [d1 m1] eqn:E1.
      destruct (IH (d1, m1) eq_refl) as [A B].
      { intros x Hx. apply I, in_app_iff. auto. }
      simpl in A, B. unfold fin_step. simpl. split.
      + intros w r. rewrite lget_dset'. rewrite in_app_iff. simpl.
        destruct (Nat.eqb_spec w a).
        * subst. rewrite In_sdiff, A. tauto.
        * rewrite A. split; [|tauto]. intros [X Y]. split; auto.
          intros [?|[?|[]]]; [auto|congruence].
      + intros w r. rewrite invert_fold, B, In_sdiff, A, in_app_iff. simpl.
        split.
        * intros [?|(-> & ? & ?)]; tauto.
        * intros ([?|[<-|[]]] & ? & ?); tauto. }
  destruct (P W (d', m) (eq_sym E) (incl_refl W)) as [A B]. simpl in A, B.
  split; auto. intros w r. rewrite B, A. tauto.
Qed.

Lemma links_exact W d d' m :
  py_sets d -> no_self W d -> compute_links W d = Ok (d', m) ->
  forall w r, In w W ->
    (In r (lget d' w) <-> ~ In r W /\ link_path W (fun a b => In b (lget d a)) w r).
Proof.
  intros PS NS E w r Hw. unfold compute_links in E. apply rmap_Ok in E.
  destruct E as (d1 & E1 & E2).
  destruct (loop_exact W d (link_fuel W d) d d1 (LInv_start W d PS) NS E1) as (V & NS1 & C).
  destruct (finish_spec _ _ _ _ E2) as [A _]. rewrite A. split.
  - intros [X Y]. split; auto. now apply (li_sound _ _ _ V).
  - intros [X Y]. split; auto. now apply (loop_complete W d d1 V C).
Qed.

Lemma links_sound W d d' m :
  py_sets d -> compute_links W d = Ok (d', m) ->
  forall w r, In w W -> In r (lget d' w) ->
    ~ In r W /\ link_path W (fun a b => In b (lget d a)) w r.
Proof.
  intros PS E w r Hw Hr. unfold compute_links in E. apply rmap_Ok in E.
  destruct E as (d1 & E1 & E2).
  assert (V : LInv W d d1).
  { clear - PS E1. revert E1. generalize (link_fuel W d).
    assert (V : LInv W d d) by now apply LInv_start.
    intros fuel. revert V. generalize d at 2 3.
    induction fuel as [|f IH]; intros dd V E; [discriminate|].
    simpl link_loop in E.
    destruct (fold_left (link_cell W) W (dd, false)) as [d2 ch] eqn:P.
    pose proof (pass_inv W d W (dd, false) V) as V1. rewrite P in V1. simpl in V1.
    destruct ch; [eauto|]. injection E as <-. auto. }
  destruct (finish_spec _ _ _ _ E2) as [A _]. apply A in Hr. destruct Hr as [X Y].
  split; auto. now apply (li_sound _ _ _ V).
Qed.
