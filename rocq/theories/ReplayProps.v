(** Property theorems C12: re-running a slice. *)
Require Import String List ZArith Bool Arith Lia Sorted.
Import ListNotations.
Require Import Verif.Base Verif.Loops Verif.TimestampModel Verif.TimestampProofs
  Verif.SessionModel Verif.SessionSpec Verif.SessionProofs Verif.SessionInv
  Verif.SessionLog Verif.SliceModel Verif.SliceSpec Verif.SliceProofs
  Verif.SliceSession Verif.SliceMore Verif.ReplayModel Verif.ReplaySpec Verif.ReplayPure
  Verif.ReplayTrack Verif.ReplayTotal.
Local Open Scope nat_scope.

(** * Concrete cases used below *)

(** Variables: 0 is [a], 1 is [b], 2 is [c]. *)
Definition set_a : prog := Wr 0 5 Ret.                                  (* a = 5 *)
Definition set_b : prog := Wr 1 7 Ret.                                  (* b = 7 *)
Definition c_from_a : prog :=                                           (* c = a + 1 *)
  Rd 0 (fun v => match v with Some n => Wr 2 (n + 1) Ret | None => Ret end).
Definition bump_a : prog :=                                             (* a = a + 1 *)
  Rd 0 (fun v => match v with Some n => Wr 0 (n + 1) Ret | None => Ret end).
Definition choose : prog :=                              (* c = b if a > 5 else 0 *)
  Rd 0 (fun v => match v with
                 | Some n => if (5 <? n)%Z
                             then Rd 1 (fun w => match w with Some m => Wr 2 m Ret | None => Ret end)
                             else Wr 2 0 Ret
                 | None => Ret end).

Definition plain_text (_ : nat) : string := ""%string.

(** * C12 *)

(** For every collection of objects created in order of execution, if every read of a value
    is recorded as a dependency on the execution that wrote it, then running only the
    elements of a slice gives each of them its original inputs and outputs. *)
Theorem C12_replay : forall w ctxs seeds sl ps,
  length ps = length (objs w) ->
  (forall a b oa ob, a < b -> nth_error (objs w) a = Some oa -> nth_error (objs w) b = Some ob ->
     ts_ltb (so_ts oa) (so_ts ob) = true) ->
  (forall u v x, reads_from (behaviours empty ps) u v x -> depends w ctxs u v) ->
  (forall sd u, In sd seeds -> names w sd u -> u < length (objs w)) ->
  make_multi_slice w ctxs seeds false = Ok sl ->
  reproduces ps sl.
Proof.
  intros w ctxs seeds sl ps Lp Inc Rec Sd HS.
  pose proof (slice_members _ _ _ _ HS) as M.
  assert (B : forall u, In u sl -> u < length (objs w)).
  { intros u I. apply M in I. destruct I as (sd & u0 & I1 & I2 & I3).
    specialize (Sd _ _ I1 I2). clear - I3 Sd. revert Sd.
    induction I3 as [u0|u0 y u D R IH]; intros L; auto. apply IH.
    destruct D as (o & pid & u1 & _ & _ & _ & newer & ov & _ & Hy & _).
    apply nth_error_Some. congruence. }
  apply replay_all.
  - pose proof (slice_NoDup _ _ _ _ _ HS) as N. pose proof (slice_sorted _ _ _ _ _ HS) as S.
    clear HS M. induction S as [|a l S IH F]; constructor.
    + inversion N; subst. apply IH; auto. intros u I. apply B. now right.
    + inversion N as [|? ? NI N']; subst. rewrite Forall_forall in *. intros b Ib.
      specialize (F b Ib). unfold ts_le_of in F.
      destruct (Nat.lt_trichotomy a b) as [L|[L|L]]; auto; [subst; contradiction|].
      exfalso. assert (La : a < length (objs w)) by (apply B; now left).
      assert (Lb : b < length (objs w)) by (apply B; now right).
      apply nth_error_Some in La, Lb.
      destruct (nth_error (objs w) a) as [oa|] eqn:Ha; [|now destruct La].
      destruct (nth_error (objs w) b) as [ob|] eqn:Hb; [|now destruct Lb].
      rewrite (ts_of_nth _ _ _ Ha), (ts_of_nth _ _ _ Hb) in F.
      rewrite (Inc _ _ _ _ L Hb Ha) in F. discriminate.
  - intros u I. rewrite Lp. auto.
  - intros u v x I R. apply M in I. destruct I as (sd & u0 & I1 & I2 & I3). apply M.
    exists sd, u0. split; auto. split; auto. eapply reach_snoc; eauto.
Qed.
Print Assumptions C12_replay.

(** Three statements [a = 5; b = 7; c = a + 1], of which the last depends on the first;
    its slice leaves out the second. *)
Definition three : world :=
  mkWorld [mkSobj (mkTs 1 0) None false "a = 5" (fun _ => []);
           mkSobj (mkTs 1 1) None false "b = 7" (fun _ => []);
           mkSobj (mkTs 2 0) None false "c = a + 1"
                  (fun x => match x with Dynamic => [(10, [0])] | Static => [] end)]
    [(10, 0); (11, 1); (12, 2)] [(mkTs 1 0, 0); (mkTs 1 1, 1); (mkTs 2 0, 2)] false [].

Example C12_replay_case :
  let ps := [set_a; set_b; c_from_a] in
  length ps = length (objs three) /\
  (forall a b oa ob, a < b -> nth_error (objs three) a = Some oa ->
     nth_error (objs three) b = Some ob -> ts_ltb (so_ts oa) (so_ts ob) = true) /\
  (forall u v x, reads_from (behaviours empty ps) u v x -> depends three [Dynamic] u v) /\
  make_multi_slice three [Dynamic] [STs (mkTs 2 0)] false = Ok [0; 2] /\
  behaviours empty (select ps [0; 2]) = [[AWr 0 5%Z]; [ARd 0 (Some 5%Z); AWr 2 6%Z]].
Proof.
  split; [reflexivity|]. split; [|split; [|split; vm_compute; reflexivity]].
  - intros [|[|[|a]]] [|[|[|b]]] oa ob L Ha Hb; simpl in *; try lia;
      try (destruct a; discriminate); try (destruct b; discriminate);
      injection Ha as <-; injection Hb as <-; reflexivity.
  - intros u v x ((t & Ht & (p & val & q & E & N)) & L & (t' & Ht' & (v' & W)) & M).
    destruct u as [|[|[|u]]]; simpl in Ht; try (destruct u; discriminate); try lia.
    + injection Ht as <-. destruct p as [|e [|]]; discriminate.
    + injection Ht as <-. destruct p as [|e [|e' [|]]]; simpl in E; try discriminate E.
      injection E as E _ _; subst x.
      destruct v as [|[|v]]; [| |lia].
      * exists (mkSobj (mkTs 2 0) None false "c = a + 1"
                  (fun x => match x with Dynamic => [(10, [0])] | Static => [] end)), 10, 0.
        split; auto. split.
        { eexists _, Dynamic, [0]. split; [reflexivity|]. split; simpl; auto. }
        split; [reflexivity|]. eexists [], _. split; [constructor|]. split; [reflexivity|].
        split; [left; unfold newer_than; vm_compute; discriminate|]. intros ? ? [].
      * simpl in Ht'. injection Ht' as <-. destruct W as [W|[]]. discriminate.
Qed.

(** A single seed is the last element of its slice, so after the replay every variable
    that it reads or writes has the value that it had right after the seed ran. *)
Theorem C12_final_values : forall w ctxs sd u sl ps t x,
  length ps = length (objs w) ->
  (forall a b oa ob, a < b -> nth_error (objs w) a = Some oa -> nth_error (objs w) b = Some ob ->
     ts_ltb (so_ts oa) (so_ts ob) = true) ->
  (forall n o, nth_error (objs w) n = Some o -> so_override o = false) ->
  (forall u v x, reads_from (behaviours empty ps) u v x -> depends w ctxs u v) ->
  names w sd u -> u < length (objs w) ->
  make_multi_slice w ctxs [sd] false = Ok sl ->
  nth_error (behaviours empty ps) u = Some t -> touches t x ->
  store_after empty (select ps sl) x = store_after empty (firstn (S u) ps) x.
Proof.
  intros w ctxs sd u sl ps t x Lp Inc Ov Rec Nu Lu HS Ht Tx.
  pose proof (slice_members _ _ _ _ HS) as M.
  assert (B : forall v, In v sl -> v < length (objs w)).
  { intros v I. apply M in I. destruct I as (sd' & u0 & [<-|[]] & I2 & I3).
    assert (u0 = u) by (apply at_seed_names in I2, Nu; congruence). subst u0.
    clear - I3 Lu. revert Lu.
    induction I3 as [u0|u0 y v D R IH]; intros L; auto. apply IH.
    destruct D as (o & pid & u1 & _ & _ & _ & newer & ov & _ & Hy & _).
    apply nth_error_Some. congruence. }
  assert (Iu : In u sl).
  { apply M. exists sd, u. split; [now left|]. split; auto. constructor. }
  assert (Mx : forall v, In v sl -> v <= u).
  { intros v I. pose proof (B v I) as Lv.
    apply M in I. destruct I as (sd' & u0 & [<-|[]] & I2 & I3).
    assert (u0 = u) by (apply at_seed_names in I2, Nu; congruence). subst u0.
    destruct (Nat.le_gt_cases v u) as [|G]; auto. exfalso.
    destruct (reach_not_newer _ _ _ _ I3) as [F|(y & z & o & _ & _ & _ & Hz & Oz & _)].
    - apply nth_error_Some in Lv, Lu.
      destruct (nth_error (objs w) u) as [ou|] eqn:Hu; [|now destruct Lu].
      destruct (nth_error (objs w) v) as [ov|] eqn:Hv; [|now destruct Lv].
      rewrite (ts_of_nth _ _ _ Hu), (ts_of_nth _ _ _ Hv) in F.
      rewrite (Inc _ _ _ _ G Hu Hv) in F. discriminate.
    - rewrite (Ov _ _ Hz) in Oz. discriminate. }
  assert (Inc' : StronglySorted lt sl).
  { pose proof (slice_NoDup _ _ _ _ _ HS) as N. pose proof (slice_sorted _ _ _ _ _ HS) as S.
    clear HS M Iu Mx. induction S as [|a l S IH F]; constructor.
    + inversion N; subst. apply IH; auto. intros v I. apply B. now right.
    + inversion N as [|? ? NI N']; subst. rewrite Forall_forall in *. intros b Ib.
      specialize (F b Ib). unfold ts_le_of in F.
      destruct (Nat.lt_trichotomy a b) as [L|[L|L]]; auto; [subst; contradiction|].
      exfalso. assert (La : a < length (objs w)) by (apply B; now left).
      assert (Lb : b < length (objs w)) by (apply B; now right).
      apply nth_error_Some in La, Lb.
      destruct (nth_error (objs w) a) as [oa|] eqn:Ha; [|now destruct La].
      destruct (nth_error (objs w) b) as [ob|] eqn:Hb; [|now destruct Lb].
      rewrite (ts_of_nth _ _ _ Ha), (ts_of_nth _ _ _ Hb) in F.
      rewrite (Inc _ _ _ _ L Hb Ha) in F. discriminate. }
  apply in_split in Iu. destruct Iu as (l1 & l2 & E).
  assert (l2 = []).
  { destruct l2 as [|b l2]; auto. exfalso. rewrite E in Inc'. apply sorted_app_lt in Inc'.
    destruct Inc' as (_ & G & _). specialize (G b (or_introl eq_refl)).
    assert (b <= u) by (apply Mx; rewrite E; apply in_or_app; right; right; now left). lia. }
  subst l2. apply (replay_store ps sl) with (l1 := l1) (t := t); auto.
  - intros v I. rewrite Lp. auto.
  - intros v v' y I R. apply M in I. destruct I as (sd' & u0 & I1 & I2 & I3). apply M.
    exists sd', u0. split; auto. split; auto. eapply reach_snoc; eauto.
Qed.
Print Assumptions C12_final_values.

Example C12_final_values_case :
  store_after empty (select [set_a; set_b; c_from_a] [0; 2]) 2 = Some 6%Z.
Proof. reflexivity. Qed.

(** The cells that ipyflow tracks. Tracking never raises, slicing never fails, and every
    slice reproduces the behaviour of its cells, as long as every read is from the
    current execution of another cell, and no two cells read from each other. Missing from
    the full property: these two conditions, which cannot be dropped (refuted below). The
    [k]-th execution is number [k - 1] in the heap. *)
Theorem C12_cells_rerun_partial : forall cs,
  reads_current (map fst cs) (behaviours empty (map snd cs)) ->
  one_way (map fst cs) (behaviours empty (map snd cs)) ->
  exists s, session_of cs = Ok s /\
  forall text skipped ctxs ks, In Dynamic ctxs ->
    (forall k, In k ks -> k < length cs) ->
    exists sl,
      make_multi_slice (cell_world s text skipped) ctxs
        (map SCtr (map (fun k => Z.of_nat (S k)) ks)) false = Ok sl /\
      (forall k, In k ks -> In k sl) /\ reproduces (map snd cs) sl.
Proof.
  intros cs C1 C2. destruct (tracked cs) as (s & l & E & HB & HK).
  specialize (HK C1 C2).
  exists s. split; auto. intros text sk ctxs ks ID Hk.
  pose proof (backward_session _ _ _ HB) as SS. pose proof (session_inv _ _ SS) as [I0 _].
  pose proof (i_wf _ _ I0) as W.
  assert (AC : forall k, k < length cs -> at_counter s (Z.of_nat (S k)) = Ok k).
  { intros k L. apply at_counter_Ok. apply (wf_by _ W).
    assert (k < length (heap s)) by (rewrite (k_len _ _ _ HK), map_length; auto).
    apply nth_error_Some in H. destruct (nth_error (heap s) k) as [c|] eqn:Hc; [|now destruct H].
    exists c. split; auto. apply (k_cell _ _ _ HK) in Hc. split; [tauto|lia]. }
  assert (exists sl, make_multi_slice (cell_world s text sk) ctxs
      (map SCtr (map (fun k => Z.of_nat (S k)) ks)) false = Ok sl) as [sl HS].
  { apply slice_total.
    - now apply cell_world_ok.
    - intros sd I. apply in_map_iff in I. destruct I as (z & <- & I).
      apply in_map_iff in I. destruct I as (k & <- & I).
      apply seed_ctr_ok; auto. exists k. apply AC. auto.
    - intros v _. eapply backward_not_dangling; eauto. }
  exists sl. split; auto.
  destruct (slice_increasing _ _ _ _ _ _ _ _ W HK HS) as [Inc B].
  split.
  - intros k I. apply (slice_members _ _ _ _ HS). exists (SCtr (Z.of_nat (S k))), k.
    split; [apply in_map, (in_map (fun k => Z.of_nat (S k))), I|].
    split; [|constructor]. apply at_seed_names. rewrite at_seed_ctr. auto.
  - apply replay_all; auto.
    + intros u I. apply B in I. now rewrite map_length in *.
    + intros u v x I R. eapply slice_closed; eauto.
Qed.
Print Assumptions C12_cells_rerun_partial.

(** The conditions hold in every notebook in which no cell is executed twice. *)
Theorem C12_cells_run_once : forall cs,
  NoDup (map fst cs) ->
  exists s, session_of cs = Ok s /\
  forall text skipped ctxs ks, In Dynamic ctxs ->
    (forall k, In k ks -> k < length cs) ->
    exists sl,
      make_multi_slice (cell_world s text skipped) ctxs
        (map SCtr (map (fun k => Z.of_nat (S k)) ks)) false = Ok sl /\
      (forall k, In k ks -> In k sl) /\ reproduces (map snd cs) sl.
Proof.
  intros cs N. apply C12_cells_rerun_partial; [now apply once_current|now apply once_one_way].
Qed.
Print Assumptions C12_cells_run_once.

(** Five cells, executed once; [choose] reads [b] because [a] was bumped. *)
Example C12_cells_run_once_case : exists s,
  NoDup (map fst [(0, set_a); (1, set_b); (2, c_from_a); (3, bump_a); (4, choose)]) /\
  session_of [(0, set_a); (1, set_b); (2, c_from_a); (3, bump_a); (4, choose)] = Ok s /\
  make_multi_slice (cell_world s plain_text []) [Dynamic] [SCtr 5] false = Ok [0; 1; 3; 4] /\
  behaviours empty (select [set_a; set_b; c_from_a; bump_a; choose] [0; 1; 3; 4]) =
    [[AWr 0 5]; [AWr 1 7]; [ARd 0 (Some 5); AWr 0 6];
     [ARd 0 (Some 6); ARd 1 (Some 7); AWr 2 7]]%Z.
Proof.
  eexists. split.
  { repeat constructor; simpl; intuition discriminate. }
  split; [vm_compute; reflexivity|]. split; vm_compute; reflexivity.
Qed.

(** A cell that reads a value from its own previous execution: [a = 5] in cell 0 and
    [a = a + 1] in cell 1, executed twice. The slice of the second execution is itself
    alone, so [a] is undefined in the replay. *)
Theorem C12_rerun_refuted : exists cs s sl,
  session_of cs = Ok s /\
  make_multi_slice (cell_world s plain_text []) [Dynamic] [SCtr 3%Z] false = Ok sl /\
  one_way (map fst cs) (behaviours empty (map snd cs)) /\
  ~ reproduces (map snd cs) sl.
Proof.
  eexists [(0, set_a); (1, bump_a); (1, bump_a)], _, _.
  split; [vm_compute; reflexivity|]. split; [vm_compute; reflexivity|]. split.
  - simpl. intros u w x u' w' x' i j NE R R' E1 E2 E3 E4.
    assert (D : forall u w x, reads_from
       [[AWr 0 5%Z]; [ARd 0 (Some 5%Z); AWr 0 6%Z]; [ARd 0 (Some 6%Z); AWr 0 7%Z]] u w x ->
       (u = 1 /\ w = 0) \/ (u = 2 /\ w = 1)).
    { clear. intros u w x ((t & Ht & (p & val & q & E & N)) & L & _ & M).
      destruct u as [|[|[|u]]]; simpl in Ht; try (destruct u; discriminate); [lia|left; lia|].
      right. injection Ht as <-. destruct p as [|e [|e' [|]]]; simpl in E; try discriminate E.
      injection E as E _ _; subst x.
      split; auto. destruct w as [|[|w]]; try lia. exfalso. apply (M 1); [lia|].
      exists [ARd 0 (Some 5%Z); AWr 0 6%Z]. split; auto. exists 6%Z. simpl. auto. }
    change (behaviours empty [set_a; bump_a; bump_a]) with
      [[AWr 0 5%Z]; [ARd 0 (Some 5%Z); AWr 0 6%Z]; [ARd 0 (Some 6%Z); AWr 0 7%Z]] in R, R'.
    apply D in R, R'. destruct R as [[-> ->]|[-> ->]], R' as [[-> ->]|[-> ->]]; simpl in *; congruence.
  - vm_compute. discriminate.
Qed.
Print Assumptions C12_rerun_refuted.

(** Two cells that read from each other: cell 0 is [a = 5], cell 1 is [c = a + 1]; then
    cell 0 is edited to read [c] and executed again. The dependency of cell 0 on cell 1 is
    not recorded, because cell 1 is already a child of cell 0. *)
Theorem C12_mutual_refuted : exists cs s sl,
  session_of cs = Ok s /\
  make_multi_slice (cell_world s plain_text []) [Dynamic] [SCtr 3%Z] false = Ok sl /\
  reads_current (map fst cs) (behaviours empty (map snd cs)) /\
  ~ reproduces (map snd cs) sl.
Proof.
  eexists [(0, set_a); (1, c_from_a);
           (0, Rd 2 (fun v => match v with Some n => Wr 0 n Ret | None => Ret end))], _, _.
  split; [vm_compute; reflexivity|]. split; [vm_compute; reflexivity|]. split.
  - simpl. intros u w x i R Hw u' B Hu.
    assert (D : (u = 1 /\ w = 0) \/ (u = 2 /\ w = 1)).
    { clear - R. destruct R as ((t & Ht & (p & val & q & E & N)) & L & (t' & Ht' & (v' & W)) & M).
      destruct u as [|[|[|u]]]; simpl in Ht; try (destruct u; discriminate); [lia|left; lia|].
      right. vm_compute in Ht. injection Ht as <-.
      destruct p as [|e [|e' [|]]]; simpl in E; try discriminate E.
      injection E as E _ _; subst x.
      split; auto. destruct w as [|[|w]]; try lia. exfalso. vm_compute in Ht'.
      injection Ht' as <-. destruct W as [W|[]]. discriminate. }
    destruct D as [[-> ->]|[-> ->]]; simpl in Hw; injection Hw as <-.
    + assert (u' = 1) by lia. subst. discriminate.
    + assert (u' = 2) by lia. subst. discriminate.
  - vm_compute. discriminate.
Qed.
Print Assumptions C12_mutual_refuted.

(** The conditions of [C12_cells_rerun_partial] allow repeated executions: cell 1 is
    executed twice, reading from cell 0 both times. *)
Example C12_cells_rerun_case : exists s,
  reads_current [0; 1; 1] (behaviours empty [set_a; c_from_a; c_from_a]) /\
  one_way [0; 1; 1] (behaviours empty [set_a; c_from_a; c_from_a]) /\
  session_of [(0, set_a); (1, c_from_a); (1, c_from_a)] = Ok s /\
  make_multi_slice (cell_world s plain_text []) [Dynamic] [SCtr 3%Z] false = Ok [0; 2].
Proof.
  assert (D : forall u w x, reads_from (behaviours empty [set_a; c_from_a; c_from_a]) u w x ->
     w = 0 /\ (u = 1 \/ u = 2)).
  { clear. intros u w x ((t & Ht & (p & val & q & E & N)) & L & (t' & Ht' & (v' & W)) & M).
    destruct u as [|[|[|u]]]; simpl in Ht; try (destruct u; discriminate); [lia|split; lia|].
    vm_compute in Ht. injection Ht as <-. destruct p as [|e [|e' [|]]]; simpl in E; try discriminate E.
      injection E as E _ _; subst x.
    split; auto. destruct w as [|[|w]]; try lia. exfalso. vm_compute in Ht'. injection Ht' as <-.
    destruct W as [W|[W|[]]]; discriminate. }
  eexists. split; [|split; [|split; vm_compute; reflexivity]].
  - intros u w x i R Hw u' B. apply D in R. destruct R as [-> R]. simpl in Hw. injection Hw as <-.
    destruct u' as [|[|[|u']]]; simpl; try lia; try discriminate.
  - intros u w x u' w' x' i j NE R R' E1 E2 E3 E4. apply D in R, R'.
    destruct R as [-> R], R' as [-> R']. simpl in *. injection E2 as <-. injection E4 as <-.
    destruct R' as [-> | ->]; discriminate.
Qed.
