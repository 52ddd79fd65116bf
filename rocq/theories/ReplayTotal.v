(** Tracking a session never raises, and does not change what the cells do. *)
Require Import String List ZArith Bool Arith Lia Sorted.
Import ListNotations.
Require Import Verif.Base Verif.Loops Verif.TimestampModel Verif.TimestampProofs
  Verif.SessionModel Verif.SessionSpec Verif.SessionProofs Verif.SessionInv
  Verif.SessionHist Verif.SessionLog Verif.SessionMore
  Verif.SliceModel Verif.SliceSpec Verif.SliceProofs Verif.SliceSession Verif.SliceMore
  Verif.ReplayModel Verif.ReplaySpec Verif.ReplayPure Verif.ReplayTrack.
Local Open Scope nat_scope.

Lemma add_parent_edges_total s x u pu syms c p : WF s ->
  nth_error (heap s) u = Some c -> nth_error (heap s) pu = Some p ->
  exists s', add_parent_edges s x u pu syms = Ok s'.
Proof.
  intros W Hc Hp. unfold add_parent_edges. destruct (is_nil syms); [eauto|].
  rewrite (proj2 (obj_Ok s u c) Hc), (proj2 (obj_Ok s pu p) Hp). simpl.
  destruct (dhas _ _); [eauto|]. destruct (Nat.eqb _ _); [|eauto].
  pose proof (wf_prev _ W _ _ Hc) as Q. destruct (c_prev c) as [v|]; [|eauto].
  destruct Q as (_ & (pv & Hpv & _) & _). rewrite (proj2 (obj_Ok s v pv) Hpv). simpl. eauto.
Qed.

Lemma add_data_dep_total s x u pu sym c p : WF s ->
  nth_error (heap s) u = Some c -> nth_error (heap s) pu = Some p ->
  exists s', add_data_dep s x u pu sym = Ok s'.
Proof.
  intros W Hc Hp. unfold add_data_dep.
  rewrite (proj2 (obj_Ok s u c) Hc), (proj2 (obj_Ok s pu p) Hp). simpl.
  destruct (_ && _)%bool; [|eauto]. eapply add_parent_edges_total; eauto.
Qed.

Lemma remove_dangling_total s x : WF s -> remove_dangling_ctx s x [] = Ok s.
Proof.
  intros W. unfold remove_dangling_ctx.
  assert (Q : forall l, (forall u, In u l -> exists c, nth_error (heap s) u = Some c) ->
    rfold (fun s u => rbind (obj s u) (fun c =>
             rfold (fun s pid => remove_parent_edges s x u pid []) (dkeys (c_par c x)) s)) l s = Ok s).
  { induction l as [|u l IH]; intros H; simpl; auto.
    destruct (H u (or_introl eq_refl)) as [c Hc]. rewrite (proj2 (obj_Ok s u c) Hc). simpl.
    assert (E : forall d, rfold (fun s pid => remove_parent_edges s x u pid []) d s = Ok s)
      by (induction d; simpl; auto).
    rewrite E. simpl. apply IH. intros v I. apply H. now right. }
  apply Q. intros u I. unfold current_uids, dvals in I. apply in_map_iff in I.
  destruct I as ([i u'] & E & I). simpl in E. subst u'.
  apply In_dget in I; [|apply (wf_cur _ W)].
  destruct (wf_last _ W _ _ I) as (v & Hv & _). eauto.
Qed.

Lemma remove_stale_total s x u v c pc :
  nth_error (heap s) u = Some c -> nth_error (heap s) v = Some pc -> ewf (c_par pc x) ->
  (forall p sym, has (c_par pc x) p sym -> In p (dkeys (cur s))) ->
  exists s', remove_stale_ctx s x u v = Ok s'.
Proof.
  intros Hc Hv W KN. unfold remove_stale_ctx. rewrite (proj2 (obj_Ok s v pc) Hv). simpl.
  assert (Q : forall l t, incl l (c_par pc x) -> same_log s t -> exists t',
    rfold (fun s kv => rbind (obj s u) (fun c =>
               remove_parent_edges s x u (fst kv)
                 (sdiff (snd kv)
                    (match dget (c_par c x) (fst kv) with Some e => e | None => [] end)))) l t
     = Ok t').
  { induction l as [|[k e] l IH]; intros t I SL; simpl; [eauto|].
    assert (Hu : exists c', nth_error (heap t) u = Some c').
    { destruct SL as (L1 & _). pose proof (nth_log t u) as N. rewrite L1, nth_log, Hc in N.
      simpl in N. destruct (nth_error (heap t) u); [eauto|discriminate]. }
    destruct Hu as [c' Hc']. rewrite (proj2 (obj_Ok t u c') Hc'). simpl.
    set (d := sdiff e _). 
    assert (R : exists t1, remove_parent_edges t x u k d = Ok t1).
    { unfold remove_parent_edges. destruct (is_nil d) eqn:D; [eauto|].
      apply is_nil_false in D.
      assert (exists sym, In sym e) as [sym Is].
      { destruct d as [|y d'] eqn:Ed; [now destruct D|]. exists y.
        assert (In y d) by (rewrite Ed; now left). unfold d in H. apply In_sdiff in H. tauto. }
      assert (Kn : In k (dkeys (cur t))).
      { destruct SL as (_ & _ & ->). apply (KN k sym). exists e. split; auto.
        apply In_dget; [apply W|]. apply I. now left. }
      apply key_dget in Kn. destruct Kn as [pu Kn].
      rewrite (proj2 (from_id_Ok t k pu) Kn). simpl.
      rewrite (proj2 (obj_Ok t u c') Hc'). simpl. eauto. }
    destruct R as [t1 R]. rewrite R. simpl. apply IH.
    - intros y Iy. apply I. now right.
    - eapply same_log_trans; eauto. eapply remove_parent_edges_log; eauto. }
  apply Q; [apply incl_refl|apply same_log_refl].
Qed.

Lemma finish_total s i : Inv s (Some i) ->
  exists s', remove_dangling_parent_edges s [] = Ok s'.
Proof.
  intros [I PV]. pose proof (i_wf _ _ I) as W. unfold remove_dangling_parent_edges.
  rewrite !remove_dangling_total by auto. simpl. rewrite remove_dangling_total by auto. simpl.
  destruct (i_run _ _ I i eq_refl) as (u & c & C & Z).
  rewrite (proj2 (at_counter_Ok s (counter s) u) Z). simpl.
  pose proof C as [C1 C2]. rewrite (proj2 (obj_Ok s u c) C2). simpl.
  pose proof (wf_prev _ W _ _ C2) as Q. destruct (c_prev c) as [v|] eqn:P; [|eauto].
  destruct Q as (Lv & (pv & Hpv & _) & _).
  assert (KN : forall x p sym, has (c_par pv x) p sym -> In p (dkeys (cur s))).
  { intros x p sym H. assert (L : prev_lists s x i p sym) by (exists u, c, v, pv; auto).
    apply (PV x i p sym eq_refl) in L. now apply (i_keys _ _ I) in L. }
  destruct (remove_stale_total s Dynamic u v c pv) as [s1 H1]; auto.
  { apply (wf_par _ W _ _ Dynamic Hpv). }
  { intros p sym. apply KN. }
  rewrite H1. simpl.
  pose proof (remove_stale_ctx_log _ _ _ _ _ H1) as SL.
  assert (Hu1 : exists c', nth_error (heap s1) u = Some c').
  { destruct SL as (L1 & _). pose proof (nth_log s1 u) as N. rewrite L1, nth_log, C2 in N.
    simpl in N. destruct (nth_error (heap s1) u); [eauto|discriminate]. }
  destruct Hu1 as [c1 Hc1].
  assert (Hv1 : nth_error (heap s1) v = Some pv).
  { rewrite <- Hpv. eapply remove_stale_other; eauto. lia. }
  apply (remove_stale_total s1 Static u v c1 pv); auto.
  - apply (wf_par _ W _ _ Static Hpv).
  - intros p sym H. destruct SL as (_ & _ & ->). eapply KN; eauto.
Qed.

Lemma create_total s i : WF s -> exists s' u, create_and_track s i true None false = Ok (s', u).
Proof.
  intros W. unfold create_and_track. 
  destruct (Z.eqb_spec (counter s + 1) (-1)) as [E|_]; [pose proof (wf_counter _ W); lia|].
  simpl. destruct (dget (cur s) i) as [u|] eqn:D; simpl; [|eauto].
  destruct (wf_last _ W _ _ D) as (v & Hv & _). rewrite (proj2 (obj_Ok s u v) Hv). simpl. eauto.
Qed.

Definition known (t : tstate) : Prop :=
  forall x w, t_last t x = Some w -> w < length (heap (t_sess t)).

Lemma backward_session l s r : history backward_only l s r -> session s r.
Proof. intros H. exists l. now apply history_restricted. Qed.

Lemma exec_total : forall p t u i l c,
  history backward_only l (t_sess t) (Some i) -> current (t_sess t) i u c ->
  zget (by_ctr (t_sess t)) (counter (t_sess t)) = Some u -> known t ->
  exists t' tr l', exec t u p = Ok (t', tr) /\
    history backward_only l' (t_sess t') (Some i) /\ known t' /\
    eval (t_store t) p = (t_store t', tr).
Proof.
  induction p as [|x k IH|x v p IH]; intros t u i l c HB C Z KN; simpl.
  - exists t, [], l. auto.
  - assert (X : exists t1 l1 c1, load t u x = Ok t1 /\ history backward_only l1 (t_sess t1) (Some i) /\
       current (t_sess t1) i u c1 /\ zget (by_ctr (t_sess t1)) (counter (t_sess t1)) = Some u /\
       known t1 /\ t_store t1 = t_store t).
    { unfold load. destruct (t_last t x) as [w|] eqn:L; [|exists t, l, c; auto 10].
      pose proof (backward_session _ _ _ HB) as SS.
      pose proof (session_inv _ _ SS) as [I0 _]. pose proof (i_wf _ _ I0) as W.
      pose proof C as [C1 C2]. pose proof (KN _ _ L) as Lw. apply nth_error_Some in Lw.
      destruct (nth_error (heap (t_sess t)) w) as [q|] eqn:Hq; [|now destruct Lw].
      destruct (add_data_dep_total (t_sess t) Dynamic u w x c q W C2 Hq) as [s' Hs].
      simpl. rewrite Hs. simpl.
      assert (HB' : history backward_only (l ++ [EUse Dynamic u w x]) s' (Some i)).
      { eapply H_step; [exact HB|reflexivity| |exact Hs]. split.
        - simpl. intros _. exists i, c. auto.
        - simpl. intros c' q' Hc' Hq'. apply (wf_by _ W) in Z. destruct Z as (c0 & Hc0 & E0 & _).
          assert (c' = c0) by congruence. subst c'. rewrite E0.
          apply (wf_ctr_le _ W _ _ Hq'). }
      assert (SL : same_log (t_sess t) s').
      { unfold add_data_dep in Hs. rewrite (proj2 (obj_Ok _ u c) C2), (proj2 (obj_Ok _ w q) Hq) in Hs.
        simpl in Hs. destruct (_ && _)%bool; [eapply add_parent_edges_log; eauto|].
        injection Hs as <-. apply same_log_refl. }
      pose proof (session_inv _ _ (backward_session _ _ _ HB')) as [I1 _].
      destruct (i_run _ _ I1 i eq_refl) as (u1 & c1 & C1' & Z1).
      assert (u1 = u). { destruct SL as (_ & _ & SL). destruct C1' as [C1' _]. rewrite SL in C1'. congruence. }
      subst u1. eexists _, _, c1. split; [reflexivity|]. simpl. split; [exact HB'|].
      split; auto. split; auto. split; auto.
      intros y w' L'. simpl in *. apply KN in L'. destruct SL as (SL & _).
      apply (f_equal (@length _)) in SL. unfold log_of in SL. rewrite !map_length in SL. now rewrite SL. }
    destruct X as (t1 & l1 & c1 & E1 & HB1 & C1 & Z1 & KN1 & ES). rewrite E1. simpl.
    destruct (IH (t_store t x) t1 u i l1 c1) as (t2 & tr2 & l2 & E2 & HB2 & KN2 & EV); auto.
    rewrite E2. simpl. exists t2, (ARd x (t_store t x) :: tr2), l2. split; auto. split; auto.
    split; auto. rewrite ES in EV. rewrite EV. reflexivity.
  - destruct (IH (save t u x v) u i l c) as (t2 & tr2 & l2 & E2 & HB2 & KN2 & EV); auto.
    { intros y w. simpl. destruct (Nat.eqb y x).
      - intros [= <-]. apply nth_error_Some. destruct C as [_ C]. congruence.
      - apply KN. }
    rewrite E2. simpl. exists t2, (AWr x v :: tr2), l2. split; auto. split; auto. split; auto.
    simpl in EV. rewrite EV. reflexivity.
Qed.

Lemma exec_cell_total t c l : history backward_only l (t_sess t) None -> known t ->
  exists t' tr l', exec_cell t c = Ok (t', tr) /\ history backward_only l' (t_sess t') None /\
    known t' /\ eval (t_store t) (snd c) = (t_store t', tr).
Proof.
  destruct c as [i p]. intros HB KN. unfold exec_cell. simpl fst. simpl snd.
  pose proof (session_inv _ _ (backward_session _ _ _ HB)) as [I0 _].
  destruct (create_total (t_sess t) i (i_wf _ _ I0)) as (s1 & u & E1).
  assert (HS : step (t_sess t) (EExec i None false) = Ok s1) by (simpl; now rewrite E1).
  rewrite HS. simpl rbind at 1.
  assert (HB1 : history backward_only (l ++ [EExec i None false]) s1 (Some i)).
  { eapply H_step; [exact HB|simpl; auto| |exact HS]. split; simpl; auto. discriminate. }
  pose proof (session_inv _ _ (backward_session _ _ _ HB1)) as [I1 _].
  destruct (i_run _ _ I1 i eq_refl) as (u1 & c1 & C1 & Z1).
  rewrite (proj2 (at_counter_Ok s1 (counter s1) u1) Z1). cbv beta iota delta [rbind].
  assert (LH : length (heap s1) = S (length (heap (t_sess t)))).
  { unfold create_and_track in E1. destruct (_ && _)%bool in E1; [discriminate|].
    destruct (match dget (cur (t_sess t)) i with None => _ | Some _ => _ end); [|discriminate].
    injection E1 as <- _. simpl. rewrite app_length. simpl. lia. }
  destruct (exec_total p (mkT s1 (t_store t) (t_last t)) u1 i _ c1 HB1) as
    (t2 & tr & l2 & E2 & HB2 & KN2 & EV); auto.
  { intros x w L. simpl in *. apply KN in L. lia. }
  rewrite E2. simpl fst. simpl snd.
  pose proof (session_inv _ _ (backward_session _ _ _ HB2)) as IV.
  destruct (finish_total _ _ IV) as [s3 E3].
  assert (HF : step (t_sess t2) (EFinish []) = Ok s3) by exact E3. cbn. rewrite E3.
  assert (HB3 : history backward_only (l2 ++ [EFinish []]) s3 None).
  { eapply H_step; [exact HB2|simpl; split; [discriminate|auto]| |exact HF]. split; simpl; auto. }
  eexists _, tr, _. split; [reflexivity|]. simpl. split; [exact HB3|]. split; auto.
  intros x w L. simpl in *. apply KN2 in L.
  pose proof (history_log _ _ _ (history_restricted _ _ _ HB2)) as Q2.
  pose proof (history_log _ _ _ (history_restricted _ _ _ HB3)) as Q3.
  unfold log_after in Q3. rewrite fold_left_app in Q3. simpl in Q3.
  fold (log_after l2) in Q3. rewrite Q2 in Q3. simpl in Q3. injection Q3 as Q3 _.
  apply (f_equal (@length _)) in Q3. unfold log_of in Q3. rewrite !map_length in Q3. lia.
Qed.

Lemma exec_cells_total : forall cs t l, history backward_only l (t_sess t) None -> known t ->
  exists t' l', exec_cells t cs = Ok (t', behaviours (t_store t) (map snd cs)) /\
    history backward_only l' (t_sess t') None.
Proof.
  induction cs as [|c cs IH]; intros t l HB KN; simpl; [eauto|].
  destruct (exec_cell_total t c l HB KN) as (t1 & tr & l1 & E1 & HB1 & KN1 & EV).
  rewrite E1. simpl. destruct (IH t1 l1 HB1 KN1) as (t2 & l2 & E2 & HB2).
  rewrite E2. simpl. rewrite EV. simpl. eauto.
Qed.

(** What slicing and replay need to know about a tracked session. *)
Lemma tracked cs : exists s l, session_of cs = Ok s /\ history backward_only l s None /\
  (reads_current (map fst cs) (behaviours empty (map snd cs)) ->
   one_way (map fst cs) (behaviours empty (map snd cs)) ->
   K (map fst cs) (behaviours empty (map snd cs)) s).
Proof.
  destruct (exec_cells_total cs t_init []) as (t & l & E & HB).
  { constructor. }
  { intros x w. discriminate. }
  exists (t_sess t), l. unfold session_of. rewrite E. simpl. split; auto. split; auto.
  intros C1 C2.
  destruct (session_of_K cs (t_sess t)) with (T' := behaviours empty (map snd cs)) as (_ & A & _); auto.
  - unfold session_of. now rewrite E.
  - exists t. auto.
Qed.

(** Every execution that a cell reads from is in the slice. *)
Lemma slice_closed ids T s ctxs text sk ks sl u w x :
  session s None -> K ids T s -> reads_current ids T -> In Dynamic ctxs ->
  make_multi_slice (cell_world s text sk) ctxs ks false = Ok sl ->
  In u sl -> reads_from T u w x -> In w sl.
Proof.
  intros SS HK C1 ID HS Iu R. pose proof (slice_members _ _ _ _ HS) as M.
  apply M in Iu. destruct Iu as (sd & u0 & I1 & I2 & I3). apply M.
  exists sd, u0. split; auto. split; auto. eapply reach_snoc; eauto.
  pose proof (session_inv _ _ SS) as [I0 _]. pose proof (i_wf _ _ I0) as W.
  apply depends_cells; auto.
  destruct (k_par _ _ _ HK _ _ _ R) as (c & i & Hc & Hi & Hh).
  exists c, Dynamic, i, x. split; auto. split; auto. split; auto.
  pose proof R as (_ & Lw & _). destruct (k_cell _ _ _ HK _ _ Hc) as [Ic Tc].
  assert (exists q, nth_error (heap s) w = Some q) as [q Hq].
  { destruct (nth_error (heap s) w) eqn:E; eauto. apply nth_error_None in E.
    assert (u < length (heap s)) by (apply nth_error_Some; congruence). lia. }
  destruct (k_cell _ _ _ HK _ _ Hq) as [Iq Tq].
  exists q. split; auto. split; [congruence|]. split; [lia|].
  intros v' c' Hv' Ev' Lv'. destruct (k_cell _ _ _ HK _ _ Hv') as [Iv Tv].
  destruct (Nat.le_gt_cases v' w) as [|G]; auto. exfalso.
  apply (C1 u w x i R Hi v'); [lia|]. congruence.
Qed.

Lemma slice_increasing s text sk ctxs ks sl ids T : WF s -> K ids T s ->
  make_multi_slice (cell_world s text sk) ctxs (map SCtr ks) false = Ok sl ->
  StronglySorted lt sl /\ forall u, In u sl -> u < length ids.
Proof.
  intros W HK HS. pose proof (slice_NoDup _ _ _ _ _ HS) as N.
  pose proof (slice_sorted _ _ _ _ _ HS) as S.
  assert (B : forall u, In u sl -> exists c, nth_error (heap s) u = Some c).
  { intros u I. apply (slice_members _ _ _ _ HS) in I. destruct I as (sd & u0 & I1 & I2 & I3).
    apply in_map_iff in I1. destruct I1 as (k & <- & _).
    apply at_seed_names in I2. rewrite at_seed_ctr in I2. apply at_counter_Ok in I2.
    apply (wf_by _ W) in I2. destruct I2 as (c0 & Hc0 & _).
    assert (X : reach (cell_depends s ctxs) u0 u).
    { eapply reach_mono; [|exact I3]. intros a b. now apply depends_cells. }
    clear - X Hc0. revert c0 Hc0. induction X as [u0|u0 y u D R IH]; intros c0 Hc0; eauto.
    destruct D as (c & x & pid & sym & _ & _ & _ & (c' & Hc' & _)). eauto. }
  split.
  - clear HS. induction S as [|a l S IH F]; constructor.
    + inversion N; subst. apply IH; auto. intros. apply B. now right.
    + inversion N as [|? ? NI N']; subst. rewrite Forall_forall in *. intros b Ib.
      specialize (F b Ib). destruct (B a) as [ca Ha]; [now left|].
      destruct (B b) as [cb Hb]; [now right|].
      unfold ts_le_of in F. rewrite (ts_of_cell _ _ _ _ _ Ha), (ts_of_cell _ _ _ _ _ Hb) in F.
      apply ts_ltb_ge in F. apply ts_leb_le in F. simpl in F.
      destruct (k_cell _ _ _ HK _ _ Ha) as [_ Ta]. destruct (k_cell _ _ _ HK _ _ Hb) as [_ Tb].
      assert (a <> b) by (intros ->; contradiction). lia.
  - intros u I. destruct (B u I) as [c Hc]. rewrite <- (k_len _ _ _ HK).
    apply nth_error_Some. congruence.
Qed.

(** Notebooks in which no cell is executed twice. *)
Lemma once_current ids T : NoDup ids -> reads_current ids T.
Proof.
  intros N u w x i R Hw u' B Hu. rewrite NoDup_nth_error in N.
  assert (w = u'); [|lia]. apply N; [|congruence]. apply nth_error_Some. congruence.
Qed.

Lemma once_one_way ids T : NoDup ids -> one_way ids T.
Proof.
  intros N u w x u' w' x' i j _ R R' E1 E2 E3 E4. rewrite NoDup_nth_error in N.
  assert (w = u') by (apply N; [apply nth_error_Some|]; congruence).
  assert (u = w') by (apply N; [apply nth_error_Some|]; congruence).
  destruct R as (_ & R & _). destruct R' as (_ & R' & _). lia.
Qed.
