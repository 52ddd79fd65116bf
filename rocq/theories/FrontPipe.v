(** Proofs about the parents and children that are sent, the initial waiter links, and the
    whole computation. *)
Require Import List ZArith Bool Arith Lia Permutation.
Import ListNotations.
Require Import Verif.Base Verif.Loops Verif.TimestampModel Verif.TimestampProofs
  Verif.SessionModel Verif.SliceModel Verif.SliceProofs Verif.PosModel Verif.PosSpec
  Verif.PosProofs Verif.FrontModel Verif.FrontSpec Verif.FrontDag Verif.FrontLinks
  Verif.FrontMain Verif.FrontLatest Verif.FrontReady.
Local Open Scope nat_scope.

(** ** Filtered parents *)

Definition shown e c raw :=
  filter (fun s => negb (s_virtual (e_syms e s))) (sdiff raw (f_removed c)).

Lemma shown_In e c raw s : In s (shown e c raw) <->
  still_used c raw s /\ s_virtual (e_syms e s) = false.
Proof. unfold shown. rewrite filter_In, still_used_In, negb_true_iff. tauto. Qed.

Lemma filtered_spec e i c ps : cell_is e i c -> filtered_parents e c = Ok ps ->
  exists latest, latest_parents e c = Ok latest /\ NoDup ps /\
  forall j, In j ps <-> exists x d raw, In x (e_ctxs e) /\ dparents e x c = Ok d /\
     In (j, raw) d /\ keep_parent e x c latest d j raw = Ok true.
Proof.
  intros Hc E. unfold filtered_parents in E. apply rbind_Ok in E.
  destruct E as (latest & L & E). exists latest. split; auto. revert E.
  apply (rfold_prefix _ (fun done ps => NoDup ps /\ forall j, In j ps <->
     exists x d raw, In x done /\ dparents e x c = Ok d /\
     In (j, raw) d /\ keep_parent e x c latest d j raw = Ok true)).
  - split; [constructor|]. intros j. split; [intros []|]. intros (x & d & raw & [] & _).
  - intros done x t t' _ (ND & IH) E. apply rbind_Ok in E. destruct E as (d & D & E).
    assert (G : NoDup t' /\ forall j, In j t' <-> In j t \/
              exists raw, In (j, raw) d /\ keep_parent e x c latest d j raw = Ok true).
    { revert E. apply (rfold_prefix _ (fun dn t' => NoDup t' /\ forall j, In j t' <-> In j t \/
              exists raw, In (j, raw) dn /\ keep_parent e x c latest d j raw = Ok true)).
      - split; auto. intros j. split; auto. intros [H|(raw & [] & _)]. auto.
      - intros dn [j0 raw0] u u' _ (ND' & IH') E. simpl in E. apply rmap_Ok in E.
        destruct E as (b & K & <-). split; [destruct b; auto using NoDup_sadd|].
        intros j. destruct b.
        + rewrite In_sadd, IH'. split.
          * intros [->|[H|(raw & H & H')]]; auto.
            -- right. exists raw0. split; auto. apply in_or_app. right. left. auto.
            -- right. exists raw. split; auto. apply in_or_app. auto.
          * intros [H|(raw & H & H')]; auto. apply in_app_or in H.
            destruct H as [H|[[= -> ->]|[]]]; eauto.
        + rewrite IH'. split.
          * intros [H|(raw & H & H')]; auto. right. exists raw. split; auto. apply in_or_app. auto.
          * intros [H|(raw & H & H')]; auto. apply in_app_or in H.
            destruct H as [H|[[= -> ->]|[]]]; eauto. congruence. }
    destruct G as (ND' & G). split; auto. intros j. rewrite G, IH. split.
    + intros [(x' & d' & raw & H & H')|(raw & H & H')].
      * exists x', d', raw. split; auto. apply in_or_app. auto.
      * exists x, d, raw. split; [apply in_or_app; right; left; auto|]. auto.
    + intros (x' & d' & raw & H & H1 & H2 & H3). apply in_app_or in H.
      destruct H as [H|[<-|[]]]; [left; exists x', d', raw; auto|].
      right. exists raw. assert (d' = d) by congruence. subst. auto.
Qed.

Lemma keep_spec e i x c latest all pid raw : cell_is e i c ->
  latest_parents e c = Ok latest -> par_edge e x i pid raw ->
  keep_parent e x c latest all pid raw = Ok true ->
  exists p, cell_is e pid p /\ relevant e c p raw /\
    (e_in_order e = true -> still_used c raw (e_fake e) \/
       exists s, still_used c raw s /\ s_virtual (e_syms e s) = false /\
                 lowest_source e i s pid).
Proof.
  intros Hc L P. unfold keep_parent. cbv zeta. fold (shown e c raw).
  destruct (is_nil (shown e c raw)) eqn:Nl; [discriminate|].
  intros E. apply rbind_Ok in E. destruct E as (nl & NL & E). destruct nl; [discriminate|].
  apply rbind_Ok in E. destruct E as (p & Cp & E). apply fcell_of_Ok in Cp. exists p.
  split; auto.
  destruct (match f_modified p with None => false | Some m => _ end) eqn:M; [discriminate|].
  destruct (_ && _)%bool eqn:U in E; [discriminate|]. clear E.
  split; [split; [|split]|].
  - apply is_nil_false in Nl. destruct (shown e c raw) as [|s l] eqn:Sh; [congruence|].
    exists s. apply shown_In. rewrite Sh. left. auto.
  - intros m Em. rewrite Em in M. apply andb_false_iff in M. destruct M as [M|M].
    + unfold subset in M. destruct (existsb (fun s => negb (memb s (f_writes p))) (shown e c raw)) eqn:X.
      * apply existsb_exists in X. destruct X as (s & Hs & X). apply shown_In in Hs.
        apply negb_true_iff, memb_nIn in X. exists s. auto.
      * assert (forallb (fun s => memb s (f_writes p)) (shown e c raw) = true); [|congruence].
        apply forallb_forall. intros s Hs. destruct (memb s (f_writes p)) eqn:Y; auto.
        assert (existsb (fun s => negb (memb s (f_writes p))) (shown e c raw) = true); [|congruence].
        apply existsb_exists. exists s. now rewrite Y.
    + apply is_nil_false in M. destruct (sinter m (shown e c raw)) as [|s l] eqn:Si; [congruence|].
      assert (Hs : In s (sinter m (shown e c raw))) by (rewrite Si; left; auto).
      apply In_sinter in Hs. destruct Hs as [Hm Hs]. apply shown_In in Hs. exists s. auto.
  - apply andb_false_iff in U. destruct U as [U|U].
    + left. apply Z.leb_gt in U. auto.
    + right. apply negb_false_iff, existsb_exists in U. destruct U as (s & Hs & X).
      apply existsb_exists in X. destruct X as (z & Hz & X). apply Z.eqb_eq in X. subst z.
      apply shown_In in Hs. exists s. auto.
  - intros O. assert (exists m, latest = Some m) as (m & ->).
    { unfold latest_parents in L. rewrite O in L. apply rmap_Ok in L. destruct L as (m & _ & <-). eauto. }
    destruct (not_latest_false e i c Hc m pid (shown e c raw) L NL) as [F|(s & Hs & LS)].
    + intros s Hs. apply shown_In in Hs. exists x, raw, c. tauto.
    + left. apply shown_In in F. tauto.
    + right. apply shown_In in Hs. exists s. tauto.
Qed.

Lemma keep_any_order e i x c all pid raw p : cell_is e i c ->
  e_in_order e = false -> cell_is e pid p -> relevant e c p raw ->
  keep_parent e x c None all pid raw = Ok true.
Proof.
  intros Hc O Cp ((s0 & H0) & M & U). unfold keep_parent. cbv zeta. fold (shown e c raw).
  destruct (is_nil (shown e c raw)) eqn:Nl.
  { apply is_nil_true in Nl. apply shown_In in H0. rewrite Nl in H0. destruct H0. }
  simpl. apply fcell_of_Ok in Cp. rewrite Cp. simpl.
  replace (match f_modified p with None => false | Some m => _ end) with false.
  2: { symmetry. destruct (f_modified p) as [m|]; auto.
       destruct (M m eq_refl) as (s & Hs & [X|X]); apply shown_In in Hs; apply andb_false_iff.
       - left. destruct (subset (shown e c raw) (f_writes p)) eqn:Y; auto.
         exfalso. apply X. now apply subset_incl in Y; apply Y.
       - right. destruct (is_nil (sinter m (shown e c raw))) eqn:Y; auto. apply is_nil_true in Y.
         exfalso. assert (H : In s (sinter m (shown e c raw))) by (apply In_sinter; auto).
         rewrite Y in H. destruct H. }
  replace ((0 <=? f_ctr p)%Z && _)%bool with false.
  2: { symmetry. apply andb_false_iff. destruct U as [U|(s & Hs & X)].
       - left. apply Z.leb_gt. auto.
       - right. apply negb_false_iff, existsb_exists. exists s. split; [now apply shown_In|].
         apply existsb_exists. exists (f_ctr p). split; auto. apply Z.eqb_refl. }
  rewrite O. simpl. auto.
Qed.

(** ** Parents and children *)

Definition kids_step (d : dict (list nat)) (kv : nat * list nat) :=
  fold_left (fun d p => dset d p (sadd (fst kv) (lget d p))) (snd kv) d.

Definition fill_step (d : dict (list nat)) (i : nat) : dict (list nat) :=
  match dget d i with Some _ => d | None => dset d i [] end.

Lemma kids_fold : forall ps d i j,
  In i (lget (fold_left kids_step ps d) j) <->
  In i (lget d j) \/ exists l, In (i, l) ps /\ In j l.
Proof.
  induction ps as [|[k l] ps IH]; intros d i j; simpl.
  - split; auto. intros [H|(l & [] & _)]. auto.
  - rewrite IH. unfold kids_step at 1. simpl. rewrite invert_fold. split.
    + intros [[H|[-> H]]|(l' & H & H')]; eauto.
    + intros [H|(l' & [[= -> ->]|H] & H')]; eauto.
Qed.

Lemma fill_fold : forall l d,
  (forall i, lget (fold_left fill_step l d) i = lget d i) /\
  (forall i, In i l \/ In i (dkeys d) -> In i (dkeys (fold_left fill_step l d))).
Proof.
  induction l as [|k l IH]; intros d; simpl.
  - split; auto. intros i [[]|H]; auto.
  - destruct (IH (fill_step d k)) as (A & B). split.
    + intros i. rewrite A. unfold fill_step, lget. destruct (dget d k) eqn:G; auto.
      rewrite dget_dset. destruct (Nat.eqb_spec i k); subst; auto. now rewrite G.
    + intros i H. apply B. unfold fill_step. destruct (dget d k) eqn:G.
      * destruct H as [[<-|H]|H]; auto. right. eapply dget_Some_key; eauto.
      * rewrite dkeys_dset_In. destruct H as [[<-|H]|H]; auto.
Qed.

Lemma parents_spec e checked ps ch : parents_and_children e checked = Ok (ps, ch) ->
  (forall i, In i (dkeys ps) <-> In i checked) /\
  (forall i, In i checked -> exists c l, cell_is e i c /\ filtered_parents e c = Ok l /\
     dget ps i = Some l) /\
  (forall i j, In i (lget ch j) <-> In j (lget ps i)) /\
  (forall i, In i checked -> In i (dkeys ch)).
Proof.
  unfold parents_and_children. intros E. apply rmap_Ok in E. destruct E as (ps' & E & H).
  injection H as -> <-.
  assert (G : dwf ps /\ (forall i, In i (dkeys ps) <-> In i checked) /\
    (forall i, In i checked -> exists c l, cell_is e i c /\ filtered_parents e c = Ok l /\
     dget ps i = Some l)).
  { revert E. apply (rfold_prefix _ (fun done ps => dwf ps /\
      (forall i, In i (dkeys ps) <-> In i done) /\
      (forall i, In i done -> exists c l, cell_is e i c /\ filtered_parents e c = Ok l /\
       dget ps i = Some l))).
    - split; [apply dwf_nil|]. split; [intros i; simpl; tauto|]. intros i [].
    - intros done i t t' _ (W & A & B) E. apply rbind_Ok in E. destruct E as (c & C & E).
      apply fcell_of_Ok in C. apply rmap_Ok in E. destruct E as (l & F & <-).
      split; [now apply dwf_dset|]. split.
      + intros k. rewrite dkeys_dset_In, A, in_app_iff. simpl.
        split; [intros [?|?]|intros [?|[?|[]]]]; auto.
      + intros k Hk. rewrite dget_dset. destruct (Nat.eqb_spec k i) as [->|N]; eauto.
        apply in_app_or in Hk. destruct Hk as [Hk|[->|[]]]; [auto|congruence]. }
  destruct G as (W & A & B). split; auto. split; auto.
  change (fold_left _ checked (fold_left _ ps [])) with
    (fold_left fill_step checked (fold_left kids_step ps [])).
  destruct (fill_fold checked (fold_left kids_step ps [])) as (F1 & F2).
  split; [|intros i Hi; apply F2; auto].
  intros i j. rewrite F1, kids_fold. unfold lget at 2. split.
  - intros [[]|(l & H & H')]. rewrite (In_dget ps i l W H). auto.
  - intros H. right. destruct (dget ps i) as [l|] eqn:G; [|destruct H].
    exists l. split; auto. now apply dget_In.
Qed.

(** ** Initial waiter links *)

Lemma makers_spec e lp flags to_check r r0 last w ms :
  CInv e lp flags to_check r0 ->
  r_wsyms r = r_wsyms r0 -> r_killing r = r_killing r0 ->
  ready_makers e r last w = Ok ms ->
  NoDup ms /\
  forall m, In m ms <-> makes_ready e to_check (r_ready r) (r_waiting r) last w m.
Proof.
  intros V EW EK E. unfold ready_makers in E. apply rbind_Ok in E.
  destruct E as (m1 & E1 & E). apply rbind_Ok in E. destruct E as (m2 & E2 & E).
  injection E as <-.
  assert (A : NoDup m1 /\ forall m, In m m1 <->
    (e_schedule e <> LivenessBased /\ parent e w m /\ (In m (r_ready r) \/ In m (r_waiting r)) \/
     e_schedule e = LivenessBased /\
     exists s cw kw cm km, In w to_check /\ checked_with e w cw kw /\ In s (k_waiting kw) /\
      In m to_check /\ checked_with e m cm km /\ In s (k_dead km))).
  { destruct (is_dag (e_schedule e)) eqn:D.
    - assert (S : e_schedule e <> LivenessBased) by (intros H; rewrite H in D; discriminate).
      apply rbind_Ok in E1. destruct E1 as (c & C & E1). apply fcell_of_Ok in C.
      assert (G : NoDup m1 /\ forall m, In m m1 <-> exists x s, In x (e_ctxs e) /\ par_edge e x w m s /\
                 (In m (r_ready r) \/ In m (r_waiting r))).
      { revert E1. apply (rfold_prefix _ (fun done m1 => NoDup m1 /\ forall m, In m m1 <->
           exists x s, In x done /\ par_edge e x w m s /\
                 (In m (r_ready r) \/ In m (r_waiting r)))).
        - split; [constructor|]. intros m. split; [intros []|]. intros (x & s & [] & _).
        - intros done x t t' IN (ND & IH) E. apply rmap_Ok in E. destruct E as (d & Dp & <-).
          assert (Hx : In x (e_ctxs e)) by (apply IN, in_or_app; right; left; auto).
          split; [now apply NoDup_supd|].
          intros m. rewrite In_supd, IH, filter_In, orb_true_iff, !memb_In. split.
          + intros [(x' & s & H & H')|[H H']].
            * exists x', s. split; auto. apply in_or_app. auto.
            * apply in_map_iff in H. destruct H as ([m' s] & <- & H).
              exists x, s. split; [apply in_or_app; right; left; auto|]. split; auto.
              now apply (dparents_par e x w c d).
          + intros (x' & s & H & H1 & H2). apply in_app_or in H. destruct H as [H|[<-|[]]].
            * left. eauto.
            * right. split; auto. apply in_map_iff. exists (m, s). split; auto.
              now apply (dparents_par e x w c d). }
      destruct G as (ND & G). split; auto. intros m. rewrite G. split.
      + intros (x & s & H & H1 & H2). left. split; auto. split; auto. exists x, s. auto.
      + intros [(_ & (x & s & H) & H')|(H & _)]; [|contradiction].
        exists x, s. split; auto. destruct H as (? & _ & ? & _). auto.
    - apply is_dag_iff in D. injection E1 as <-. rewrite EW, EK.
      fold (lget (r_wsyms r0) w).
      assert (G : forall l, NoDup (fold_left (fun acc s => supd acc
                 (match dget (r_killing r0) s with Some l => l | None => [] end)) l []) /\
               forall m, In m (fold_left (fun acc s => supd acc
                 (match dget (r_killing r0) s with Some l => l | None => [] end)) l []) <->
               exists s, In s l /\ In m (lget (r_killing r0) s)).
      { intros l. apply (fold_left_prefix _ (fun done acc => NoDup acc /\ forall m, In m acc <->
                 exists s, In s done /\ In m (lget (r_killing r0) s))).
        - split; [constructor|]. intros m. split; [intros []|]. intros (s & [] & _).
        - intros done s t _ (ND & IH). split; [now apply NoDup_supd|].
          intros m. rewrite In_supd, IH. fold (lget (r_killing r0) s). split.
          + intros [(s' & H & H')|H]; [exists s'|exists s]; rewrite in_app_iff; simpl; auto.
          + intros (s' & H & H'). apply in_app_or in H. destruct H as [H|[<-|[]]]; eauto. }
      destruct (G (lget (r_wsyms r0) w)) as (ND & G'). split; auto.
      intros m. rewrite G'. split.
      + intros (s & H & H'). right. split; auto.
        apply (ci_wsyms _ _ _ _ _ V) in H. destruct H as (H1 & _ & cw & kw & H2 & H3).
        apply (ci_killing _ _ _ _ _ V) in H'. destruct H' as (H4 & cm & km & H5 & H6).
        exists s, cw, kw, cm, km. auto 10.
      + intros [(H & _)|(_ & s & cw & kw & cm & km & H1 & H2 & H3 & H4 & H5 & H6)]; [contradiction|].
        exists s. split.
        * apply (ci_wsyms _ _ _ _ _ V). split; auto. split; auto. exists cw, kw. auto.
        * apply (ci_killing _ _ _ _ _ V). split; auto. exists cm, km. auto. }
  destruct A as (ND1 & A).
  assert (B : NoDup m2 /\ forall m, In m m2 <-> In m m1 /\
    (e_in_order e = true -> exists cw cm, cell_is e w cw /\ cell_is e m cm /\
      above (f_pos cm) (f_pos cw))).
  { destruct (e_in_order e) eqn:O.
    - split.
      + clear - E2 ND1. revert m2 E2. induction m1 as [|a l IH]; simpl; intros m2 E2.
        * injection E2 as <-. constructor.
        * inversion ND1; subst. apply rbind_Ok in E2. destruct E2 as (b & _ & E2).
          apply rmap_Ok in E2. destruct E2 as (m3 & E3 & <-). specialize (IH H2 _ E3).
          destruct b; auto. constructor; auto.
          intros X. apply (rfilter_In _ _ _ E3) in X. tauto.
      + intros m. rewrite (rfilter_In _ _ _ E2). split; intros [H H']; split; auto.
        * intros _. apply rbind_Ok in H'. destruct H' as (cm & C & H').
          apply rmap_Ok in H'. destruct H' as (cw & C' & H'). apply fcell_of_Ok in C.
          apply fcell_of_Ok in C'. apply pos_ltb_above in H'. eauto.
        * destruct (H' eq_refl) as (cw & cm & C & C' & AB). apply fcell_of_Ok in C.
          apply fcell_of_Ok in C'. rewrite C', C. simpl. f_equal. now apply pos_ltb_above.
    - injection E2 as <-. split; auto. intros m. split; [|tauto]. intros H. split; auto. discriminate. }
  destruct B as (ND2 & B).
  assert (Cc : NoDup (match last with None => m2 | Some l => sdiff m2 [l] end) /\
     forall m, In m (match last with None => m2 | Some l => sdiff m2 [l] end) <->
       In m m2 /\ last <> Some m).
  { destruct last as [l|].
    - split; [now apply NoDup_filter|]. intros m. rewrite In_sdiff. simpl. split.
      + intros [H N]. split; auto. intros [= ->]. auto.
      + intros [H N]. split; auto. intros [->|[]]. auto.
    - split; auto. intros m. split; [|tauto]. split; auto. discriminate. }
  destruct Cc as (ND & Cc). split; auto. intros m. rewrite Cc, B, A. unfold makes_ready.
  split.
  - intros [[[(H & H')|(H & H')] H1] H2]; split; auto.
  - intros [[(H & H')|(H & H' & H1)] H2]; split; auto; split; auto.
    intros O. destruct H' as ((x & s & c & C & _ & _ & AB) & _).
    destruct (AB O) as (p & Cp & Ab). eauto.
Qed.

Lemma initial_spec e r last d : initial_links e r last = Ok d ->
  dwf d /\ (forall w, In w (dkeys d) <-> In w (r_waiting r)) /\
  (forall w, In w (r_waiting r) -> exists ms, ready_makers e r last w = Ok ms /\
     dget d w = Some ms).
Proof.
  unfold initial_links. apply (rfold_prefix _ (fun done d => dwf d /\
    (forall w, In w (dkeys d) <-> In w done) /\
    (forall w, In w done -> exists ms, ready_makers e r last w = Ok ms /\ dget d w = Some ms))).
  - split; [apply dwf_nil|]. split; [intros i; simpl; tauto|]. intros w [].
  - intros done w t t' _ (W & A & B) E. apply rmap_Ok in E. destruct E as (ms & E & <-).
    split; [now apply dwf_dset|]. split.
    + intros k. rewrite dkeys_dset_In, A, in_app_iff. simpl.
      split; [intros [?|?]|intros [?|[?|[]]]]; auto.
    + intros k Hk. rewrite dget_dset. destruct (Nat.eqb_spec k w) as [->|N]; eauto.
      apply in_app_or in Hk. destruct Hk as [Hk|[->|[]]]; [auto|congruence].
Qed.

Lemma initial_links_spec e lp flags to_check r r0 last d :
  CInv e lp flags to_check r0 ->
  r_wsyms r = r_wsyms r0 -> r_killing r = r_killing r0 ->
  initial_links e r last = Ok d ->
  py_sets d /\
  forall w m, In w (r_waiting r) ->
    (In m (lget d w) <-> makes_ready e to_check (r_ready r) (r_waiting r) last w m).
Proof.
  intros V EW EK E. destruct (initial_spec _ _ _ _ E) as (W & K & M). split.
  - split; [exact W|]. intros k l H.
    assert (In k (r_waiting r)).
    { apply K. apply in_map_iff. exists (k, l). auto. }
    destruct (M k H0) as (ms & Em & G). rewrite (In_dget d k l W H) in G. injection G as ->.
    now apply (makers_spec e lp flags to_check r r0 last k ms).
  - intros w m Hw. destruct (M w Hw) as (ms & Em & G). unfold lget. rewrite G.
    now apply (makers_spec e lp flags to_check r r0 last w ms).
Qed.
