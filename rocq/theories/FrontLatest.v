(** Proofs about [get_latest_parent_by_ts_map], readiness and the parents that are sent. *)
Require Import List ZArith Bool Arith Lia Permutation.
Import ListNotations.
Require Import Verif.Base Verif.Loops Verif.TimestampModel Verif.TimestampProofs
  Verif.SessionModel Verif.SliceModel Verif.SliceProofs Verif.PosModel Verif.PosSpec
  Verif.PosProofs Verif.FrontModel Verif.FrontSpec Verif.FrontDag Verif.FrontLinks
  Verif.FrontMain.
Local Open Scope nat_scope.

Lemma tsget_tsset {V} (d : list (ts * V)) t v t' :
  tsget (tsset d t v) t' = if ts_eqb t' t then Some v else tsget d t'.
Proof.
  induction d as [|[u w] d IH]; simpl.
  - destruct (ts_eqb t' t); auto.
  - destruct (ts_eqb t u) eqn:E; simpl.
    + apply ts_eqb_eq in E. subst u. destruct (ts_eqb t' t); auto.
    + rewrite IH. destruct (ts_eqb t' u) eqn:E2; auto.
      destruct (ts_eqb t' t) eqn:E3; auto.
      apply ts_eqb_eq in E2. apply ts_eqb_eq in E3. subst.
      assert (ts_eqb u u = true) by now apply ts_eqb_eq. congruence.
Qed.

Lemma pos_leb_refl p : pos_leb p p = true.
Proof. destruct p; simpl; auto. apply Z.leb_refl. Qed.

Lemma pos_leb_trans a b c : pos_leb a b = true -> pos_leb b c = true -> pos_leb a c = true.
Proof. destruct a, b, c; simpl; auto; try discriminate. rewrite !Z.leb_le. lia. Qed.

Lemma pos_leb_not_above a b : pos_leb a b = true -> ~ above b a.
Proof. destruct a, b; simpl; try tauto; try discriminate. rewrite Z.leb_le. lia. Qed.

Lemma pos_leb_false a b : pos_leb a b = false -> pos_leb b a = true.
Proof. destruct a, b; simpl; auto; try discriminate. rewrite Z.leb_gt, Z.leb_le. lia. Qed.

Definition covers (m : list (ts * (nat * pos))) (t : ts) (p : pos) : Prop :=
  exists k pk, tsget m t = Some (k, pk) /\ pos_leb p pk = true.

Section Latest.
Variable e : fenv.
Variable i : nat.
Variable c : fcell.
Hypothesis Hc : cell_is e i c.

Definition src (m : list (ts * (nat * pos))) : Prop :=
  forall t k pk, tsget m t = Some (k, pk) ->
    exists s p, uses e i s k /\ s <> e_fake e /\ s_shallow (e_syms e s) = t /\
                cell_is e k p /\ pk = f_pos p.

Definition sstep (kv : nat * list nat) (p : fcell) (m : list (ts * (nat * pos))) (s : nat) :=
  let t := s_shallow (e_syms e s) in
  let old := match tsget m t with Some ip => snd ip | None => f_pos p end in
  if pos_leb old (f_pos p) then tsset m t (fst kv, f_pos p) else m.

Lemma sstep_grow kv p m s t q : covers m t q -> covers (sstep kv p m s) t q.
Proof.
  intros (k & pk & E & L). unfold sstep.
  destruct (pos_leb _ (f_pos p)) eqn:B; [|exists k, pk; auto].
  unfold covers. rewrite tsget_tsset. destruct (ts_eqb t _) eqn:T; [|eauto].
  apply ts_eqb_eq in T. subst t. rewrite E in B. simpl in B.
  exists (fst kv), (f_pos p). split; auto. now apply pos_leb_trans with pk.
Qed.

Lemma sstep_covers kv p m s : covers (sstep kv p m s) (s_shallow (e_syms e s)) (f_pos p).
Proof.
  unfold sstep. set (t := s_shallow (e_syms e s)).
  destruct (pos_leb _ (f_pos p)) eqn:B.
  - exists (fst kv), (f_pos p). rewrite tsget_tsset.
    assert (ts_eqb t t = true) as -> by now apply ts_eqb_eq. auto using pos_leb_refl.
  - destruct (tsget m t) as [[k pk]|] eqn:T; simpl in B.
    + exists k, pk. split; auto. now apply pos_leb_false.
    + rewrite pos_leb_refl in B. discriminate.
Qed.

Lemma sstep_src kv p m s : src m -> uses e i s (fst kv) -> s <> e_fake e ->
  cell_is e (fst kv) p -> src (sstep kv p m s).
Proof.
  intros S U N P t k pk. unfold sstep. destruct (pos_leb _ (f_pos p)); [|apply S].
  rewrite tsget_tsset. destruct (ts_eqb t _) eqn:T; [|apply S].
  intros [= <- <-]. apply ts_eqb_eq in T. exists s, p. auto.
Qed.

Definition kstep (m : list (ts * (nat * pos))) (kv : nat * list nat)
  : res (list (ts * (nat * pos))) :=
  rmap (fun p => fold_left (sstep kv p)
    (sdiff (sdiff (snd kv) (f_removed c)) [e_fake e]) m) (fcell_of e (fst kv)).

Lemma usable x j raw s : par_edge e x i j raw ->
  In s (sdiff raw (f_removed c)) -> uses e i s j.
Proof.
  intros P H. apply In_sdiff in H. exists x, raw, c. auto.
Qed.

Lemma kstep_spec x m kv m' : par_edge e x i (fst kv) (snd kv) -> src m ->
  kstep m kv = Ok m' ->
  src m' /\ (forall t q, covers m t q -> covers m' t q) /\
  (forall s p, In s (snd kv) -> ~ In s (f_removed c) -> s <> e_fake e ->
     cell_is e (fst kv) p -> covers m' (s_shallow (e_syms e s)) (f_pos p)).
Proof.
  intros P S E. unfold kstep in E. apply rmap_Ok in E. destruct E as (p & C & <-).
  apply fcell_of_Ok in C.
  set (l := sdiff (sdiff (snd kv) (f_removed c)) [e_fake e]).
  assert (G : src (fold_left (sstep kv p) l m) /\
    (forall t q, covers m t q -> covers (fold_left (sstep kv p) l m) t q) /\
    (forall s, In s l -> covers (fold_left (sstep kv p) l m) (s_shallow (e_syms e s)) (f_pos p))).
  { apply (fold_left_prefix (sstep kv p) (fun done m' => src m' /\
      (forall t q, covers m t q -> covers m' t q) /\
      (forall s, In s done -> covers m' (s_shallow (e_syms e s)) (f_pos p)))).
    - split; auto. split; auto. intros s [].
    - intros done s t IN (A & B & D).
      assert (Hs : In s l) by (apply IN, in_or_app; right; left; auto).
      apply In_sdiff in Hs. destruct Hs as [Hs Hf].
      split; [|split].
      + apply sstep_src; auto.
        * eapply usable; eauto.
        * intros ->. apply Hf. left. auto.
      + intros t' q H. apply sstep_grow, B, H.
      + intros s' Hs'. apply in_app_or in Hs'. destruct Hs' as [Hs'|[<-|[]]].
        * apply sstep_grow. auto.
        * apply sstep_covers. }
  destruct G as (A & B & D). split; auto. split; auto.
  intros s p' H1 H2 H3 C'. rewrite <- (cell_is_fun _ _ _ _ C C'). apply D.
  apply In_sdiff. split; [apply In_sdiff; auto|]. intros [H0|[]]. congruence.
Qed.

Lemma latest_spec m : latest_parents e c = Ok (Some m) ->
  src m /\
  (forall s j p, uses e i s j -> s <> e_fake e -> cell_is e j p ->
     covers m (s_shallow (e_syms e s)) (f_pos p)).
Proof.
  unfold latest_parents. destruct (e_in_order e) eqn:O; [|discriminate].
  intros E. apply rmap_Ok in E. destruct E as (m' & E & [= ->]).
  assert (G : src m /\ (forall x s j raw p, In x (e_ctxs e) -> par_edge e x i j raw ->
     In s raw -> ~ In s (f_removed c) ->
     s <> e_fake e -> cell_is e j p -> covers m (s_shallow (e_syms e s)) (f_pos p))).
  { revert E. apply (rfold_prefix _ (fun done m => src m /\
      (forall x s j raw p, In x done -> par_edge e x i j raw ->
     In s raw -> ~ In s (f_removed c) ->
     s <> e_fake e -> cell_is e j p -> covers m (s_shallow (e_syms e s)) (f_pos p)))).
    - split; [intros t k pk H; discriminate|]. intros x s j raw p [].
    - intros done x t t' IN (A & B) E. apply rbind_Ok in E. destruct E as (d & D & E).
      assert (Hx : In x (e_ctxs e)) by (apply IN, in_or_app; right; left; auto).
      assert (G : src t' /\ (forall t1 q, covers t t1 q -> covers t' t1 q) /\
        (forall s j raw p, In (j, raw) d -> In s raw -> ~ In s (f_removed c) ->
          s <> e_fake e -> cell_is e j p -> covers t' (s_shallow (e_syms e s)) (f_pos p))).
      { change (rfold kstep d t = Ok t') in E. revert E.
        apply (rfold_prefix kstep (fun done t' => src t' /\
          (forall t1 q, covers t t1 q -> covers t' t1 q) /\
          (forall s j raw p, In (j, raw) done -> In s raw -> ~ In s (f_removed c) ->
          s <> e_fake e -> cell_is e j p -> covers t' (s_shallow (e_syms e s)) (f_pos p)))).
        - split; auto. split; auto. intros s j raw p [].
        - intros dn [j raw] u u' IN' (A' & B' & D') E'.
          assert (Pe : par_edge e x i j raw).
          { apply (dparents_par e x i c d); auto. apply IN', in_or_app. right. left. auto. }
          destruct (kstep_spec x u (j, raw) u' Pe A' E') as (A2 & B2 & D2).
          split; auto. split; auto.
          intros s j' raw' p H1 H2 H3 H4 H5. apply in_app_or in H1.
          destruct H1 as [H1|[[= -> ->]|[]]]; eauto.
      }
      destruct G as (A2 & B2 & D2). split; auto.
      intros x' s j raw p H1 H2 H3 H4 H5 H6. apply in_app_or in H1.
      destruct H1 as [H1|[<-|[]]]; eauto.
      apply (D2 s j raw p); auto. now apply (dparents_par e x i c d). }
  destruct G as (A & B). split; auto.
  intros s j p (x & raw & c' & P & C' & U & NR) N Cj.
  rewrite <- (cell_is_fun _ _ _ _ Hc C') in NR.
  apply (B x s j raw p); auto. destruct P as (? & _ & ? & _). auto.
Qed.

(** Passing the latest-parent filter. *)
Lemma not_latest_false m pid syms : latest_parents e c = Ok (Some m) ->
  not_latest e (Some m) pid syms = Ok false ->
  (forall s, In s syms -> uses e i s pid) ->
  In (e_fake e) syms \/ exists s, In s syms /\ lowest_source e i s pid.
Proof.
  intros L. destruct (latest_spec _ L) as (A & B).
  unfold not_latest. destruct (memb (e_fake e) syms) eqn:F.
  - intros _ _. left. now apply memb_In.
  - intros E U. right. apply rmap_Ok in E. destruct E as (l & E & X).
    apply negb_false_iff, memb_In in X.
    assert (G : forall k, In k l -> exists s pk, In s syms /\
              tsget m (s_shallow (e_syms e s)) = Some (k, pk)).
    { revert E. apply (rfold_prefix _ (fun done l => forall k, In k l -> exists s pk,
         In s done /\ tsget m (s_shallow (e_syms e s)) = Some (k, pk))).
      - intros k [].
      - intros done s t t' _ IH E k Hk. apply rmap_Ok in E. destruct E as ([k' pk'] & E & <-).
        apply of_option_Ok in E. apply in_app_or in Hk. destruct Hk as [Hk|[<-|[]]].
        + destruct (IH _ Hk) as (s1 & pk & H1 & H2). exists s1, pk.
          split; auto. apply in_or_app. auto.
        + exists s, pk'. split; auto. apply in_or_app. right. left. auto. }
    destruct (G _ X) as (s & pk & Hs & T). exists s. split; auto.
    intros s' j' p p' U' N' TS Cp Cp'.
    destruct (B s' j' p' U' N' Cp') as (k2 & pk2 & T2 & L2).
    rewrite TS, T in T2. injection T2 as <- <-.
    destruct (A _ _ _ T) as (s1 & p1 & _ & _ & _ & Cp1 & ->).
    rewrite (cell_is_fun _ _ _ _ Cp Cp1). now apply pos_leb_not_above.
Qed.

(** The lookups never fail. *)
Lemma not_latest_total latest pid syms :
  latest_parents e c = Ok latest -> (exists p, cell_is e pid p) ->
  (forall s, In s syms -> uses e i s pid) ->
  exists b, not_latest e latest pid syms = Ok b.
Proof.
  intros L (p & Cp) U. unfold not_latest. destruct latest as [m|]; [|eauto].
  destruct (memb (e_fake e) syms) eqn:F; [eauto|]. apply memb_nIn in F.
  destruct (latest_spec _ L) as (_ & B).
  destruct (rfold_total (fun acc s => rmap (fun ip : nat * pos => acc ++ [fst ip])
      (of_option KeyError (tsget m (s_shallow (e_syms e s))))) syms [])
    as (l & E).
  - intros s acc Hs. destruct (B s pid p) as (k & pk & T & _); auto.
    { intros ->. auto. }
    rewrite T. simpl. eauto.
  - rewrite E. simpl. eauto.
Qed.

End Latest.
