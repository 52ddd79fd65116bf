(** Proofs about readiness, parents and children, and the links of the whole checker. *)
Require Import List ZArith Bool Arith Lia Permutation.
Import ListNotations.
Require Import Verif.Base Verif.Loops Verif.TimestampModel Verif.TimestampProofs
  Verif.SessionModel Verif.SliceModel Verif.SliceProofs Verif.PosModel Verif.PosSpec
  Verif.PosProofs Verif.FrontModel Verif.FrontSpec Verif.FrontDag Verif.FrontLinks
  Verif.FrontMain Verif.FrontLatest.
Local Open Scope nat_scope.

Lemma still_used_In c raw s : In s (sdiff raw (f_removed c)) <-> still_used c raw s.
Proof. apply In_sdiff. Qed.

Lemma changed_iff e c p raw :
  parent_changed e c p (sdiff raw (f_removed c)) = true <-> changed_since e c p raw.
Proof.
  unfold parent_changed, changed_since. rewrite orb_true_iff, andb_true_iff, orb_true_iff.
  rewrite Z.ltb_lt, Z.max_lub_lt_iff, !existsb_exists. split.
  - intros [((A & B) & C)|(s & Hs & V)].
    + left. split; auto. split; auto. destruct C as [C|(s & Hs & T)]; auto.
      right. exists s. apply still_used_In in Hs. apply Z.eqb_eq in T. auto.
    + right. apply still_used_In in Hs. destruct (s_visible (e_syms e s)) as [v|] eqn:Ev; [|discriminate].
      apply andb_true_iff in V. destruct V as [V1 V2]. apply Z.eqb_eq in V1.
      apply negb_true_iff, Z.eqb_neq in V2. exists s, v. auto.
  - intros [(A & B & C)|(s & v & Hs & Ev & V1 & V2)].
    + left. split; auto. destruct C as [C|(s & Hs & T)]; auto.
      right. exists s. rewrite still_used_In. split; auto. now apply Z.eqb_eq.
    + right. exists s. rewrite still_used_In, Ev. split; auto.
      apply andb_true_iff. split; [now apply Z.eqb_eq|]. now apply negb_true_iff, Z.eqb_neq.
Qed.

Lemma declared_iff e c p raw :
  (memb (e_fake e) (sdiff raw (f_removed c)) && (f_ctr c <? 0)%Z && (0 <? f_ctr p)%Z)%bool = true
  <-> declared e c p raw.
Proof.
  unfold declared. rewrite !andb_true_iff, memb_In, still_used_In, !Z.ltb_lt. tauto.
Qed.

(** The parent passes the filters of the readiness loop. *)
Definition passes (e : fenv) (x : ctx) (c : fcell) latest (all : edges) (j : nat)
    (p : fcell) (raw : list nat) : Prop :=
  not_latest e latest j (sdiff raw (f_removed c)) = Ok false /\
  (if (e_in_order e && ctx_eqb x Static)%bool
   then shadowed e p (sdiff raw (f_removed c)) all else Ok false) = Ok false.

Definition recent (e : fenv) (p : fcell) : Prop :=
  (e_min_new e <= f_ctr p)%Z /\ (e_counter e <= f_ctr p)%Z /\ (e_min_ts e <= f_ctr p)%Z.

Lemma recent_iff e p : (min_new_ready e <=? f_ctr p)%Z = true <-> recent e p.
Proof.
  unfold min_new_ready, recent. rewrite Z.leb_le, !Z.max_lub_iff. tauto.
Qed.

Lemma ready_loop_spec e x c latest all : forall l r rr nn,
  ready_loop e x c latest all l r = Ok (rr, nn) ->
  (rr = true <-> r = true \/ exists j raw p, In (j, raw) l /\ cell_is e j p /\
     (declared e c p raw \/ (changed_since e c p raw /\ passes e x c latest all j p raw))
     \/ (False)) /\
  (nn = true <-> exists j raw p, In (j, raw) l /\ cell_is e j p /\ (0 < f_ctr c)%Z /\
     changed_since e c p raw /\ passes e x c latest all j p raw /\ recent e p).
Proof.
  induction l as [|[pid raw] l IH]; simpl; intros r rr nn E.
  - injection E as <- <-. split.
    + split; auto. intros [H|(j & raw & p & [([] & _)|[]])]. auto.
    + split; [discriminate|]. intros (j & raw & p & [] & _).
  - apply rbind_Ok in E. destruct E as (par & C & E). apply fcell_of_Ok in C.
    destruct (_ && _ && _)%bool eqn:B in E.
    { injection E as <- <-. apply declared_iff in B. split; split; auto.
      - intros _. right. exists pid, raw, par. left. split; auto.
      - discriminate.
      - intros (j & raw' & p & _ & _ & P & _). destruct B as (_ & B & _). lia. }
    assert (ND : ~ declared e c par raw) by (rewrite <- declared_iff; congruence).
    apply rbind_Ok in E. destruct E as (nl & NL & E).
    (* what skipping this parent means *)
    assert (SKIP : forall r0, (changed_since e c par raw -> ~ passes e x c latest all pid par raw) ->
       ready_loop e x c latest all l r0 = Ok (rr, nn) ->
       (rr = true <-> r0 = true \/ exists j raw0 p, ((pid, raw) = (j, raw0) \/ In (j, raw0) l) /\ cell_is e j p /\
     (declared e c p raw0 \/ (changed_since e c p raw0 /\ passes e x c latest all j p raw0))
     \/ (False)) /\
  (nn = true <-> exists j raw0 p, ((pid, raw) = (j, raw0) \/ In (j, raw0) l) /\ cell_is e j p /\ (0 < f_ctr c)%Z /\
     changed_since e c p raw0 /\ passes e x c latest all j p raw0 /\ recent e p)).
    { intros r0 NP E0. destruct (IH _ _ _ E0) as (R & N). split.
      - rewrite R. split.
        + intros [H|(j & raw0 & p & [(H & H')|[]])]; auto. right. exists j, raw0, p. left. auto.
        + intros [H|(j & raw0 & p & [([H|H] & Cj & H')|[]])]; auto.
          * injection H as <- <-. rewrite <- (cell_is_fun _ _ _ _ C Cj) in H'.
            destruct H' as [H'|[H1 H2]]; [contradiction|]. exfalso. exact (NP H1 H2).
          * right. exists j, raw0, p. left. auto.
      - rewrite N. split.
        + intros (j & raw0 & p & H & H'). exists j, raw0, p. auto.
        + intros (j & raw0 & p & [H|H] & Cj & P0 & H1 & H2 & H').
          * injection H as <- <-. rewrite <- (cell_is_fun _ _ _ _ C Cj) in *.
            exfalso. exact (NP H1 H2).
          * exists j, raw0, p. auto 8. }
    destruct nl.
    { apply SKIP; auto. intros _ [P _]. congruence. }
    destruct (parent_changed _ _ _ _) eqn:PC.
    2: { apply SKIP; auto. intros H. apply changed_iff in H. congruence. }
    apply changed_iff in PC.
    apply rbind_Ok in E. destruct E as (sk & SK & E). destruct sk.
    { apply SKIP; auto. intros _ [_ P]. congruence. }
    assert (PA : passes e x c latest all pid par raw) by (split; auto).
    destruct (_ && _)%bool eqn:B2 in E.
    + injection E as <- <-. apply andb_true_iff in B2. destruct B2 as [B2 B3].
      apply recent_iff in B2. apply Z.ltb_lt in B3. split; split; auto.
      * intros _. right. exists pid, raw, par. left. auto.
      * intros _. exists pid, raw, par. auto 10.
    + destruct (IH _ _ _ E) as (R & N). split.
      * split; [|intros _; apply R; auto].
        intros _. right. exists pid, raw, par. left. auto.
      * rewrite N. split.
        -- intros (j & raw0 & p & H & H'). exists j, raw0, p. auto.
        -- intros (j & raw0 & p & [H|H] & Cj & P0 & H1 & H2 & H').
           ++ injection H as <- <-. rewrite <- (cell_is_fun _ _ _ _ C Cj) in *.
              apply recent_iff in H'. apply Z.ltb_lt in P0. rewrite H', P0 in B2. discriminate.
           ++ exists j, raw0, p. auto 8.
Qed.

Lemma ready_ctxs_spec e i c latest : cell_is e i c -> forall xs r rr nn,
  incl xs (e_ctxs e) ->
  ready_ctxs e c latest xs r = Ok (rr, nn) ->
  (rr = true <-> r = true \/ exists x d j raw p, In x xs /\ dparents e x c = Ok d /\
     par_edge e x i j raw /\ cell_is e j p /\
     (declared e c p raw \/ (changed_since e c p raw /\ passes e x c latest d j p raw))) /\
  (nn = true <-> exists x d j raw p, In x xs /\ dparents e x c = Ok d /\
     par_edge e x i j raw /\ cell_is e j p /\ (0 < f_ctr c)%Z /\
     changed_since e c p raw /\ passes e x c latest d j p raw /\ recent e p).
Proof.
  intros Hc. induction xs as [|x xs IH]; simpl; intros r rr nn IN E.
  - injection E as <- <-. split.
    + split; auto. intros [H|(x & d & j & raw & p & [] & _)]. auto.
    + split; [discriminate|]. intros (x & d & j & raw & p & [] & _).
  - apply rbind_Ok in E. destruct E as (d & D & E). apply rbind_Ok in E.
    destruct E as ([r2 n2] & E2 & E). simpl in E.
    assert (Hx : In x (e_ctxs e)) by (apply IN; left; auto).
    pose proof (dparents_par e x i c d Hc Hx D) as PE.
    destruct (ready_loop_spec _ _ _ _ _ _ _ _ _ E2) as (R & N).
    destruct n2.
    + injection E as <- <-. assert (r2 = true).
      { apply R. destruct N as [N _]. destruct (N eq_refl) as (j & raw & p & H1 & H2 & H3 & H4 & H5 & _).
        right. exists j, raw, p. left. auto. }
      subst r2. split.
      * split; auto. intros _. destruct R as [R _]. destruct (R eq_refl) as [H|(j & raw & p & [(H1 & H2 & H3)|[]])]; auto.
        right. exists x, d, j, raw, p. rewrite <- (PE j raw). auto 8.
      * split; auto. intros _. destruct N as [N _].
        destruct (N eq_refl) as (j & raw & p & H1 & H2 & H3).
        exists x, d, j, raw, p. rewrite <- (PE j raw). auto 8.
    + destruct (IH r2 rr nn) as (R' & N'); auto.
      { intros y Hy. apply IN. right. auto. }
      split.
      * rewrite R', R. split.
        -- intros [[H|(j & raw & p & [(H1 & H2 & H3)|[]])]|(x' & d' & j & raw & p & H1 & H2)]; auto.
           ++ right. exists x, d, j, raw, p. rewrite <- (PE j raw). auto 8.
           ++ right. exists x', d', j, raw, p. split; auto.
        -- intros [H|(x' & d' & j & raw & p & [<-|H1] & H2 & H3 & H4 & H5)]; auto.
           ++ left. right. exists j, raw, p. left. assert (d' = d) by congruence. subst d'.
              rewrite (PE j raw). auto.
           ++ right. exists x', d', j, raw, p. auto 8.
      * rewrite N'. split.
        -- intros (x' & d' & j & raw & p & H1 & H2). exists x', d', j, raw, p. auto.
        -- intros (x' & d' & j & raw & p & [<-|H1] & H2 & H3 & H4 & H5); auto.
           ++ exfalso. assert (false = true); [|discriminate]. apply N.
              exists j, raw, p. assert (d' = d) by congruence. subst d'.
              rewrite (PE j raw). auto.
           ++ exists x', d', j, raw, p. auto 8.
Qed.

(** Any-order flow: exact. *)
Lemma readiness_any_order e i c k r n :
  cell_is e i c -> e_in_order e = false -> e_schedule e <> LivenessBased ->
  readiness e c k = Ok (r, n) ->
  (r = true <-> out_of_date e i) /\ (n = true <-> newly_out_of_date e i).
Proof.
  intros Hc O S. unfold readiness, latest_parents. rewrite O.
  assert (is_dag (e_schedule e) = true) as D by (destruct (e_schedule e); auto; congruence).
  rewrite D. simpl. rewrite rbind_Ok. intros ([r1 n1] & E & H).
  assert ((r1, n1) = (r, n)) as [= -> ->].
  { simpl in H. destruct (e_schedule e); [congruence| |]; rewrite andb_false_r in H; congruence. }
  destruct (ready_ctxs_spec e i c None Hc _ _ _ _ (incl_refl _) E) as (R & N).
  assert (PA : forall x d j p raw, passes e x c None d j p raw).
  { intros. split; simpl; auto. rewrite O. simpl. auto. }
  assert (DP : forall x, dparents e x c = Ok (f_par c x)).
  { intros x. unfold dparents. now rewrite O. }
  split.
  - rewrite R. split.
    + intros [H0|(x & d & j & raw & p & H1 & H2 & H3 & H4 & H5)]; [discriminate|].
      exists x, j, raw, c, p. tauto.
    + intros (x & j & raw & c' & p & H1 & H2 & H3 & H4). right.
      rewrite <- (cell_is_fun _ _ _ _ Hc H2) in *.
      exists x, (f_par c x), j, raw, p.
      split; [destruct H1 as (? & _ & ? & _); auto|]. split; auto. split; auto. split; auto.
      destruct H4; auto.
  - rewrite N. unfold recent. split.
    + intros (x & d & j & raw & p & H1 & H2 & H3 & H4 & H5 & H6 & _ & H7).
      exists x, j, raw, c, p. tauto.
    + intros (x & j & raw & c' & p & H1 & H2 & H3 & H4 & H5 & H6).
      rewrite <- (cell_is_fun _ _ _ _ Hc H2) in *.
      exists x, (f_par c x), j, raw, p.
      split; [destruct H1 as (? & _ & ? & _); auto|]. auto 10.
Qed.

(** In-order flow: sound, and complete for the lowest parent. *)
Lemma shadowed_lowest e p syms : forall l,
  (forall j raw, In (j, raw) l -> exists q, cell_is e j q /\ pos_leb (f_pos q) (f_pos p) = true) ->
  shadowed e p syms l = Ok false.
Proof.
  induction l as [|[j raw] l IH]; simpl; intros H; auto.
  destruct (H j raw) as (q & C & L); auto. apply fcell_of_Ok in C. rewrite C. simpl.
  rewrite L. apply IH. intros. eapply H. eauto.
Qed.

Lemma above_leb a b : above a b -> pos_leb a b = true.
Proof. destruct a, b; simpl; auto; try tauto. rewrite Z.leb_le. lia. Qed.

Lemma latest_dparents e c latest x : e_in_order e = true -> latest_parents e c = Ok latest ->
  In x (e_ctxs e) -> exists d, dparents e x c = Ok d.
Proof.
  intros O L Hx. unfold latest_parents in L. rewrite O in L. apply rmap_Ok in L.
  destruct L as (m & L & _). destruct (rfold_each _ _ _ _ L x Hx) as (t & t' & E).
  apply rbind_Ok in E. destruct E as (d & E & _). eauto.
Qed.

Lemma readiness_in_order e i c k r n :
  cell_is e i c -> e_in_order e = true -> e_schedule e = DagBased ->
  readiness e c k = Ok (r, n) ->
  (r = true -> exists x j raw p, par_edge e x i j raw /\ cell_is e j p /\
      (declared e c p raw \/
       (changed_since e c p raw /\
        (still_used c raw (e_fake e) \/
         exists s, still_used c raw s /\ lowest_source e i s j)))) /\
  (n = true -> newly_out_of_date e i) /\
  (forall x j raw p, par_edge e x i j raw -> cell_is e j p -> declared e c p raw -> r = true) /\
  (forall x j raw p s, par_edge e x i j raw -> cell_is e j p -> lowest_parent e i j ->
     still_used c raw s -> changed_since e c p raw -> r = true).
Proof.
  intros Hc O S. unfold readiness. rewrite S. simpl. rewrite rbind_Ok.
  intros ([r1 n1] & E & H). rewrite andb_false_r in H. injection H as -> ->.
  apply rbind_Ok in E. destruct E as (latest & L & E).
  destruct (ready_ctxs_spec e i c latest Hc _ _ _ _ (incl_refl _) E) as (R & N).
  assert (exists m, latest = Some m) as (m & ->).
  { unfold latest_parents in L. rewrite O in L. apply rmap_Ok in L. destruct L as (m & _ & <-). eauto. }
  assert (US : forall x j raw s, par_edge e x i j raw -> In s (sdiff raw (f_removed c)) -> uses e i s j).
  { intros x j raw s P Hs. apply (usable e i c Hc x j raw s); auto. }
  split; [|split; [|split]].
  - intros Hr. apply R in Hr. destruct Hr as [Hr|(x & d & j & raw & p & H1 & H2 & H3 & H4 & H5)]; [discriminate|].
    exists x, j, raw, p. split; auto. split; auto. destruct H5 as [H5|[H5 [P _]]]; auto.
    right. split; auto.
    destruct (not_latest_false e i c Hc m j _ L P (fun s => US x j raw s H3)) as [F|(s & Hs & LS)].
    + left. now apply still_used_In.
    + right. exists s. split; auto. now apply still_used_In.
  - intros Hn. apply N in Hn. destruct Hn as (x & d & j & raw & p & H1 & H2 & H3 & H4 & H5 & H6 & _ & H7).
    exists x, j, raw, c, p. unfold recent in H7. tauto.
  - intros x j raw p P Cj Dd. apply R. right.
    assert (Hx : In x (e_ctxs e)) by (destruct P as (? & _ & ? & _); auto).
    destruct (latest_dparents e c (Some m) x O L Hx) as (d & DP).
    exists x, d, j, raw, p. auto 8.
  - intros x j raw p s P Cj LP Us Ch. apply R. right.
    assert (Hx : In x (e_ctxs e)) by (destruct P as (? & _ & ? & _); auto).
    destruct (latest_dparents e c (Some m) x O L Hx) as (d & DP).
    exists x, d, j, raw, p. split; auto. split; auto. split; auto. split; auto. right.
    split; auto.
    assert (BEL : forall j', parent e i j' -> forall p', cell_is e j' p' ->
              pos_leb (f_pos p') (f_pos p) = true).
    { intros j' P' p' C'. destruct (Nat.eq_dec j' j) as [->|Ne].
      - rewrite (cell_is_fun _ _ _ _ Cj C'). apply pos_leb_refl.
      - destruct (LP j' P' Ne) as (q & q' & Q & Q' & AB).
        rewrite (cell_is_fun _ _ _ _ Cj Q), (cell_is_fun _ _ _ _ C' Q'). now apply above_leb. }
    split.
    + destruct (not_latest_total e i c Hc (Some m) j (sdiff raw (f_removed c)) L) as (b & B); eauto.
      rewrite B. destruct b; auto. exfalso.
      unfold not_latest in B. destruct (memb (e_fake e) _) eqn:F; [discriminate|].
      apply memb_nIn in F. apply rmap_Ok in B. destruct B as (l & B & X).
      apply negb_true_iff, memb_nIn in X. apply X.
      assert (G : forall s k, In s (sdiff raw (f_removed c)) -> forall q,
                tsget m (s_shallow (e_syms e s)) = Some (k, q) -> In k l).
      { revert B. apply (rfold_prefix _ (fun done l => forall s k, In s done -> forall q,
                tsget m (s_shallow (e_syms e s)) = Some (k, q) -> In k l)).
        - intros ? ? [].
        - intros done a t t' _ IH B s' k' Hs q T. apply rmap_Ok in B.
          destruct B as ([k2 q2] & B & <-). apply of_option_Ok in B.
          apply in_or_app. apply in_app_or in Hs. destruct Hs as [Hs|[<-|[]]].
          + left. eapply IH; eauto.
          + right. left. simpl. congruence. }
      destruct (latest_spec e i c Hc m L) as (SR & CV).
      assert (sF : s <> e_fake e) by (intros ->; apply F; now apply still_used_In).
      apply still_used_In in Us.
      destruct (CV s j p (US _ _ _ _ P Us) sF Cj) as (k' & pk & T & LE).
      destruct (SR _ _ _ T) as (s1 & p1 & U1 & _ & _ & C1 & ->).
      destruct (Nat.eq_dec k' j) as [->|Ne]; [eapply G; eauto|].
      exfalso. destruct U1 as (x1 & raw1 & c1 & P1 & _).
      destruct (LP k') as (q & q' & Q & Q' & AB); [exists x1, raw1; auto|auto|].
      rewrite (cell_is_fun _ _ _ _ Cj Q), (cell_is_fun _ _ _ _ C1 Q') in LE.
      apply pos_leb_not_above in LE. contradiction.
    + destruct (_ && _)%bool; auto. apply shadowed_lowest.
      intros j' raw' Hj'. apply (dparents_par e x i c d Hc Hx DP) in Hj'.
      pose proof Hj' as (c' & _ & _ & _ & A). destruct (A O) as (q & Q & _).
      exists q. split; auto. apply (BEL j'); auto. exists x, raw'. auto.
Qed.
