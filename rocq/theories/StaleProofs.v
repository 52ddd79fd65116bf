(** Lemmas about the tables of stale parents. *)
Require Import List Arith ZArith Bool Lia Sorting.Permutation Sorting.Sorted.
Import ListNotations.
Require Import Verif.Base Verif.Loops Verif.CommModel Verif.CommProofs Verif.StaleModel Verif.StaleSpec.
Local Open Scope nat_scope.

Lemma get1_listed : forall d k v, In v (get1 d k) <-> listed1 d k v.
Proof.
  intros d k v. unfold get1, listed1. destruct (dget d k) as [l|]; split.
  - eauto.
  - intros (l' & [= <-] & I). auto.
  - intros [].
  - intros (l' & E & _). discriminate.
Qed.
Lemma add1_listed : forall d k v k' v', listed1 (add1 d k v) k' v' <-> listed1 d k' v' \/ k' = k /\ v' = v.
Proof.
  intros d k v k' v'. rewrite <- !get1_listed. unfold add1. unfold get1 at 1. destruct (Nat.eq_dec k' k) as [->|N].
  - rewrite dget_dset_same, In_sadd. tauto.
  - rewrite dget_dset_other by auto. fold (get1 d k'). tauto.
Qed.
Lemma listed2_get : forall d x e p, listed2 d x e p <-> listed1 (get2 d x) e p.
Proof.
  intros d x e p. unfold listed2, listed1, get2. destruct (dget d x) as [r|]; split.
  - intros (r' & l & [= <-] & E & I). eauto.
  - intros (l & E & I). eauto.
  - intros (r' & l & E & _). discriminate.
  - intros (l & E & _). discriminate.
Qed.
Lemma add2_listed : forall d k k' v x e p, listed2 (add2 d k k' v) x e p <-> listed2 d x e p \/ x = k /\ e = k' /\ p = v.
Proof.
  intros d k k' v x e p. rewrite !listed2_get. unfold add2. unfold get2 at 1. destruct (Nat.eq_dec x k) as [->|N].
  - rewrite dget_dset_same, add1_listed. tauto.
  - rewrite dget_dset_other by auto. fold (get2 d x). tauto.
Qed.

Lemma traverse_part : forall w f y l, traverse_up f w y = Ok l -> forall s, In s l <-> part_of w y s.
Proof.
  intros w f. induction f as [|f IH]; intros y l H s; [discriminate|]. cbn [traverse_up] in H.
  apply rbind_Ok in H. destruct H as (o & D & H). apply of_option_Ok in D. destruct o as [z|].
  - apply rmap_Ok in H. destruct H as (l' & H & <-). specialize (IH _ _ H s). simpl. rewrite IH. split.
    + intros [<-|P]; [eapply part_self; eauto|eapply part_up; eauto].
    + intros P. inversion P as [q o D'|q z' s' D' P']; subst; auto. right. assert (z' = z) by congruence. subst. auto.
  - injection H as <-. simpl. split.
    + intros [<-|[]]. eapply part_self; eauto.
    + intros P. inversion P as [q o D'|q z' s' D' P']; subst; auto. congruence.
Qed.
Lemma traverse_total : forall w y n, depth w y n -> forall f, n <= f -> exists l, traverse_up f w y = Ok l.
Proof.
  intros w y n D. induction D as [y n E|y z n E D IH]; intros [|f] L; try lia; cbn [traverse_up]; rewrite E; simpl; eauto.
  destruct (IH f) as (l & ->); [lia|]. simpl. eauto.
Qed.

(** The pairs of a parent and something that holds a symbol of it. *)
Definition pair_of (w : world) (d : dict (list nat)) (r : nat * nat) : Prop := exists l q, In (fst r, l) d /\ In q l /\ part_of w q (snd r).
Lemma pairs_spec : forall f w d l, pairs f w d = Ok l -> forall r, In r l <-> pair_of w d r.
Proof.
  intros f w d l H. unfold pairs in H.
  refine (rfold_prefix _ (fun (done : list (nat * list nat)) (acc : list (nat * nat)) => forall r, In r acc <-> pair_of w done r) d [] l _ _ H).
  - intros r. split; [intros []|intros (l' & q & [] & _)].
  - clear. intros done (p, syms) t t' _ IH H r. cbn [fst snd] in H.
    assert (K : forall r, In r t' <-> pair_of w done r \/ (fst r = p /\ exists q, In q syms /\ part_of w q (snd r))).
    { refine (rfold_prefix _ (fun (qs : list nat) (acc : list (nat * nat)) => forall r, In r acc <-> pair_of w done r \/ (fst r = p /\ exists q, In q qs /\ part_of w q (snd r))) syms t t' _ _ H).
      - intros r'. rewrite IH. split; auto. intros [X|(_ & q & [] & _)]. auto.
      - intros qs q a a' _ Ia Ha r'. apply rmap_Ok in Ha. destruct Ha as (l' & T & <-). rewrite in_app_iff, Ia, in_map_iff.
        pose proof (traverse_part _ _ _ _ T) as TP. split.
        + intros [[X|(E & q' & I & P)]|(s & <- & I)]; auto.
          * right. split; auto. exists q'. rewrite in_app_iff. auto.
          * right. split; auto. exists q. rewrite in_app_iff. simpl. split; auto. apply TP. auto.
        + intros [X|(E & q' & I & P)]; auto. rewrite in_app_iff in I. destruct I as [I|[<-|[]]]; [left; right; eauto|].
          right. exists (snd r'). split; [destruct r'; simpl in *; congruence|]. apply TP. auto. }
    rewrite K. unfold pair_of. split.
    + intros [(l' & q & I & Q)|(E & q & I & Q)].
      * exists l', q. rewrite in_app_iff. tauto.
      * exists syms, q. rewrite in_app_iff. subst p. simpl. tauto.
    + intros (l' & q & I & Iq & Q). rewrite in_app_iff in I. destruct I as [I|[I|[]]]; [left; exists l', q; tauto|].
      injection I as -> ->. right. eauto.
Qed.
Lemma pairs_total : forall f w d, (forall p l q, In (p, l) d -> In q l -> exists n, n <= f /\ depth w q n) -> exists l, pairs f w d = Ok l.
Proof.
  intros f w d H. unfold pairs. apply rfold_total. intros (p, l) t I. simpl. apply rfold_total. intros q t' Q.
  destruct (H p l q I Q) as (n & L & D). destruct (traverse_total _ _ _ D f L) as (m & ->). simpl. eauto.
Qed.

Lemma directional_spec : forall w c d d', directional w c d = Ok d' ->
  forall p l, In (p, l) d' <-> In (p, l) d /\ exists pc, dget (w_cells w) p = Some pc /\ (c_pos pc < c_pos c)%Z.
Proof.
  intros w c d d' H. unfold directional in H.
  refine (rfold_prefix _ (fun (done : list (nat * list nat)) (acc : list (nat * list nat)) => forall p l, In (p, l) acc <-> In (p, l) done /\ exists pc, dget (w_cells w) p = Some pc /\ (c_pos pc < c_pos c)%Z) d [] d' _ _ H).
  - intros p l. simpl. tauto.
  - clear. intros done (p0, l0) t t' _ IH H p l. cbn [fst] in H. apply rmap_Ok in H. destruct H as (pc & D & <-). apply of_option_Ok in D.
    rewrite in_app_iff. simpl. destruct (Z.ltb_spec (c_pos pc) (c_pos c)) as [L|L].
    + rewrite in_app_iff, IH. simpl. split.
      * intros [X|[X|[]]]; [tauto|]. injection X as <- <-. split; auto. eauto.
      * intros ([X|[X|[]]] & Y); auto.
    + rewrite IH. split; [tauto|]. intros ([X|[X|[]]] & Y); auto. injection X as <- <-. destruct Y as (pc' & D' & L'). assert (pc' = pc) by congruence. subst. lia.
Qed.

(** One check: what is stale now. *)
Lemma stale_parents_spec : forall f w x t t', stale_parents f w x t = Ok t' ->
  r_exec t' = r_exec t /\ r_child t' = r_child t /\
  forall y p, listed1 (r_stale t') y p <-> listed1 (r_stale t) y p \/ w_applies w = true /\ y = x /\ stale_now w x p.
Proof.
  intros f w x t t' H. unfold stale_parents in H. destruct (w_applies w); cbn [negb] in H.
  2:{ injection H as <-. split; auto. split; auto. intros y p. split; auto. intros [X|(X & _)]; auto. discriminate. }
  apply rbind_Ok in H. destruct H as (c & C & H). apply of_option_Ok in C.
  set (now := fun (ds : list (dict (list nat))) p => exists d l q s n pc, In d ds /\ In (p, l) d /\ In q l /\ dget (w_cells w) p = Some pc /\ (c_pos pc < c_pos c)%Z /\
    part_of w q s /\ dget (w_time w) s = Some n /\ (c_ctr pc < n)%Z).
  apply (rfold_prefix _ (fun (ds : list (dict (list nat))) u => r_exec u = r_exec t /\ r_child u = r_child t /\
    forall y p, listed1 (r_stale u) y p <-> listed1 (r_stale t) y p \/ y = x /\ now ds p) (c_parents c) t t') in H.
  - destruct H as (E1 & E2 & E3). split; auto. split; auto. intros y p. rewrite E3. split.
    + intros [X|(-> & d & l & q & s & n & pc & I1 & I2 & I3 & D & L & P & T & L')]; auto. right. split; auto. split; auto.
      exists q, s, n, c, pc. repeat (split; [auto|]); auto. exists c, d, l. auto.
    + intros [X|(_ & -> & q & s & n & c' & pc & (c2 & d & l & C2 & I1 & I2 & I3) & C' & D & L & P & T & L')]; auto. right. split; auto.
      assert (c' = c) by congruence. assert (c2 = c) by congruence. subst. exists d, l, q, s, n, pc. auto 10.
  - split; auto. split; auto. intros y p. split; auto. intros [X|(_ & d & l & q & s & n & pc & [] & _)]. auto.
  - intros ds d u u' _ (E1 & E2 & E3) Hd. apply rbind_Ok in Hd. destruct Hd as (d' & Dd & Hd). apply rbind_Ok in Hd. destruct Hd as (l & Pl & Hd).
    pose proof (pairs_spec _ _ _ _ Pl) as PS. pose proof (directional_spec _ _ _ _ Dd) as DS.
    apply (rfold_prefix _ (fun (rs : list (nat * nat)) v => r_exec v = r_exec t /\ r_child v = r_child t /\
      forall y p, listed1 (r_stale v) y p <-> listed1 (r_stale u) y p \/ y = x /\ exists s n pc, In (p, s) rs /\ dget (w_cells w) p = Some pc /\ dget (w_time w) s = Some n /\ (c_ctr pc < n)%Z) l u u') in Hd.
    + destruct Hd as (F1 & F2 & F3). split; auto. split; auto. intros y p. rewrite F3, E3. split.
      * intros [[X|(-> & d0 & l0 & q & s & n & pc & I1 & R)]|(-> & s & n & pc & I & D & T & L)]; auto.
        -- right. split; auto. exists d0, l0, q, s, n, pc. rewrite in_app_iff. tauto.
        -- right. split; auto. apply PS in I. destruct I as (l0 & q & I & Iq & Pq). cbn [fst snd] in *. apply DS in I. destruct I as (I & pc' & D' & L').
           assert (pc' = pc) by congruence. subst pc'. exists d, l0, q, s, n, pc. rewrite in_app_iff. simpl. tauto.
      * intros [X|(-> & d0 & l0 & q & s & n & pc & I1 & I2 & I3 & D & L & P & T & L')]; auto. rewrite in_app_iff in I1. destruct I1 as [I1|[<-|[]]].
        -- left. right. split; auto. exists d0, l0, q, s, n, pc. tauto.
        -- right. split; auto. exists s, n, pc. split; auto. apply PS. exists l0, q. cbn [fst snd]. split; [apply DS; split; eauto|]. auto.
    + split; auto. split; auto. intros y p. split; auto. intros [X|(_ & s & n & pc & [] & _)]. auto.
    + intros rs (p0, s0) v v' _ (F1 & F2 & F3) Hv. cbn [fst snd] in Hv. apply rbind_Ok in Hv. destruct Hv as (pc0 & D0 & Hv). apply of_option_Ok in D0.
      apply rbind_Ok in Hv. destruct Hv as (n0 & T0 & Hv). apply of_option_Ok in T0. injection Hv as <-. destruct (Z.ltb_spec (c_ctr pc0) n0) as [L|L]; cbn [r_exec r_child r_stale].
      * split; auto. split; auto. intros y p. rewrite add1_listed, F3. split.
        -- intros [[X|(-> & s & n & pc & I & R)]|(-> & ->)]; auto.
           ++ right. split; auto. exists s, n, pc. rewrite in_app_iff. tauto.
           ++ right. split; auto. exists s0, n0, pc0. rewrite in_app_iff. simpl. tauto.
        -- intros [X|(-> & s & n & pc & I & R)]; auto. rewrite in_app_iff in I. destruct I as [I|[I|[]]]; [left; right; split; auto; exists s, n, pc; tauto|].
           injection I as -> ->. auto.
      * split; auto. split; auto. intros y p. rewrite F3. split.
        -- intros [X|(-> & s & n & pc & I & R)]; auto. right. split; auto. exists s, n, pc. rewrite in_app_iff. tauto.
        -- intros [X|(-> & s & n & pc & I & D & T & L')]; auto. rewrite in_app_iff in I. destruct I as [I|[I|[]]]; [right; split; auto; exists s, n, pc; tauto|].
           injection I as -> ->. assert (pc = pc0) by congruence. assert (n = n0) by congruence. subst. lia.
Qed.

(** The makers. *)
Lemma written_writes : forall w e c s, dget (w_cells w) e = Some c -> In s (written c) <-> writes w e s.
Proof.
  intros w e c s D. unfold written, writes. rewrite In_supd. split.
  - intros [I|I]; exists c; split; auto. right. destruct (c_modified c) as [m|].
    + apply In_sinter in I. destruct I. split; auto. intros m' [= <-]. auto.
    + split; auto. intros m' E. discriminate.
  - intros (c' & D' & [I|(I & M)]); assert (c' = c) by congruence; subst; auto. left. destruct (c_modified c) as [m|]; auto. apply In_sinter. auto.
Qed.
Lemma written_far : forall c x far s e, listed1 (fold_left (fun far s => add1 far s x) (written c) far) s e <-> listed1 far s e \/ e = x /\ In s (written c).
Proof.
  intros c x far s e. generalize (written c). intros l. revert far. induction l as [|a l IH]; intros far; simpl; [tauto|].
  rewrite IH, add1_listed. intuition subst; auto.
Qed.

Lemma one_cell_spec : forall f w t far x t' far', one_cell f w (t, far) x = Ok (t', far') ->
  r_stale t' = r_stale t /\ exists c, dget (w_cells w) x = Some c /\
  (forall y e p, listed2 (r_exec t') y e p <-> listed2 (r_exec t) y e p \/ y = x /\ exists q s, uses w x p q /\ part_of w q s /\ listed1 far s e) /\
  (forall y e p, listed2 (r_child t') e y p <-> listed2 (r_child t) e y p \/ y = x /\ exists q s, uses w x p q /\ part_of w q s /\ listed1 far s e) /\
  (forall s e, listed1 far' s e <-> listed1 far s e \/ e = x /\ In s (written c)).
Proof.
  intros f w t far x t' far' H. unfold one_cell in H. apply rbind_Ok in H. destruct H as (c & C & H). apply of_option_Ok in C.
  apply rbind_Ok in H. destruct H as (t1 & H & [= <- <-]).
  set (new := fun (ds : list (dict (list nat))) e p => exists d l q s, In d ds /\ In (p, l) d /\ In q l /\ part_of w q s /\ listed1 far s e).
  assert (G : r_stale t1 = r_stale t /\ (forall y e p, listed2 (r_exec t1) y e p <-> listed2 (r_exec t) y e p \/ y = x /\ new (c_parents c) e p) /\
              (forall y e p, listed2 (r_child t1) e y p <-> listed2 (r_child t) e y p \/ y = x /\ new (c_parents c) e p)).
  { apply (rfold_prefix _ (fun (ds : list (dict (list nat))) u => r_stale u = r_stale t /\
      (forall y e p, listed2 (r_exec u) y e p <-> listed2 (r_exec t) y e p \/ y = x /\ new ds e p) /\
      (forall y e p, listed2 (r_child u) e y p <-> listed2 (r_child t) e y p \/ y = x /\ new ds e p)) (c_parents c) t t1) in H; auto.
    - split; auto. split; intros y e p; (split; [auto|]); intros [X|(_ & d & l & q & s & [] & _)]; auto.
    - clear H. intros ds d u u' _ (E0 & E1 & E2) Hd. apply rmap_Ok in Hd. destruct Hd as (l & Pl & <-). pose proof (pairs_spec _ _ _ _ Pl) as PS.
      set (here := fun (rs : list (nat * nat)) e p => exists s, In (p, s) rs /\ listed1 far s e).
      assert (A : forall rs u, (let v := fold_left (fun t r => fold_left (fun t e => mkT (r_stale t) (add2 (r_exec t) x e (fst r)) (add2 (r_child t) e x (fst r))) (get1 far (snd r)) t) rs u in
        r_stale v = r_stale u /\ (forall y e p, listed2 (r_exec v) y e p <-> listed2 (r_exec u) y e p \/ y = x /\ here rs e p) /\
        (forall y e p, listed2 (r_child v) e y p <-> listed2 (r_child u) e y p \/ y = x /\ here rs e p))).
      { induction rs as [|(p0, s0) rs IH]; intros v; cbv zeta.
        - simpl. split; auto. split; intros y e p; (split; [auto|]); intros [X|(_ & s & [] & _)]; auto.
        - cbn [fold_left fst snd].
          assert (B : forall es v, (let z := fold_left (fun t e => mkT (r_stale t) (add2 (r_exec t) x e p0) (add2 (r_child t) e x p0)) es v in
            r_stale z = r_stale v /\ (forall y e p, listed2 (r_exec z) y e p <-> listed2 (r_exec v) y e p \/ y = x /\ p = p0 /\ In e es) /\
            (forall y e p, listed2 (r_child z) e y p <-> listed2 (r_child v) e y p \/ y = x /\ p = p0 /\ In e es))).
          { induction es as [|e0 es IHe]; intros z; cbv zeta; [simpl; split; auto; split; intros y e p; tauto|].
            cbn [fold_left]. destruct (IHe (mkT (r_stale z) (add2 (r_exec z) x e0 p0) (add2 (r_child z) e0 x p0))) as (S0 & S1 & S2). split; [exact S0|].
            split; intros y e p.
            - rewrite S1. cbn [r_exec]. rewrite add2_listed. simpl. intuition subst; auto.
            - rewrite S2. cbn [r_child]. rewrite add2_listed. simpl. intuition subst; auto. }
          destruct (B (get1 far s0) v) as (B0 & B1 & B2). set (z := fold_left _ (get1 far s0) v) in *. destruct (IH z) as (I0 & I1 & I2). split; [congruence|].
          assert (HH : forall e p, here ((p0, s0) :: rs) e p <-> (p = p0 /\ In e (get1 far s0)) \/ here rs e p).
          { intros e p. unfold here. rewrite get1_listed. split.
            - intros (s & [I|I] & L); [injection I as -> ->; auto|]. right. eauto.
            - intros [(-> & L)|(s & I & L)]; [exists s0; simpl; auto|exists s; simpl; auto]. }
          split; intros y e p.
          + rewrite I1, B1, HH. tauto.
          + rewrite I2, B2, HH. tauto. }
      destruct (A l u) as (A0 & A1 & A2). split; [congruence|].
      assert (N : forall e p, new (ds ++ [d]) e p <-> new ds e p \/ here l e p).
      { intros e p. unfold new, here. split.
        - intros (d0 & l0 & q & s & I & R). rewrite in_app_iff in I. destruct I as [I|[<-|[]]]; [left; exists d0, l0, q, s; auto|].
          right. exists s. split; [|tauto]. apply PS. exists l0, q. cbn [fst snd]. tauto.
        - intros [(d0 & l0 & q & s & I & R)|(s & I & L)]; [exists d0, l0, q, s; rewrite in_app_iff; auto|].
          apply PS in I. destruct I as (l0 & q & I). cbn [fst snd] in I. exists d, l0, q, s. rewrite in_app_iff. simpl. tauto. }
      split; intros y e p.
      + rewrite A1, E1, N. tauto.
      + rewrite A2, E2, N. tauto. }
  destruct G as (G0 & G1 & G2). split; auto. exists c. split; auto.
  assert (N : forall e p, new (c_parents c) e p <-> exists q s, uses w x p q /\ part_of w q s /\ listed1 far s e).
  { intros e p. unfold new, uses. split.
    - intros (d & l & q & s & I1 & I2 & I3 & P & L). exists q, s. split; [exists c, d, l; auto|auto].
    - intros (q & s & (c' & d & l & C' & I1 & I2 & I3) & P & L). assert (c' = c) by congruence. subst. exists d, l, q, s. auto. }
  split; [intros y e p; rewrite G1, N; tauto|]. split; [intros y e p; rewrite G2, N; tauto|]. intros s e. apply written_far.
Qed.

Definition holds (w : world) (p i : nat) : Prop := dget (w_pos w) p = Some i.
Lemma in_order_holds : forall w ids, in_order w = Ok ids -> Forall2 (holds w) (isort Nat.leb (dkeys (w_pos w))) ids.
Proof.
  intros w ids H. unfold in_order in H.
  refine (rfold_prefix _ (fun done acc => Forall2 (holds w) done acc) _ [] ids _ _ H); [constructor|].
  intros done a t t' _ IH E. apply rmap_Ok in E. destruct E as (i & D & <-). apply of_option_Ok in D.
  apply Forall2_app; auto.
Qed.
Lemma sorted_split : forall (R : nat -> nat -> Prop) l1 l2 b, StronglySorted R (l1 ++ b :: l2) -> forall a, In a l1 -> R a b.
Proof.
  intros R l1 l2 b. induction l1 as [|x l1 IH]; intros SS a I; [destruct I|]. simpl in SS. inversion SS as [|? ? S1 S2]; subst.
  destruct I as [<-|I]; auto. rewrite Forall_forall in S2. apply S2. rewrite in_app_iff. simpl. auto.
Qed.
Lemma in_order_spec : forall w ids, dwf (w_pos w) -> in_order w = Ok ids -> forall a b,
  (exists l1 l2, ids = l1 ++ b :: l2 /\ In a l1) <-> above w a b.
Proof.
  intros w ids W H a b. apply in_order_holds in H. set (ks := isort Nat.leb (dkeys (w_pos w))) in *.
  assert (PM : Permutation ks (dkeys (w_pos w))) by apply isort_perm.
  assert (ND : NoDup ks) by (eapply Permutation_NoDup; [apply Permutation_sym; exact PM|exact W]).
  assert (SS : StronglySorted (fun a b => Nat.leb a b = true) ks).
  { apply isort_sorted.
    - intros x y. rewrite !Nat.leb_le. lia.
    - intros x y z. rewrite !Nat.leb_le. lia. }
  clearbody ks. split.
  - intros (l1 & l2 & -> & I). apply Forall2_app_inv_r in H. destruct H as (k1 & k2 & F1 & F2 & ->).
    inversion F2 as [|j ? k2' ? Hj F3]; subst.
    assert (X : exists i, In i k1 /\ holds w i a).
    { clear - F1 I. induction F1 as [|x y k1 l1 Hx F IH]; [destruct I|]. destruct I as [<-|I]; [exists x; simpl; auto|].
      destruct (IH I) as (i & Ii & Hi). exists i. simpl. auto. }
    destruct X as (i & Ii & Hi). exists i, j. split; [|split; auto].
    pose proof (sorted_split _ _ _ _ SS i Ii) as L. apply Nat.leb_le in L. destruct (Nat.eq_dec i j) as [->|N]; [|lia].
    exfalso. apply NoDup_remove_2 in ND. apply ND. rewrite in_app_iff. auto.
  - intros (i & j & L & Hi & Hj).
    assert (Ki : In i ks) by (eapply Permutation_in; [apply Permutation_sym; exact PM|eapply dget_Some_key; eauto]).
    assert (Kj : In j ks) by (eapply Permutation_in; [apply Permutation_sym; exact PM|eapply dget_Some_key; eauto]).
    apply in_split in Kj. destruct Kj as (k1 & k2 & ->).
    apply Forall2_app_inv_l in H. destruct H as (l1 & l2 & F1 & F2 & ->). inversion F2 as [|? b' ? l2' Hb F3]; subst.
    assert (b' = b) by (unfold holds in Hb; congruence). subst. exists l1, l2'. split; auto.
    rewrite in_app_iff in Ki. destruct Ki as [Ki|[Ki|Ki]]; [|lia|].
    + clear - F1 Ki Hi. induction F1 as [|x y k1 l1 Hx F IH]; [destruct Ki|]. destruct Ki as [->|Ki]; [left; unfold holds in Hx; congruence|right; auto].
    + exfalso. assert (Q : forall l1 l2, StronglySorted (fun a b => Nat.leb a b = true) (l1 ++ j :: l2) -> In i l2 -> j <= i).
      { clear. induction l1 as [|x l1 IH]; intros l2 SS I; simpl in SS; inversion SS as [|? ? S1 S2]; subst; auto.
        - rewrite Forall_forall in S2. apply Nat.leb_le. auto.
        - eapply IH; eauto. }
      pose proof (Q _ _ SS Ki). lia.
Qed.
Lemma in_order_total : forall w, exists ids, in_order w = Ok ids.
Proof.
  intros w. unfold in_order.
  assert (K : forall p, In p (isort Nat.leb (dkeys (w_pos w))) -> dget (w_pos w) p <> None).
  { intros p I N. apply (Permutation_in _ (isort_perm _ Nat.leb _)) in I. apply key_dget in I. destruct I as (v & E). congruence. }
  revert K. generalize (isort Nat.leb (dkeys (w_pos w))). intros l K. apply rfold_total. intros p t I.
  destruct (dget (w_pos w) p) as [i|] eqn:E; [simpl; eauto|]. exfalso. eapply K; eauto.
Qed.

Lemma makers_spec : forall f w t t', dwf (w_pos w) -> stale_makers f w t = Ok t' ->
  r_stale t' = r_stale t /\
  (forall y e p, listed2 (r_exec t') y e p <-> listed2 (r_exec t) y e p \/ w_applies w = true /\ stale_once w y e p) /\
  (forall y e p, listed2 (r_child t') e y p <-> listed2 (r_child t) e y p \/ w_applies w = true /\ stale_once w y e p).
Proof.
  intros f w t t' W H. unfold stale_makers in H. destruct (w_applies w); cbn [negb] in H.
  2:{ injection H as <-. split; auto. split; intros y e p; (split; [auto|]); intros [X|(X & _)]; auto; discriminate. }
  apply rbind_Ok in H. destruct H as (ids & O & H). apply rmap_Ok in H. destruct H as ((u, far) & H & <-). cbn [fst].
  pose proof (in_order_spec _ _ W O) as AB.
  set (new := fun (done : list nat) y e p => exists q s, uses w y p q /\ part_of w q s /\ (exists l1 l2, done = l1 ++ y :: l2 /\ In e l1) /\ writes w e s).
  assert (K : r_stale u = r_stale t /\ (forall y e p, listed2 (r_exec u) y e p <-> listed2 (r_exec t) y e p \/ new ids y e p) /\
              (forall y e p, listed2 (r_child u) e y p <-> listed2 (r_child t) e y p \/ new ids y e p) /\
              forall s e, listed1 far s e <-> In e ids /\ writes w e s).
  { refine (rfold_prefix _ (fun done v => r_stale (fst v) = r_stale t /\ (forall y e p, listed2 (r_exec (fst v)) y e p <-> listed2 (r_exec t) y e p \/ new done y e p) /\
              (forall y e p, listed2 (r_child (fst v)) e y p <-> listed2 (r_child t) e y p \/ new done y e p) /\
              forall s e, listed1 (snd v) s e <-> In e done /\ writes w e s) ids (t, []) (u, far) _ _ H).
    - cbn [fst snd]. split; auto.
      assert (N : forall y e p, ~ new [] y e p) by (intros y e p (q & s & _ & _ & (l1 & l2 & X & _) & _); destruct l1; discriminate).
      split; [intros y e p; specialize (N y e p); tauto|]. split; [intros y e p; specialize (N y e p); tauto|].
      intros s e. split; [intros (l & X & _); discriminate|intros ([] & _)].
    - intros done x (v, fv) (v', fv') _ (E0 & E1 & E2 & E3) Hx. cbn [fst snd] in *. apply one_cell_spec in Hx.
      destruct Hx as (F0 & c & C & F1 & F2 & F3). split; [congruence|].
      assert (N : forall y e p, new (done ++ [x]) y e p <-> new done y e p \/ y = x /\ exists q s, uses w x p q /\ part_of w q s /\ listed1 fv s e).
      { intros y e p. unfold new. split.
        - intros (q & s & U & P & (l1 & l2 & X & I) & Wr). destruct l2 as [|z l2 _] using rev_ind.
          + apply app_inj_tail in X. destruct X as (-> & ->). right. split; auto. exists q, s. rewrite E3. auto.
          + assert (X' : done ++ [x] = (l1 ++ y :: l2) ++ [z]) by (rewrite X, <- app_assoc; reflexivity).
            apply app_inj_tail in X'. destruct X' as (-> & _). left. exists q, s. eauto 8.
        - intros [(q & s & U & P & (l1 & l2 & -> & I) & Wr)|(-> & q & s & U & P & L)].
          + exists q, s. split; auto. split; auto. split; auto. exists l1, (l2 ++ [x]). rewrite <- app_assoc. auto.
          + rewrite E3 in L. destruct L. exists q, s. split; auto. split; auto. split; auto. exists done, []. auto. }
      split; [intros y e p; rewrite F1, E1, N; tauto|]. split; [intros y e p; rewrite F2, E2, N; tauto|].
      intros s e. rewrite F3, E3, in_app_iff, (written_writes _ _ _ _ C). simpl. intuition subst; auto. }
  destruct K as (K0 & K1 & K2 & _). split; auto.
  assert (N : forall y e p, new ids y e p <-> stale_once w y e p).
  { intros y e p. unfold new, stale_once. split; intros (q & s & U & P & A & Wr); exists q, s; apply AB in A; auto. }
  split; intros y e p; [rewrite K1|rewrite K2]; rewrite N; tauto.
Qed.

(** All the checks. *)
Lemma checks_spec : forall f l t, (forall c, In c l -> dwf (w_pos (fst c))) -> checks f l = Ok t ->
  (forall x p, listed1 (r_stale t) x p <-> exists w, In (w, x) l /\ w_applies w = true /\ stale_now w x p) /\
  (forall y e p, listed2 (r_exec t) y e p <-> exists w x, In (w, x) l /\ w_applies w = true /\ stale_once w y e p) /\
  (forall y e p, listed2 (r_child t) e y p <-> exists w x, In (w, x) l /\ w_applies w = true /\ stale_once w y e p).
Proof.
  intros f l t W H. unfold checks in H.
  refine (rfold_prefix _ (fun l t => (forall x p, listed1 (r_stale t) x p <-> exists w, In (w, x) l /\ w_applies w = true /\ stale_now w x p) /\
    (forall y e p, listed2 (r_exec t) y e p <-> exists w x, In (w, x) l /\ w_applies w = true /\ stale_once w y e p) /\
    (forall y e p, listed2 (r_child t) e y p <-> exists w x, In (w, x) l /\ w_applies w = true /\ stale_once w y e p)) l _ t _ _ H).
  - cbn [r_stale r_exec r_child]. split; [|split].
    + intros x p. split; [intros (l0 & X & _); discriminate|intros (w & [] & _)].
    + intros y e p. split; [intros (r & l0 & X & _); discriminate|intros (w & x & [] & _)].
    + intros y e p. split; [intros (r & l0 & X & _); discriminate|intros (w & x & [] & _)].
  - intros done (w, x) u u' Inc (E1 & E2 & E3) Hc. cbn [fst snd] in Hc. apply rbind_Ok in Hc. destruct Hc as (v & S1 & S2).
    apply stale_parents_spec in S1. destruct S1 as (A1 & A2 & A3).
    apply makers_spec in S2; [|apply (W (w, x)), Inc; rewrite in_app_iff; simpl; auto]. destruct S2 as (B1 & B2 & B3).
    assert (Q : forall (P : world -> nat -> Prop), (exists w' x', In (w', x') (done ++ [(w, x)]) /\ P w' x') <-> (exists w' x', In (w', x') done /\ P w' x') \/ P w x).
    { intros P. split.
      - intros (w' & x' & I & R). rewrite in_app_iff in I. destruct I as [I|[I|[]]]; [left; eauto|]. injection I as <- <-. auto.
      - intros [(w' & x' & I & R)|R]; [exists w', x'|exists w, x]; rewrite in_app_iff; simpl; auto. }
    split; [|split].
    + intros y p. rewrite B1, A3, E1. split.
      * intros [(w' & I & R)|(Ap & -> & R)]; [exists w'|exists w]; rewrite in_app_iff; simpl; auto.
      * intros (w' & I & R). rewrite in_app_iff in I. destruct I as [I|[I|[]]]; [left; eauto|]. injection I as <- <-. tauto.
    + intros y e p. rewrite B2, A1, E2. rewrite (Q (fun w' _ => w_applies w' = true /\ stale_once w' y e p)). tauto.
    + intros y e p. rewrite B3, A2, E3. rewrite (Q (fun w' _ => w_applies w' = true /\ stale_once w' y e p)). tauto.
Qed.

(** Checking succeeds. *)
Lemma row_pairs : forall f w x c d, sound w -> shallow f w -> dget (w_cells w) x = Some c -> In d (c_parents c) -> exists l, pairs f w d = Ok l.
Proof.
  intros f w x c d _ SH C I. apply pairs_total. intros p l q Ip Iq. apply (SH x p q). exists c, d, l. auto.
Qed.
Lemma stale_parents_total : forall f w x t, sound w -> shallow f w -> dget (w_cells w) x <> None -> exists t', stale_parents f w x t = Ok t'.
Proof.
  intros f w x t SO SH C. unfold stale_parents. destruct (w_applies w); cbn [negb]; eauto. unfold from_id at 1.
  destruct (dget (w_cells w) x) as [c|] eqn:Ec; [|congruence]. simpl. apply rfold_total. intros d u Id.
  assert (D : exists d', directional w c d = Ok d').
  { unfold directional. apply rfold_total. intros (p, l) a I. simpl. unfold from_id. pose proof (ok_row w SO x c d p l Ec Id I) as N.
    destruct (dget (w_cells w) p); [simpl; eauto|congruence]. }
  destruct D as (d' & D). rewrite D. simpl. pose proof (directional_spec _ _ _ _ D) as DS.
  assert (P : exists l, pairs f w d' = Ok l).
  { apply pairs_total. intros p l q Ip Iq. apply DS in Ip. apply (SH x p q). exists c, d, l. tauto. }
  destruct P as (l & P). rewrite P. simpl. apply rfold_total. intros (p, s) v I. apply (pairs_spec _ _ _ _ P) in I. destruct I as (l0 & q & I & Iq & Q).
  cbn [fst snd] in *. apply DS in I. destruct I as (I & _). unfold from_id. pose proof (ok_row w SO x c d p l0 Ec Id I) as N.
  destruct (dget (w_cells w) p) as [pc|]; [|congruence]. simpl.
  assert (U : uses w x p q) by (exists c, d, l0; auto). pose proof (ok_time w SO x p q s U Q) as N'.
  destruct (dget (w_time w) s); [simpl; eauto|congruence].
Qed.
Lemma makers_total : forall f w t, sound w -> shallow f w -> exists t', stale_makers f w t = Ok t'.
Proof.
  intros f w t SO SH. unfold stale_makers. destruct (w_applies w); cbn [negb]; eauto.
  destruct (in_order_total w) as (ids & O). rewrite O. simpl.
  assert (K : forall i, In i ids -> dget (w_cells w) i <> None).
  { intros i I. apply in_order_holds in O. induction O as [|p j ps js Hp F IH]; [destruct I|]. destruct I as [<-|I]; auto. apply (ok_pos w SO p). exact Hp. }
  assert (R : exists r, rfold (one_cell f w) ids (t, []) = Ok r).
  { apply rfold_total. intros x (u, far) I. unfold one_cell, from_id. specialize (K x I). destruct (dget (w_cells w) x) as [c|] eqn:Ec; [|congruence].
    cbn [of_option rbind].
    assert (Q : exists t1, rfold (fun t d => rmap (fun l => fold_left (fun t r => fold_left (fun t e =>
      mkT (r_stale t) (add2 (r_exec t) x e (fst r)) (add2 (r_child t) e x (fst r))) (get1 far (snd r)) t) l t) (pairs f w d)) (c_parents c) u = Ok t1).
    { apply rfold_total. intros d a Id. destruct (row_pairs f w x c d SO SH Ec Id) as (l & ->). simpl. eauto. }
    destruct Q as (t1 & ->). simpl. eauto. }
  destruct R as (r & ->). simpl. eauto.
Qed.
Lemma checks_total : forall f l, (forall w x, In (w, x) l -> sound w /\ shallow f w /\ dget (w_cells w) x <> None) -> exists t, checks f l = Ok t.
Proof.
  intros f l H. unfold checks. apply rfold_total. intros (w, x) t I. destruct (H w x I) as (SO & SH & C). cbn [fst snd].
  destruct (stale_parents_total f w x t SO SH C) as (u & ->). simpl. apply makers_total; auto.
Qed.
(** The rows are well formed. *)
Definition rows_wf (d : dict (dict (list nat))) : Prop := forall k r, dget d k = Some r -> dwf r.
Lemma add2_wf : forall d k k' v, rows_wf d -> rows_wf (add2 d k k' v).
Proof.
  intros d k k' v H a r E. unfold add2 in E. destruct (Nat.eq_dec a k) as [->|N].
  - rewrite dget_dset_same in E. injection E as <-. unfold add1. apply dwf_dset. unfold get2. destruct (dget d k) as [r0|] eqn:E0; [eapply H; eauto|apply dwf_nil].
  - rewrite dget_dset_other in E by auto. eapply H; eauto.
Qed.
Definition wf_tables (t : tables) : Prop := rows_wf (r_exec t) /\ rows_wf (r_child t).
Lemma checks_wf : forall f l t, checks f l = Ok t -> wf_tables t.
Proof.
  intros f l t H. unfold checks in H.
  refine (rfold_prefix _ (fun _ t => wf_tables t) l _ t _ _ H); [split; intros k r E; discriminate|]. clear.
  intros _ (w, x) u u' _ W Hc. cbn [fst snd] in Hc. apply rbind_Ok in Hc. destruct Hc as (v & S1 & S2). apply stale_parents_spec in S1.
  assert (Wv : wf_tables v) by (destruct S1 as (A & B & _); unfold wf_tables; rewrite A, B; exact W). clear S1 W u. revert S2. unfold stale_makers.
  destruct (w_applies w); cbn [negb]; [|intros [= <-]; auto]. intros H. apply rbind_Ok in H. destruct H as (ids & _ & H). apply rmap_Ok in H. destruct H as (r & H & <-).
  refine (rfold_prefix _ (fun _ r => wf_tables (fst r)) ids (v, []) r _ _ H); [exact Wv|]. clear.
  intros _ x (t, far) (t', far') _ W H. cbn [fst] in *. unfold one_cell in H. apply rbind_Ok in H. destruct H as (c & _ & H). apply rbind_Ok in H. destruct H as (t1 & H & [= <- _]).
  refine (rfold_prefix _ (fun _ t => wf_tables t) (c_parents c) t t1 _ _ H); [exact W|]. clear.
  intros _ d u u' _ W H. apply rmap_Ok in H. destruct H as (l & _ & <-).
  revert u W. induction l as [|(p, s) l IH]; intros u W; simpl; auto. apply IH. clear IH.
  revert u W. induction (get1 far s) as [|e es IH]; intros u W; simpl; auto. apply IH. destruct W. split; apply add2_wf; auto.
Qed.

(** Growing states. *)
Lemma grows_part : forall w w' q s, grows w w' -> part_of w q s -> part_of w' q s.
Proof.
  intros w w' q s G P. induction P as [q o D|q z s D P IH]; [eapply part_self|eapply part_up; eauto]; rewrite (same_up _ _ G); eauto.
Qed.
Lemma grows_once : forall w w' x e p, grows w w' -> stale_once w x e p -> stale_once w' x e p.
Proof.
  intros w w' x e p G (q & s & U & P & A & (c & C & W)). exists q, s. split; [apply (more_uses _ _ G); auto|]. split; [eapply grows_part; eauto|].
  split; [unfold above in *; rewrite (same_pos _ _ G); auto|]. destruct (same_cells _ _ G _ _ C) as (c' & C' & _ & _ & E1 & E2 & E3).
  exists c'. rewrite E1, E2, E3. auto.
Qed.
Lemma grows_now : forall w w' x p, grows w w' -> stale_now w x p -> stale_now w' x p.
Proof.
  intros w w' x p G (q & s & n & c & pc & U & C & PC & L & P & T & L').
  destruct (same_cells _ _ G _ _ C) as (c' & C' & E1 & _). destruct (same_cells _ _ G _ _ PC) as (pc' & PC' & E2 & E3 & _).
  exists q, s, n, c', pc'. split; [apply (more_uses _ _ G); auto|]. split; auto. split; auto. rewrite E1, E2, E3. split; auto.
  split; [eapply grows_part; eauto|]. rewrite (same_time _ _ G). auto.
Qed.
