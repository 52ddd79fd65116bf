(** Proofs about [directional_parents] and the DAG-based waiting cells. *)
Require Import List ZArith Bool Arith Lia.
Import ListNotations.
Require Import Verif.Base Verif.Loops Verif.TimestampModel Verif.SessionModel
  Verif.SliceModel Verif.PosModel Verif.PosSpec Verif.FrontModel Verif.FrontSpec.
Local Open Scope nat_scope.

Lemma pos_ltb_above a b : pos_ltb a b = true <-> above a b.
Proof.
  unfold pos_ltb. destruct a, b; simpl; try tauto; try (split; [discriminate|tauto]).
  rewrite negb_true_iff, Z.leb_gt. tauto.
Qed.

Lemma fcell_of_Ok e i c : fcell_of e i = Ok c <-> cell_is e i c.
Proof. unfold fcell_of. apply of_option_Ok. Qed.

Lemma cell_is_fun e i c c' : cell_is e i c -> cell_is e i c' -> c = c'.
Proof. unfold cell_is. congruence. Qed.

Lemma rfilter_In {A} (f : A -> res bool) l : forall r, rfilter f l = Ok r ->
  forall a, In a r <-> In a l /\ f a = Ok true.
Proof.
  induction l as [|b l IH]; simpl; intros r E a.
  - injection E as <-. simpl. tauto.
  - apply rbind_Ok in E. destruct E as (fb & Eb & E). apply rmap_Ok in E.
    destruct E as (r' & E & <-). specialize (IH _ E a).
    destruct fb; simpl; rewrite IH; split.
    + intros [<-|[? ?]]; auto.
    + intros [[<-|?] ?]; auto.
    + intros [? ?]; auto.
    + intros [[<-|?] ?]; auto. congruence.
Qed.

Lemma rfilter_Err {A} (f : A -> res bool) l : forall e, rfilter f l = Err e ->
  exists a, In a l /\ f a = Err e.
Proof.
  induction l as [|b l IH]; simpl; intros e E; [discriminate|].
  apply rbind_Err in E. destruct E as [E|(fb & _ & E)]; eauto.
  apply rmap_Err in E. destruct (IH _ E) as (a & ? & ?). eauto.
Qed.

Lemma dparents_In e x c d : dparents e x c = Ok d -> forall j s,
  In (j, s) d <-> In (j, s) (f_par c x) /\
    (e_in_order e = true -> exists p, cell_is e j p /\ above (f_pos p) (f_pos c)).
Proof.
  unfold dparents. destruct (e_in_order e).
  - intros H j s. rewrite (rfilter_In _ _ _ H). simpl. split; intros [A B]; split; auto.
    + intros _. apply rmap_Ok in B. destruct B as (p & B1 & B2).
      exists p. split; [now apply fcell_of_Ok|]. now apply pos_ltb_above.
    + destruct B as (p & B1 & B2); auto. apply rmap_Ok. exists p.
      split; [now apply fcell_of_Ok|]. now apply pos_ltb_above.
  - intros [= <-] j s. split; [|tauto]. intros; split; auto. discriminate.
Qed.

Lemma dparents_par e x i c d : cell_is e i c -> In x (e_ctxs e) -> dparents e x c = Ok d ->
  forall j s, In (j, s) d <-> par_edge e x i j s.
Proof.
  intros C X D j s. rewrite (dparents_In _ _ _ _ D). unfold par_edge. split.
  - intros [A B]. exists c. auto.
  - intros (c' & C' & _ & A & B). rewrite (cell_is_fun _ _ _ _ C C'). auto.
Qed.

Lemma dparents_Err e x c er : dparents e x c = Err er -> er = KeyError.
Proof.
  unfold dparents. destruct (e_in_order e); [|discriminate]. intros H.
  apply rfilter_Err in H. destruct H as (kv & _ & H). apply rmap_Err in H.
  unfold fcell_of in H. apply of_option_Err in H. tauto.
Qed.

Lemma fcell_of_Err e i er : fcell_of e i = Err er -> er = KeyError.
Proof. unfold fcell_of. rewrite of_option_Err. tauto. Qed.

Lemma subset_incl a b : subset a b = true <-> incl a b.
Proof.
  unfold subset. rewrite forallb_forall. split; intros H x Hx; specialize (H x Hx).
  - now apply memb_In.
  - now apply memb_In.
Qed.

Lemma set_eqb_eq a b : set_eqb a b = true <-> (forall x, In x a <-> In x b).
Proof.
  unfold set_eqb. rewrite andb_true_iff, !subset_incl. split.
  - intros [A B] x. split; auto.
  - intros H. split; intros x; apply H.
Qed.

(** ** One cell *)

Lemma dag_cell_spec e ready w i w' : dag_cell e ready w i = Ok w' ->
  incl w w' /\
  (forall k, In k w' -> In k w \/
     (k = i /\ exists j, parent e i j /\ (In j ready \/ In j w))) /\
  (forall j, parent e i j -> In j ready \/ In j w -> In i w') /\
  (NoDup w -> NoDup w').
Proof.
  unfold dag_cell. destruct (memb i w) eqn:M.
  - intros [= <-]. apply memb_In in M. repeat split; auto. apply incl_refl.
  - rewrite rbind_Ok. intros (c & C & H). apply fcell_of_Ok in C.
    pose (P := fun (done : list ctx) (v : list nat) =>
      incl w v /\
      (forall k, In k v -> In k w \/
         (k = i /\ exists j, parent e i j /\ (In j ready \/ In j w))) /\
      (forall x j s, In x done -> par_edge e x i j s -> In j ready \/ In j w -> In i v) /\
      (NoDup w -> NoDup v)).
    assert (Q : P (e_ctxs e) w').
    { revert H. apply (rfold_prefix _ P).
      - split; [apply incl_refl|]. split; [auto|]. split; [intros ? ? ? []|auto].
      - intros done x v v' I (A1 & A2 & A3 & A4) E.
        rewrite rbind_Ok in E. destruct E as (d & D & E). injection E as <-.
        assert (X : In x (e_ctxs e)) by (apply I, in_app_iff; simpl; auto).
        pose proof (dparents_par e x i c d C X D) as DP.
        destruct (existsb _ (dkeys d)) eqn:Ex.
        + apply existsb_exists in Ex. destruct Ex as (p & Hp & B).
          unfold dkeys in Hp. apply in_map_iff in Hp. destruct Hp as ([p' s] & <- & Hp).
          simpl in *. apply DP in Hp.
          assert (PI : parent e i p') by (exists x, s; auto).
          apply orb_true_iff in B. rewrite !memb_In in B.
          split; [|split; [|split]].
          * intros k Hk. apply In_sadd. auto.
          * intros k Hk. apply In_sadd in Hk. destruct Hk as [->|Hk]; auto.
            destruct B as [B|B]; [right; eauto|].
            destruct (A2 _ B) as [|[-> ?]]; [right; eauto|auto].
          * intros. apply In_sadd. auto.
          * intros N. apply NoDup_sadd. auto.
        + split; [auto|split; [auto|split; [|auto]]].
          intros y j s Hy PE J. apply in_app_or in Hy. destruct Hy as [Hy|[<-|[]]]; eauto.
          exfalso. apply DP in PE.
          assert (T : existsb (fun p => (memb p ready || memb p v)%bool) (dkeys d) = true).
          { apply existsb_exists. exists j. split.
            - change j with (fst (j, s)). now apply in_map.
            - apply orb_true_iff. rewrite !memb_In. destruct J; auto. }
          congruence. }
    destruct Q as (A1 & A2 & A3 & A4). repeat split; auto.
    intros j (x & s & PE) J. apply (A3 x j s); auto. now destruct PE as (? & ? & ? & ?).
Qed.

(** ** One pass *)

Lemma dag_pass_spec e ready checked w w' : dag_pass e ready checked w = Ok w' ->
  incl w w' /\ (forall k, In k w' -> In k w \/ In k checked) /\
  (forall i j, In i checked -> parent e i j -> In j ready \/ In j w -> In i w') /\
  (NoDup w -> NoDup w').
Proof.
  unfold dag_pass. intros H.
  pose (P := fun (done : list nat) (v : list nat) =>
    incl w v /\ (forall k, In k v -> In k w \/ In k checked) /\
    (forall i j, In i done -> parent e i j -> In j ready \/ In j w -> In i v) /\
    (NoDup w -> NoDup v)).
  change (P checked w'). revert H. apply (rfold_prefix _ P).
  - split; [apply incl_refl|]. split; [auto|]. split; [intros ? ? []|auto].
  - intros done i v v' I (A1 & A2 & A3 & A4) E.
    destruct (dag_cell_spec _ _ _ _ _ E) as (B1 & B2 & B3 & B4).
    split; [|split; [|split]].
    + intros k Hk. auto.
    + intros k Hk. destruct (B2 _ Hk) as [|[-> _]]; auto.
      right. apply I, in_app_iff. simpl; auto.
    + intros k j Hk PE J. apply in_app_or in Hk. destruct Hk as [Hk|[<-|[]]].
      * apply B1. eauto.
      * apply (B3 j); auto. destruct J; auto.
    + auto.
Qed.

Lemma dag_pass_sound e ready checked w0 : forall w w',
  (forall k, In k w -> must_wait e checked ready w0 k) ->
  dag_pass e ready checked w = Ok w' ->
  forall k, In k w' -> must_wait e checked ready w0 k.
Proof.
  unfold dag_pass. intros w w' H.
  apply (rfold_inv (dag_cell e ready)
           (fun v => forall k, In k v -> must_wait e checked ready w0 k)); auto.
  intros i v v' Hi Pv E k Hk.
  destruct (dag_cell_spec _ _ _ _ _ E) as (B1 & B2 & B3 & B4).
  destruct (B2 _ Hk) as [|(-> & j & PE & [J|J])]; auto.
  - eapply mw_ready; eauto.
  - eapply mw_wait; eauto.
Qed.

(** ** All rounds *)

Lemma dag_loop_spec e ready checked w0 : forall fuel prev w w',
  (forall x, In x prev <-> In x w) \/ prev = [] ->
  incl w0 w ->
  (forall k, In k w -> must_wait e checked ready w0 k) ->
  dag_loop fuel e ready checked prev w = Ok w' ->
  (forall k, In k w' <-> must_wait e checked ready w0 k) /\ (NoDup w -> NoDup w').
Proof.
  induction fuel as [|f IH]; simpl; intros prev w w' P I S E; [discriminate|].
  apply rbind_Ok in E. destruct E as (v & E & K).
  destruct (dag_pass_spec _ _ _ _ _ E) as (A1 & A2 & A3 & A4).
  pose proof (dag_pass_sound _ _ _ _ _ _ S E) as S'.
  destruct (set_eqb prev v) eqn:EQ.
  - injection K as <-. split; auto. intros k. split; auto.
    rewrite set_eqb_eq in EQ.
    assert (VW : forall x, In x v -> In x w).
    { destruct P as [P| ->].
      - intros x Hx. apply P, EQ, Hx.
      - intros x Hx. apply EQ in Hx. destruct Hx. }
    induction 1 as [i H|i j H1 H2 H3|i j H1 H2 H3 IH'].
    + auto.
    + apply (A3 i j); auto.
    + apply (A3 i j); auto.
  - destruct (IH v v w') as (B1 & B2); auto.
    + left. tauto.
    + intros x Hx. auto.
Qed.

Lemma dag_loop_fuel e ready checked : forall fuel prev w er,
  (forall x, In x prev <-> In x w) -> unvisited checked w < fuel ->
  dag_loop fuel e ready checked prev w = Err er -> er = KeyError.
Proof.
  induction fuel as [|f IH]; simpl; intros prev w er P L E; [lia|].
  apply rbind_Err in E. destruct E as [E|(v & E & K)].
  - unfold dag_pass in E. apply rfold_Err in E. destruct E as (i & t & _ & E).
    unfold dag_cell in E. destruct (memb i t); [discriminate|].
    apply rbind_Err in E. destruct E as [E|(c & _ & E)]; [now apply fcell_of_Err in E|].
    apply rfold_Err in E. destruct E as (x & t' & _ & E).
    apply rbind_Err in E. destruct E as [E|(d & _ & E)]; [now apply dparents_Err in E|discriminate].
  - destruct (dag_pass_spec _ _ _ _ _ E) as (A1 & A2 & _).
    destruct (set_eqb prev v) eqn:EQ; [discriminate|].
    eapply IH; [|clear K|exact K]; [tauto|].
    assert (N : exists x, In x v /\ ~ In x w).
    { destruct (Exists_dec (fun x => ~ In x w) v) as [X|X].
      - intros x. destruct (in_dec Nat.eq_dec x w); [right; tauto|left; auto].
      - apply Exists_exists in X. exact X.
      - exfalso. assert (T : set_eqb prev v = true); [|congruence].
        apply set_eqb_eq. intros x. rewrite P. split; auto. intros Hx.
        destruct (in_dec Nat.eq_dec x w); auto. exfalso. apply X, Exists_exists. eauto. }
    destruct N as (x & Hx & Nx). destruct (A2 _ Hx) as [|C]; [contradiction|].
    pose proof (unvisited_lt (fun _ => []) checked w v x A1 C Nx Hx). lia.
Qed.

(** The first round compares with the empty set, hence one more round may be needed. *)
Lemma dag_loop_total e ready checked w er :
  dag_loop (S (S (length checked))) e ready checked [] w = Err er -> er = KeyError.
Proof.
  remember (S (length checked)) as f. simpl. intros E.
  apply rbind_Err in E. destruct E as [E|(v & E & K)].
  - apply (dag_loop_fuel e ready checked (S (S (length checked))) w w er); [tauto| |].
    + pose proof (unvisited_le checked w). lia.
    + simpl. rewrite E. reflexivity.
  - destruct (set_eqb [] v); [discriminate|].
    apply (dag_loop_fuel e ready checked f v v er); [tauto| |exact K].
    pose proof (unvisited_le checked v). lia.
Qed.

(** ** The function *)

Lemma flags_fold e : forall w fl fl',
  rfold (fun fl i => rmap (fun _ => dset fl i false) (fcell_of e i)) w fl = Ok fl' ->
  forall i, dget fl' i = if memb i w then Some false else dget fl i.
Proof.
  induction w as [|k w IH]; simpl; intros fl fl' E i; [injection E as <-; auto|].
  apply rbind_Ok in E. destruct E as (t & E1 & E2). apply rmap_Ok in E1.
  destruct E1 as (c & _ & <-). rewrite (IH _ _ E2), dget_dset.
  destruct (Nat.eqb_spec i k); simpl; auto. destruct (memb i w); auto.
Qed.

Lemma dag_waiters_spec e checked r r' : is_dag (e_schedule e) = true ->
  dag_waiters e checked r = Ok r' ->
  (forall i, In i (r_waiting r') <-> must_wait e checked (r_ready r) (r_waiting r) i) /\
  (forall i, In i (r_ready r') <-> In i (r_ready r) /\ ~ In i (r_waiting r')) /\
  (forall i, In i (r_new_ready r') <-> In i (r_new_ready r) /\ ~ In i (r_waiting r')) /\
  (forall i, In i (r_waiting r') -> flag r' i = false) /\
  (forall i, ~ In i (r_waiting r') -> flag r' i = flag r i) /\
  r_typecheck r' = r_typecheck r /\ r_wsyms r' = r_wsyms r /\ r_killing r' = r_killing r /\
  (NoDup (r_waiting r) -> NoDup (r_waiting r')).
Proof.
  unfold dag_waiters. intros -> E.
  apply rbind_Ok in E. destruct E as (w & E1 & E). apply rbind_Ok in E.
  destruct E as (fl & E2 & E). injection E as <-. simpl.
  destruct (dag_loop_spec e (r_ready r) checked (r_waiting r) (S (S (length checked)))
              [] (r_waiting r) w) as (A & B); auto using incl_refl.
  { intros. now apply mw_start. }
  pose proof (flags_fold _ _ _ _ E2) as F.
  split; [auto|]. split; [intros; apply In_sdiff|]. split; [intros; apply In_sdiff|].
  split; [|split; [|auto 6]].
  - intros i Hi. unfold flag. simpl. apply memb_In in Hi. now rewrite F, Hi.
  - intros i Hi. unfold flag. simpl. apply memb_nIn in Hi. now rewrite F, Hi.
Qed.

(** ** No deadlock *)

Lemma ancestor_trans e i j k : ancestor e i j -> ancestor e j k -> ancestor e i k.
Proof. induction 1; intros; eapply anc_more; eauto. Qed.

Lemma must_wait_ancestor e checked ready i :
  must_wait e checked ready [] i -> exists r, In r ready /\ ancestor e i r.
Proof.
  induction 1 as [i []|i j H1 H2 H3|i j H1 H2 H3 (r & R & A)].
  - exists j. split; auto. now apply anc_one.
  - exists r. split; auto. eapply anc_more; eauto.
Qed.

Lemma some_ready e checked ready ready' waiting' :
  acyclic e -> ready <> [] ->
  (forall i, In i waiting' -> must_wait e checked ready [] i) ->
  (forall i, In i ready -> ~ In i waiting' -> In i ready') ->
  ready' <> [].
Proof.
  intros AC NE MW R E. subst ready'.
  apply (finite_descent (ancestor e) ready); auto.
  - intros a b c. apply ancestor_trans.
  - intros a Ha. destruct (in_dec Nat.eq_dec a waiting') as [H|H].
    + apply (must_wait_ancestor e checked). auto.
    + destruct (R a Ha H).
Qed.

Lemma above_trans a b c : above a b -> above b c -> above a c.
Proof. destruct a, b, c; simpl; try tauto. lia. Qed.

Lemma above_irrefl a : ~ above a a.
Proof. destruct a; simpl; try tauto. lia. Qed.

Lemma in_order_acyclic e : e_in_order e = true -> acyclic e.
Proof.
  intros O.
  assert (P : forall i j, ancestor e i j ->
    exists ci cj, cell_is e i ci /\ cell_is e j cj /\ above (f_pos cj) (f_pos ci)).
  { induction 1 as [i j (x & s & c & C & _ & _ & A)|i j k (x & s & c & C & _ & _ & A) H IH].
    - destruct (A O) as (p & ? & ?). exists c, p. auto.
    - destruct (A O) as (p & Hp & ?). destruct IH as (cj & ck & Hj & Hk & ?).
      rewrite (cell_is_fun _ _ _ _ Hp Hj) in *. exists c, ck.
      split; auto. split; auto. eapply above_trans; eauto. }
  intros i H. destruct (P _ _ H) as (a & b & Ha & Hb & X).
  rewrite (cell_is_fun _ _ _ _ Ha Hb) in X. eapply above_irrefl; eauto.
Qed.
