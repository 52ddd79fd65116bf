(** Lemmas about tags. *)
Require Import List Arith Bool Lia.
Import ListNotations.
Require Import Verif.Base Verif.Loops Verif.TagModel Verif.TagSpec.

Lemma same_iff h o e : same h o e = true <-> e = (h, o).
Proof.
  unfold same. destruct e as [a b]. simpl. rewrite andb_true_iff, !Nat.eqb_eq.
  split; [intros [-> ->]; auto|intros H; injection H; auto].
Qed.
Lemma In_hadd h o l e : In e (hadd h o l) <-> e = (h, o) \/ In e l.
Proof.
  unfold hadd. destruct (existsb (same h o) l) eqn:E.
  - apply existsb_exists in E. destruct E as (x & X & Y). apply same_iff in Y. subst.
    split; auto. intros [->|H]; auto.
  - rewrite in_app_iff. simpl. intuition.
Qed.
Lemma In_hdiscard h o l e : In e (hdiscard h o l) <-> In e l /\ e <> (h, o).
Proof.
  unfold hdiscard. rewrite filter_In. rewrite negb_true_iff, <- not_true_iff_false, same_iff. tauto.
Qed.
Lemma NoDup_hadd h o l : NoDup l -> NoDup (hadd h o l).
Proof.
  intros N. unfold hadd. destruct (existsb (same h o) l) eqn:E; auto.
  apply NoDup_app_snoc || idtac.
  assert (~ In (h, o) l).
  { intros I. assert (existsb (same h o) l = true) by (apply existsb_exists; exists (h, o); split; auto; apply same_iff; auto).
    congruence. }
  clear E. induction l; simpl; [repeat constructor; auto|]. inversion N; subst. constructor.
  - rewrite in_app_iff. simpl in *. intuition congruence.
  - apply IHl; auto. intros I. apply H. right; auto.
Qed.
Lemma NoDup_filter {A} (f : A -> bool) l : NoDup l -> NoDup (filter f l).
Proof.
  induction 1; simpl; [constructor|]. destruct (f x); auto. constructor; auto. rewrite filter_In. tauto.
Qed.

Lemma at_tag_dset {A} t t' (l : list A) d : at_tag t' (dset d t l) = if t' =? t then l else at_tag t' d.
Proof. unfold at_tag. rewrite dget_dset. destruct (t' =? t); auto. Qed.

Lemma In_index_add hash o c ts : forall ix t e,
  In e (at_tag t (fold_left (index_add hash o c) ts ix)) <->
  In e (at_tag t ix) \/ (In t ts /\ e = (hash_of hash c, o)).
Proof.
  induction ts as [|u ts IH]; intros ix t e; simpl; [tauto|].
  rewrite IH. unfold index_add. rewrite at_tag_dset. destruct (Nat.eqb_spec t u) as [->|N].
  - rewrite In_hadd. tauto.
  - intuition congruence.
Qed.
Lemma In_index_discard hash o c ts : forall ix t e,
  In e (at_tag t (fold_left (index_discard hash o c) ts ix)) <->
  In e (at_tag t ix) /\ ~ (In t ts /\ e = (hash_of hash c, o)).
Proof.
  induction ts as [|u ts IH]; intros ix t e; simpl; [tauto|].
  rewrite IH. unfold index_discard. rewrite at_tag_dset. destruct (Nat.eqb_spec t u) as [->|N].
  - rewrite In_hdiscard. tauto.
  - intuition congruence.
Qed.
Lemma In_rindex_discard id ts : forall ix t e,
  In e (at_tag t (fold_left (rindex_discard id) ts ix)) <-> In e (at_tag t ix) /\ ~ (In t ts /\ e = id).
Proof.
  induction ts as [|u ts IH]; intros ix t e; simpl; [tauto|].
  rewrite IH. unfold rindex_discard. rewrite at_tag_dset. destruct (Nat.eqb_spec t u) as [->|N].
  - rewrite filter_In, negb_true_iff, Nat.eqb_neq. tauto.
  - intuition congruence.
Qed.
Definition all_NoDup (ix : dict (list (nat * nat))) : Prop := forall t, NoDup (at_tag t ix).
Lemma NoDup_index_add hash o c ts : forall ix, all_NoDup ix -> all_NoDup (fold_left (index_add hash o c) ts ix).
Proof.
  induction ts as [|u ts IH]; intros ix H; simpl; auto. apply IH. intros t. unfold index_add. rewrite at_tag_dset.
  destruct (t =? u); [apply NoDup_hadd|]; apply H.
Qed.
Lemma NoDup_index_discard hash o c ts : forall ix, all_NoDup ix -> all_NoDup (fold_left (index_discard hash o c) ts ix).
Proof.
  induction ts as [|u ts IH]; intros ix H; simpl; auto. apply IH. intros t. unfold index_discard. rewrite at_tag_dset.
  destruct (t =? u); [apply NoDup_filter|]; apply H.
Qed.

(** The recursion of [update_id] changes only ids. *)
Definition same_but_id (os os' : list cobj) : Prop :=
  length os' = length os /\
  forall i c, nth_error os i = Some c -> exists c', nth_error os' i = Some c' /\
    c_ctr c' = c_ctr c /\ c_tags c' = c_tags c /\ c_rtags c' = c_rtags c /\ c_prev c' = c_prev c.
Lemma nth_lset_cases {A} (l : list A) i a j b c : nth_error l i = Some b ->
  nth_error (lset l i a) j = Some c -> (j = i /\ c = a) \/ (j <> i /\ nth_error l j = Some c).
Proof.
  intros H. rewrite nth_error_lset. destruct (Nat.eqb_spec j i) as [->|N]; auto.
  destruct (i <? length l); [|discriminate]. intros E. injection E as ->. auto.
Qed.
Lemma nth_lset_same {A} (l : list A) i a b : nth_error l i = Some b -> nth_error (lset l i a) i = Some a.
Proof.
  intros H. rewrite nth_error_lset, Nat.eqb_refl.
  assert (i < length l) by (apply nth_error_Some; congruence). apply Nat.ltb_lt in H0. rewrite H0. auto.
Qed.
Lemma nth_lset_other {A} (l : list A) i a j : j <> i -> nth_error (lset l i a) j = nth_error l j.
Proof. intros H. rewrite nth_error_lset. destruct (Nat.eqb_spec j i); congruence. Qed.

Lemma chain_ids fuel : forall o new os os', chain fuel o new os = Ok os' ->
  same_but_id os os' /\
  (forall c, nth_error os o = Some c -> exists c', nth_error os' o = Some c' /\ c_id c' = new) /\
  (forall i c c', nth_error os i = Some c -> nth_error os' i = Some c' -> c_id c' = c_id c \/ c_id c' = new) /\
  (forall i c c', nth_error os i = Some c -> nth_error os' i = Some c' -> c_id c' <> c_id c ->
     i = o \/ exists x cx, nth_error os x = Some cx /\ c_prev cx = Some i).
Proof.
  induction fuel as [|f IH]; intros o new os os' H; [discriminate|]. cbn [chain] in H.
  apply rbind_Ok in H. destruct H as (c & C & H). apply of_option_Ok in C.
  assert (B : same_but_id os (lset os o (set_id new c))).
  { split; [apply lset_length|]. intros i d D. destruct (Nat.eq_dec i o) as [->|N].
    - rewrite (nth_lset_same _ _ _ _ C). assert (d = c) by congruence. subst. eexists. split; [reflexivity|]. simpl. auto.
    - rewrite nth_lset_other by auto. eauto 10. }
  destruct (c_prev c) as [p|] eqn:P.
  - destruct (IH _ _ _ _ H) as (S1 & S2 & S3 & S4).
    split; [|split; [|split]].
    + destruct B as [B1 B2], S1 as [L1 L2]. split; [congruence|]. intros i d D.
      destruct (B2 i d D) as (d' & D' & e1 & e2 & e3 & e4). destruct (L2 i d' D') as (d2 & D2 & f1 & f2 & f3 & f4).
      exists d2. repeat split; congruence.
    + intros d D. assert (d = c) by congruence. subst d. clear D.
      pose proof (nth_lset_same _ _ (set_id new c) _ C) as N. destruct S1 as [_ S1].
      destruct (S1 _ _ N) as (c' & C' & _). exists c'. split; auto.
      destruct (S3 _ _ _ N C') as [E|E]; auto.
    + intros i d d' D D'. destruct (Nat.eq_dec i o) as [->|N].
      * assert (d = c) by congruence. subst d. pose proof (nth_lset_same _ _ (set_id new c) _ C) as Q.
        destruct (S3 _ _ _ Q D') as [E|E]; auto.
      * apply (S3 i d d'); auto. rewrite nth_lset_other; auto.
    + intros i d d' D D' NE. destruct (Nat.eq_dec i o) as [->|N]; auto. right.
      destruct (S4 i d d') as [E|(x & cx & X1 & X2)]; auto.
      * rewrite nth_lset_other; auto.
      * subst i. exists o, c. auto.
      * destruct (nth_lset_cases _ _ _ _ _ _ C X1) as [[-> ->]|[_ X]].
        -- exists o, c. split; auto.
        -- exists x, cx. auto.
  - injection H as <-. split; [exact B|]. split; [|split].
    + intros d D. rewrite (nth_lset_same _ _ _ _ C). eexists. split; [reflexivity|]. auto.
    + intros i d d' D D'. destruct (nth_lset_cases _ _ _ _ _ _ C D') as [[-> ->]|[_ E]]; auto. left. congruence.
    + intros i d d' D D' NE. destruct (nth_lset_cases _ _ _ _ _ _ C D') as [[-> ->]|[_ E]]; auto. congruence.
Qed.

(** Links to earlier versions go back in time, so the recursion ends. *)
Definition back (os : list cobj) : Prop :=
  forall o c p, nth_error os o = Some c -> c_prev c = Some p -> p < o.
Lemma back_lset os o c f : nth_error os o = Some c -> c_prev (f c) = c_prev c -> back os -> back (lset os o (f c)).
Proof.
  intros C F B i d p D P. destruct (nth_lset_cases _ _ _ _ _ _ C D) as [[-> ->]|[_ E]]; eapply B; eauto. congruence.
Qed.
Lemma chain_total fuel : forall o new os, back os -> o < length os -> o < fuel -> exists os', chain fuel o new os = Ok os'.
Proof.
  induction fuel as [|f IH]; intros o new os B L F; [lia|]. cbn [chain].
  destruct (nth_error os o) as [c|] eqn:C; [|apply nth_error_None in C; lia]. cbn [of_option rbind].
  destruct (c_prev c) as [p|] eqn:P; eauto.
  assert (p < o) by (eapply B; eauto).
  apply IH; [|rewrite lset_length; lia|lia]. apply (back_lset os o c (set_id new)); auto.
Qed.

(** * What holds while counters grow *)
Record good (s : st) : Prop := mkGood {
  g_cur : forall id o, dget (cur s) id = Some o -> exists c, nth_error (objs s) o = Some c /\ c_id c = id;
  g_old : forall o c p id, nth_error (objs s) o = Some c -> c_prev c = Some p -> dget (cur s) id <> Some p;
  g_ctr : forall id o c n, dget (cur s) id = Some o -> nth_error (objs s) o = Some c -> c_ctr c = Some n -> n <= counter s;
  g_back : back (objs s);
  g_byctr : forall n o, dget (byctr s) n = Some o -> o < length (objs s);
  g_wf : dwf (cur s) }.

Lemma good_start : good start.
Proof. split; simpl; try discriminate; try apply dwf_nil; intros o c p; destruct o; discriminate. Qed.

Lemma good_current s o : good s -> (current s o <-> exists id, dget (cur s) id = Some o).
Proof.
  intros G. split.
  - intros (c & C & D). eauto.
  - intros (id & D). destruct (g_cur _ G _ _ D) as (c & C & <-). exists c. auto.
Qed.

Lemma back_snoc os c : back os -> (forall p, c_prev c = Some p -> p < length os) -> back (os ++ [c]).
Proof.
  intros B H o d p. rewrite nth_error_snoc. destruct (Nat.eqb_spec o (length os)) as [->|N].
  - intros E. injection E as <-. auto.
  - apply B.
Qed.

Definition same_index s s' : Prop := index s' = index s /\ rindex s' = rindex s.

(** A new cell becomes the current one. *)
Lemma good_add s c id n' ix rix bc :
  good s -> c_id c = id -> counter s <= n' -> (forall n, c_ctr c = Some n -> n <= n') ->
  (forall p, c_prev c = Some p -> dget (cur s) id = Some p) ->
  (forall n o, dget bc n = Some o -> o = length (objs s) \/ dget (byctr s) n = Some o) ->
  good (mkSt (objs s ++ [c]) (dset (cur s) id (length (objs s))) bc n' ix rix).
Proof.
  intros G I N1 N2 P BC.
  assert (old : forall k o, dget (cur s) k = Some o -> o < length (objs s)).
  { intros k o D. destruct (g_cur _ G _ _ D) as (d & E & _). apply nth_error_Some. congruence. }
  split; simpl.
  - intros k o. rewrite dget_dset. destruct (Nat.eqb_spec k id) as [->|K].
    + intros E. injection E as <-. exists c. rewrite nth_error_snoc, Nat.eqb_refl. auto.
    + intros D. destruct (g_cur _ G _ _ D) as (d & E & F). exists d. split; auto.
      rewrite nth_error_app1; auto. eapply old; eauto.
  - intros o d p k. rewrite nth_error_snoc, dget_dset. destruct (Nat.eqb_spec o (length (objs s))) as [->|N].
    + intros E Q. injection E as <-. specialize (P _ Q). destruct (Nat.eqb_spec k id) as [->|K].
      * intros E. injection E as E. apply old in P. lia.
      * intros E. destruct (g_cur _ G _ _ E) as (d & D1 & D2). destruct (g_cur _ G _ _ P) as (d' & D1' & D2'). congruence.
    + intros E Q. destruct (Nat.eqb_spec k id) as [->|K].
      * intros F. injection F as F. pose proof (g_back _ G _ _ _ E Q).
        assert (o < length (objs s)) by (apply nth_error_Some; congruence). lia.
      * eapply g_old; eauto.
  - intros k o d n. rewrite nth_error_snoc, dget_dset. destruct (Nat.eqb_spec k id) as [->|K].
    + intros E. injection E as <-. rewrite Nat.eqb_refl. intros E. injection E as <-. apply N2.
    + intros D. pose proof (old _ _ D). destruct (Nat.eqb_spec o (length (objs s))); [lia|].
      intros E F. pose proof (g_ctr _ G _ _ _ _ D E F). lia.
  - apply back_snoc; [apply G|]. intros p Q. eapply old; eauto.
  - intros n o D. rewrite app_length. simpl. destruct (BC _ _ D) as [->|E]; [lia|].
    pose proof (g_byctr _ G _ _ E). lia.
  - apply dwf_dset, G.
Qed.

(** A cell object gets other tags. *)
Lemma good_lset s o c c' ix rix :
  good s -> nth_error (objs s) o = Some c -> c_id c' = c_id c -> c_ctr c' = c_ctr c -> c_prev c' = c_prev c ->
  good (mkSt (lset (objs s) o c') (cur s) (byctr s) (counter s) ix rix).
Proof.
  intros G C e1 e2 e3. split; simpl.
  - intros id x D. destruct (g_cur _ G _ _ D) as (d & E & F). destruct (Nat.eq_dec x o) as [->|N].
    + exists c'. split; [eapply nth_lset_same; eauto|congruence].
    + exists d. rewrite nth_lset_other; auto.
  - intros x d p id D. destruct (nth_lset_cases _ _ _ _ _ _ C D) as [[-> ->]|[_ E]]; intros P; [rewrite e3 in P|]; eapply g_old; eauto.
  - intros id x d n D E. destruct (nth_lset_cases _ _ _ _ _ _ C E) as [[-> ->]|[_ F]]; intros P; [rewrite e2 in P|]; eapply g_ctr; eauto.
  - apply (back_lset _ _ _ (fun _ => c') C); auto. apply G.
  - intros n x D. rewrite lset_length. eapply g_byctr; eauto.
  - apply G.
Qed.

(** What [update_id] does to a current cell. *)
Lemma update_id_spec s o old new s' : good s -> dget (cur s) old = Some o -> update_id o new s = Ok s' ->
  same_but_id (objs s) (objs s') /\ cur s' = dset (ddel (cur s) old) new o /\
  byctr s' = byctr s /\ counter s' = counter s /\ index s' = index s /\
  rindex s' = map (fun e => (fst e, rename_in old new (snd e))) (rindex s) /\
  (exists c', nth_error (objs s') o = Some c' /\ c_id c' = new) /\
  (forall x c c', x <> o -> dget (cur s) (c_id c) = Some x -> nth_error (objs s) x = Some c -> nth_error (objs s') x = Some c' ->
     c_id c' = c_id c) /\
  (forall x c c', nth_error (objs s) x = Some c -> nth_error (objs s') x = Some c' -> c_id c' = c_id c \/ c_id c' = new).
Proof.
  intros G D H. unfold update_id in H. destruct (g_cur _ G _ _ D) as (c & C & I).
  unfold deref in H. rewrite C in H. cbn [of_option rbind] in H. apply rbind_Ok in H. destruct H as (os & O & H).
  rewrite I, D, Nat.eqb_refl in H. cbn [rbind] in H. injection H as <-. simpl.
  destruct (chain_ids _ _ _ _ _ O) as (S1 & S2 & S3 & S4).
  repeat (split; [auto; fail|]). split; [eauto|]. split; auto.
  intros x d d' N X E E'. destruct (Nat.eq_dec (c_id d') (c_id d)) as [|NE]; auto. exfalso.
  destruct (S4 _ _ _ E E' NE) as [|(y & cy & Y1 & Y2)]; [congruence|]. eapply g_old; eauto.
Qed.

Lemma good_update_id s o old new s' : good s -> dget (cur s) old = Some o -> update_id o new s = Ok s' -> good s'.
Proof.
  intros G D H. destruct (update_id_spec _ _ _ _ _ G D H) as ((L & S1) & S2 & S3 & S4 & _ & _ & (c' & C' & I') & S7 & _).
  assert (notold : forall k x, k <> new -> dget (cur s') k = Some x -> k <> old /\ dget (cur s) k = Some x /\ x <> o).
  { intros k x N E. rewrite S2, dget_dset in E. destruct (Nat.eqb_spec k new); [congruence|].
    rewrite dget_ddel in E by apply G. destruct (Nat.eqb_spec k old) as [|NO]; [discriminate|]. split; [exact NO|]. split; [exact E|]. intros ->.
    destruct (g_cur _ G _ _ D) as (d & D1 & D2). destruct (g_cur _ G _ _ E) as (d' & D1' & D2'). congruence. }
  assert (back_to : forall x d', nth_error (objs s') x = Some d' -> exists d, nth_error (objs s) x = Some d /\
            c_ctr d' = c_ctr d /\ c_prev d' = c_prev d).
  { intros x d' X. destruct (nth_error (objs s) x) as [d|] eqn:E.
    - destruct (S1 _ _ E) as (d2 & X2 & e1 & _ & _ & e2). exists d. split; auto. split; congruence.
    - apply nth_error_None in E. assert (x < length (objs s')) by (apply nth_error_Some; congruence). lia. }
  split.
  - intros k x E. destruct (Nat.eq_dec k new) as [->|N].
    + rewrite S2, dget_dset, Nat.eqb_refl in E. injection E as <-. eauto.
    + destruct (notold _ _ N E) as (N1 & E1 & N2). destruct (g_cur _ G _ _ E1) as (d & X & Y).
      destruct (S1 _ _ X) as (d' & X' & _). exists d'. split; auto. rewrite <- Y in E1.
      rewrite (S7 x d d'); auto.
  - intros x d p k X P. destruct (back_to _ _ X) as (d0 & X0 & _ & e). rewrite e in P. intros E.
    destruct (Nat.eq_dec k new) as [->|N].
    + rewrite S2, dget_dset, Nat.eqb_refl in E. injection E as <-. eapply g_old; eauto.
    + destruct (notold _ _ N E) as (N1 & E1 & N2). eapply g_old; eauto.
  - intros k x d n E X P. destruct (back_to _ _ X) as (d0 & X0 & e & _). rewrite e in P. rewrite S4.
    destruct (Nat.eq_dec k new) as [->|N].
    + rewrite S2, dget_dset, Nat.eqb_refl in E. injection E as <-. eapply g_ctr; eauto.
    + destruct (notold _ _ N E) as (N1 & E1 & N2). eapply g_ctr; eauto.
  - intros x d p X P. destruct (back_to _ _ X) as (d0 & X0 & _ & e). eapply g_back; eauto. congruence.
  - intros n x E. rewrite S3 in E. rewrite L. eapply g_byctr; eauto.
  - rewrite S2. apply dwf_dset, dwf_ddel, G.
Qed.

(** What executing a cell does. *)
Definition next_ctr (actual : option nat) (s : st) : nat := match actual with Some n => n | None => Datatypes.S (counter s) end.
Lemma exec_first hash id tags actual s s' : dget (cur s) id = None -> create hash id tags true actual s = Ok s' ->
  let c := mkCell id (Some (next_ctr actual s)) tags [] None in
  s' = mkSt (objs s ++ [c]) (dset (cur s) id (length (objs s))) (dset (byctr s) (next_ctr actual s) (length (objs s)))
            (next_ctr actual s) (fold_left (index_add hash (length (objs s)) c) tags (index s)) (rindex s).
Proof. intros D H. unfold create in H. rewrite D in H. injection H as <-. reflexivity. Qed.
Lemma untracked_first hash id s s' : dget (cur s) id = None -> create hash id [] false None s = Ok s' ->
  s' = mkSt (objs s ++ [mkCell id None [] [] None]) (dset (cur s) id (length (objs s))) (byctr s) (counter s) (index s) (rindex s).
Proof. intros D H. unfold create in H. rewrite D in H. injection H as <-. reflexivity. Qed.
Lemma exec_again hash id tags actual s s' p : good s -> grows s (Exec id tags actual) ->
  dget (cur s) id = Some p -> create hash id tags true actual s = Ok s' ->
  exists pc, nth_error (objs s) p = Some pc /\ c_id pc = id /\
  let tags' := supd tags (c_tags pc) in
  let c := mkCell id (Some (next_ctr actual s)) tags' [] (Some p) in
  s' = mkSt (objs s ++ [c]) (dset (cur s) id (length (objs s))) (dset (byctr s) (next_ctr actual s) (length (objs s)))
            (next_ctr actual s)
            (fold_left (index_add hash (length (objs s)) c) tags' (fold_left (index_discard hash p pc) (c_tags pc) (index s)))
            (fold_left (rindex_discard id) (c_rtags pc) (rindex s)).
Proof.
  intros G W D H. unfold create in H. rewrite D in H. destruct (g_cur _ G _ _ D) as (pc & P & I).
  unfold deref in H. rewrite P in H. cbn [of_option rbind] in H. injection H as <-. exists pc. split; auto. split; auto.
  rewrite I. unfold later, next_ctr. destruct (c_ctr pc) as [n|] eqn:E.
  - pose proof (g_ctr _ G _ _ _ _ D P E). replace (n <? _) with true; auto. symmetry. apply Nat.ltb_lt.
    destruct actual; simpl in W; lia.
  - auto.
Qed.
Lemma next_grows id tags actual s : grows s (Exec id tags actual) -> counter s < next_ctr actual s.
Proof. unfold next_ctr, grows. destruct actual; lia. Qed.

Lemma good_do hash x s s' : good s -> grows s x -> do hash x s = Ok s' -> good s'.
Proof.
  intros G W H. destruct x as [id tags actual|id|t [|] cell|t|old new|]; cbn [do] in H.
  - pose proof (next_grows _ _ _ _ W). destruct (dget (cur s) id) as [p|] eqn:D.
    + destruct (exec_again _ _ _ _ _ _ _ G W D H) as (pc & P & I & ->).
      apply good_add; auto; simpl; try lia.
      * intros n E. injection E as <-. lia.
      * intros q E. congruence.
      * intros n o. rewrite dget_dset. destruct (n =? next_ctr actual s); auto. intros E. injection E as <-. auto.
    + rewrite (exec_first _ _ _ _ _ _ D H). apply good_add; auto; simpl; try lia.
      * intros n E. injection E as <-. lia.
      * discriminate.
      * intros n o. rewrite dget_dset. destruct (n =? next_ctr actual s); auto. intros E. injection E as <-. auto.
  - destruct (dget (cur s) id) as [p|] eqn:D; [injection H as <-; auto|].
    rewrite (untracked_first _ _ _ _ D H). apply good_add; auto; simpl; discriminate.
  - unfold tag in H. apply rbind_Ok in H. destruct H as (o & O & H). apply rbind_Ok in H. destruct H as (c & C & H).
    apply of_option_Ok in C. injection H as <-. eapply good_lset; eauto.
  - unfold tag in H. apply rbind_Ok in H. destruct H as (o & O & H). apply rbind_Ok in H. destruct H as (c & C & H).
    apply of_option_Ok in C. injection H as <-. eapply good_lset; eauto.
  - unfold mark in H. apply rbind_Ok in H. destruct H as (o & O & H). apply rbind_Ok in H. destruct H as (c & C & H).
    apply of_option_Ok in C. injection H as <-. eapply good_lset; eauto.
  - destruct (dget (cur s) old) as [o|] eqn:D; [|injection H as <-; auto]. eapply good_update_id; eauto.
  - injection H as <-. split; simpl; try discriminate. apply G. apply dwf_nil.
Qed.

(** * Every current cell with a tag is found *)
Definition found (s : st) : Prop := forall id o c t,
  dget (cur s) id = Some o -> nth_error (objs s) o = Some c -> In t (c_tags c) -> exists h, In (h, o) (at_tag t (index s)).

Lemma cur_lt s k o : good s -> dget (cur s) k = Some o -> o < length (objs s).
Proof. intros G D. destruct (g_cur _ G _ _ D) as (d & E & _). apply nth_error_Some. congruence. Qed.
Lemma cur_inj s k k' o : good s -> dget (cur s) k = Some o -> dget (cur s) k' = Some o -> k = k'.
Proof.
  intros G D D'. destruct (g_cur _ G _ _ D) as (d & D1 & D2). destruct (g_cur _ G _ _ D') as (d' & D1' & D2'). congruence.
Qed.
Lemma target_Ok cell s o : target cell s = Ok o -> dget (byctr s) (match cell with Some n => n | None => counter s end) = Some o.
Proof. unfold target. apply of_option_Ok. Qed.
Lemma at_tag_map {A} t (f : list A -> list A) (d : dict (list A)) : f [] = [] ->
  at_tag t (map (fun e => (fst e, f (snd e))) d) = f (at_tag t d).
Proof. intros H. unfold at_tag. rewrite dget_map. destruct (dget d t); auto. Qed.
Lemma In_rename_in old new l x : In x (rename_in old new l) <->
  (In x l /\ x <> old) \/ (x = new /\ In old l).
Proof.
  unfold rename_in. destruct (memb old l) eqn:E.
  - apply memb_In in E. rewrite In_sadd, filter_In, negb_true_iff, Nat.eqb_neq. tauto.
  - apply memb_nIn in E. split; [|tauto]. intros H. left. split; auto. intros ->. auto.
Qed.
Lemma update_cur s old new o k x : good s -> dget (cur s) old = Some o ->
  dget (dset (ddel (cur s) old) new o) k = Some x ->
  (k = new /\ x = o) \/ (k <> new /\ k <> old /\ x <> o /\ dget (cur s) k = Some x).
Proof.
  intros G D. rewrite dget_dset. destruct (Nat.eqb_spec k new) as [->|N].
  - intros E. injection E as <-. auto.
  - rewrite dget_ddel by apply G. destruct (Nat.eqb_spec k old) as [->|N2]; [discriminate|]. intros E. right.
    split; auto. split; auto. split; auto. intros ->. apply N2. eapply cur_inj; eauto.
Qed.
Lemma same_back os os' x d' : same_but_id os os' -> nth_error os' x = Some d' ->
  exists d, nth_error os x = Some d /\ c_ctr d' = c_ctr d /\ c_tags d' = c_tags d /\ c_rtags d' = c_rtags d.
Proof.
  intros (L & S1) X. destruct (nth_error os x) as [d|] eqn:E.
  - destruct (S1 _ _ E) as (d2 & X2 & e1 & e2 & e3 & e4). exists d. split; auto. repeat split; congruence.
  - apply nth_error_None in E. assert (x < length os') by (apply nth_error_Some; congruence). lia.
Qed.

Lemma found_add hash s c ix rix bc n' : good s ->
  (forall o t e, o <> length (objs s) -> dget (cur s) (c_id c) <> Some o -> snd e = o ->
     In e (at_tag t (index s)) -> In e (at_tag t ix)) ->
  found s -> found (mkSt (objs s ++ [c]) (dset (cur s) (c_id c) (length (objs s))) bc n'
                     (fold_left (index_add hash (length (objs s)) c) (c_tags c) ix) rix).
Proof.
  intros G K F k o d t D X T. simpl in *. rewrite dget_dset in D. destruct (Nat.eqb_spec k (c_id c)) as [->|N].
  - injection D as <-. rewrite nth_error_snoc, Nat.eqb_refl in X. injection X as <-.
    eexists. apply In_index_add. right. split; eauto.
  - pose proof (cur_lt _ _ _ G D). rewrite nth_error_app1 in X by auto.
    destruct (F _ _ _ _ D X T) as (h & H'). exists h. apply In_index_add. left.
    apply (K o t (h, o)); auto; [lia|]. intros E. apply N. eapply cur_inj; eauto.
Qed.

Lemma found_do hash x s s' : good s -> grows s x -> found s -> do hash x s = Ok s' -> found s'.
Proof.
  intros G W F H. destruct x as [id tags actual|id|t [|] cell|t|old new|]; cbn [do] in H.
  - destruct (dget (cur s) id) as [p|] eqn:D.
    + destruct (exec_again _ _ _ _ _ _ _ G W D H) as (pc & P & I & ->).
      apply (found_add hash s (mkCell id (Some (next_ctr actual s)) (supd tags (c_tags pc)) [] (Some p))); auto.
      intros o t e N1 N2 <- In1. simpl in N2. apply In_index_discard. split; auto. intros [_ ->]. simpl in N2. congruence.
    + rewrite (exec_first _ _ _ _ _ _ D H).
      apply (found_add hash s (mkCell id (Some (next_ctr actual s)) tags [] None)); auto.
  - destruct (dget (cur s) id) as [p|] eqn:D; [injection H as <-; auto|].
    rewrite (untracked_first _ _ _ _ D H). apply (found_add hash s (mkCell id None [] [] None)); auto.
  - unfold tag in H. apply rbind_Ok in H. destruct H as (o & O & H). apply rbind_Ok in H. destruct H as (c & C & H).
    apply of_option_Ok in C. injection H as <-. intros k x d u D X T. simpl in *.
    destruct (nth_lset_cases _ _ _ _ _ _ C X) as [[-> ->]|[_ E]]; [|eapply F; eauto].
    simpl in T. apply In_sdiff in T. destruct T. eapply F; eauto.
  - unfold tag in H. apply rbind_Ok in H. destruct H as (o & O & H). apply rbind_Ok in H. destruct H as (c & C & H).
    apply of_option_Ok in C. injection H as <-. intros k x d u D X T. simpl in *.
    assert (Q : forall e, In e (at_tag u (index s)) -> In e (at_tag u (index_add hash o c (index s) t))).
    { intros e. unfold index_add. rewrite at_tag_dset. destruct (Nat.eqb_spec u t) as [->|]; auto. rewrite In_hadd. auto. }
    destruct (nth_lset_cases _ _ _ _ _ _ C X) as [[-> ->]|[_ E]].
    + simpl in T. apply In_sadd in T. destruct T as [->|T].
      * exists (hash_of hash c). unfold index_add. rewrite at_tag_dset, Nat.eqb_refl. apply In_hadd. auto.
      * destruct (F _ _ _ _ D C T) as (h & H'). eauto.
    + destruct (F _ _ _ _ D E T) as (h & H'). eauto.
  - unfold mark in H. apply rbind_Ok in H. destruct H as (o & O & H). apply rbind_Ok in H. destruct H as (c & C & H).
    apply of_option_Ok in C. injection H as <-. intros k x d u D X T. simpl in *.
    destruct (nth_lset_cases _ _ _ _ _ _ C X) as [[-> ->]|[_ E]]; eapply F; eauto.
  - destruct (dget (cur s) old) as [o|] eqn:D; [|injection H as <-; auto].
    destruct (update_id_spec _ _ _ _ _ G D H) as (S1 & S2 & S3 & S4 & S5 & S6 & S7 & S8 & _).
    intros k x d u E X T. rewrite S5. rewrite S2 in E. destruct (same_back _ _ _ _ S1 X) as (d0 & X0 & _ & e & _). rewrite e in T.
    destruct (update_cur _ _ _ _ _ _ G D E) as [[-> ->]|(_ & _ & _ & E')]; eapply F; eauto.
  - injection H as <-. intros k x d u D. discriminate.
Qed.

(** * Only current cells with the tag are found *)
Definition sound hash (s : st) : Prop := all_NoDup (index s) /\
  forall t e, In e (at_tag t (index s)) -> exists c, nth_error (objs s) (snd e) = Some c /\
    fst e = hash_of hash c /\ dget (cur s) (c_id c) = Some (snd e) /\ In t (c_tags c).

Lemma sound_start hash : sound hash start.
Proof. split; [intros t; constructor|]. intros t e []. Qed.

Lemma sound_do hash x s s' : good s -> grows s x -> fresh s x -> plain s x -> sound hash s -> do hash x s = Ok s' ->
  sound hash s'.
Proof.
  intros G W R Q [N F] H. destruct x as [id tags actual|id|t [|] cell|t|old new|]; cbn [do] in H; cbn [fresh plain] in *.
  - destruct (dget (cur s) id) as [p|] eqn:D.
    + destruct (exec_again _ _ _ _ _ _ _ G W D H) as (pc & P & I & ->). split; simpl.
      * apply NoDup_index_add, NoDup_index_discard; auto.
      * intros t e E. apply In_index_add in E. destruct E as [E|[E ->]].
        -- apply In_index_discard in E. destruct E as [E E'].
           destruct (F _ _ E) as (c & C1 & C2 & C3 & C4). exists c.
           assert (L : snd e < length (objs s)) by (apply nth_error_Some; congruence).
           rewrite nth_error_app1 by auto. rewrite dget_dset. destruct (Nat.eqb_spec (c_id c) id) as [J|]; auto.
           exfalso. apply E'. assert (snd e = p) by congruence. assert (c = pc) by congruence. subst. split; auto.
           destruct e; simpl in *; congruence.
        -- simpl. eexists. rewrite nth_error_snoc, Nat.eqb_refl. split; [reflexivity|]. split; auto. simpl.
           rewrite dget_dset, Nat.eqb_refl. auto.
    + rewrite (exec_first _ _ _ _ _ _ D H). split; simpl; [apply NoDup_index_add; auto|].
      intros t e E. apply In_index_add in E. destruct E as [E|[E ->]].
      * destruct (F _ _ E) as (c & C1 & C2 & C3 & C4). exists c.
        assert (L : snd e < length (objs s)) by (apply nth_error_Some; congruence).
        rewrite nth_error_app1 by auto. rewrite dget_dset. destruct (Nat.eqb_spec (c_id c) id) as [J|]; auto. congruence.
      * simpl. eexists. rewrite nth_error_snoc, Nat.eqb_refl. split; [reflexivity|]. split; auto. simpl.
        rewrite dget_dset, Nat.eqb_refl. auto.
  - destruct (dget (cur s) id) as [p|] eqn:D; [injection H as <-; split; auto|].
    rewrite (untracked_first _ _ _ _ D H). split; simpl; auto. intros t e E.
    destruct (F _ _ E) as (c & C1 & C2 & C3 & C4). exists c.
    assert (L : snd e < length (objs s)) by (apply nth_error_Some; congruence).
    rewrite nth_error_app1 by auto. rewrite dget_dset. destruct (Nat.eqb_spec (c_id c) id) as [J|]; auto. congruence.
  - unfold tag in H. apply rbind_Ok in H. destruct H as (o & O & H). apply rbind_Ok in H. destruct H as (c & C & H).
    apply of_option_Ok in C. injection H as <-. split; simpl; auto. intros u e E.
    destruct (F _ _ E) as (d & C1 & C2 & C3 & C4). destruct (Nat.eq_dec (snd e) o) as [J|J].
    + rewrite J in *. assert (d = c) by congruence. subst d. eexists. split; [eapply nth_lset_same; eauto|].
      simpl. split; auto. split; auto. apply In_sdiff. split; auto. intros [<-|[]]. apply (Q o O). exists c. auto.
    + exists d. rewrite nth_lset_other; auto.
  - unfold tag in H. apply rbind_Ok in H. destruct H as (o & O & H). apply rbind_Ok in H. destruct H as (c & C & H).
    apply of_option_Ok in C. injection H as <-. split; simpl.
    + intros u. unfold index_add. rewrite at_tag_dset. destruct (u =? t); auto. apply NoDup_hadd; auto.
    + destruct (Q o O) as (c0 & X1 & X2). assert (c0 = c) by congruence. subst c0.
      intros u e E. unfold index_add in E. rewrite at_tag_dset in E.
      assert (K : (u = t /\ e = (hash_of hash c, o)) \/ In e (at_tag u (index s))).
      { destruct (Nat.eqb_spec u t) as [->|]; auto. apply In_hadd in E. tauto. }
      destruct K as [[-> ->]|K].
      * eexists. split; [eapply nth_lset_same; eauto|]. simpl. split; auto. split; auto. apply In_sadd. auto.
      * destruct (F _ _ K) as (d & C1 & C2 & C3 & C4). destruct (Nat.eq_dec (snd e) o) as [J|J].
        -- rewrite J in *. assert (d = c) by congruence. subst d. eexists. split; [eapply nth_lset_same; eauto|].
           simpl. split; auto. split; auto. apply In_sadd. auto.
        -- exists d. rewrite nth_lset_other; auto.
  - unfold mark in H. apply rbind_Ok in H. destruct H as (o & O & H). apply rbind_Ok in H. destruct H as (c & C & H).
    apply of_option_Ok in C. injection H as <-. split; simpl; auto. intros u e E.
    destruct (F _ _ E) as (d & C1 & C2 & C3 & C4). destruct (Nat.eq_dec (snd e) o) as [J|J].
    + rewrite J in *. assert (d = c) by congruence. subst d. eexists. split; [eapply nth_lset_same; eauto|]. simpl. auto.
    + exists d. rewrite nth_lset_other; auto.
  - destruct (dget (cur s) old) as [o|] eqn:D; [|injection H as <-; split; auto].
    destruct (update_id_spec _ _ _ _ _ G D H) as (S1 & S2 & S3 & S4 & S5 & S6 & S7 & S8 & _).
    split; rewrite S5; auto. intros u e E. destruct (F _ _ E) as (d & C1 & C2 & C3 & C4).
    destruct (proj2 S1 _ _ C1) as (d' & X & e1 & e2 & e3 & e4). exists d'. split; auto.
    destruct (Nat.eq_dec (snd e) o) as [J|J].
    + exfalso. apply (Q o u eq_refl). exists d. rewrite <- J. auto.
    + pose proof (S8 _ _ _ J C3 C1 X) as I. unfold hash_of. rewrite I, e1, e2. split; auto. split; auto.
      rewrite S2, dget_dset. destruct (Nat.eqb_spec (c_id d) new); [congruence|].
      rewrite dget_ddel by apply G. destruct (Nat.eqb_spec (c_id d) old); [congruence|]. auto.
  - injection H as <-. split; simpl; [intros t; constructor|]. intros t e [].
Qed.

Lemma sound_exact hash s : good s -> found s -> sound hash s -> exact s.
Proof.
  intros G F [N S1] t. unfold from_tag. split.
  - specialize (N t). specialize (S1 t). induction (at_tag t (index s)) as [|e l IH]; simpl; [constructor|].
    inversion N; subst. constructor.
    + intros I. apply in_map_iff in I. destruct I as (e' & E1 & E2).
      destruct (S1 e) as (c & C1 & C2 & _); [left; auto|]. destruct (S1 e') as (c' & C1' & C2' & _); [right; auto|].
      apply H1. rewrite E1 in C1'. assert (c = c') by congruence. subst c'.
      destruct e, e'. simpl in *. subst. auto.
    + apply IH; auto. intros e' E. apply S1. right; auto.
  - intros o. rewrite in_map_iff. split.
    + intros (e & <- & E). destruct (S1 _ _ E) as (c & C1 & C2 & C3 & C4). split; exists c; auto.
    + intros [(c & C1 & C2) (c' & C1' & C3)]. assert (c = c') by congruence. subst c'.
      destruct (F _ _ _ _ C2 C1 C3) as (h & H). exists (h, o). auto.
Qed.

(** * Marks *)
Definition react (s : st) : Prop :=
  (forall t id, In id (at_tag t (rindex s)) <->
     exists o c, dget (cur s) id = Some o /\ nth_error (objs s) o = Some c /\ In t (c_rtags c)) /\
  (forall o, dget (byctr s) (counter s) = Some o -> exists id, dget (cur s) id = Some o).

Lemma react_start : react start.
Proof. split; simpl; [|discriminate]. intros t id. split; [intros []|]. intros (o & c & D & _). discriminate. Qed.

Lemma react_add s c ix rix bc n' : good s -> c_rtags c = [] -> react s ->
  (forall t k, In k (at_tag t rix) <-> In k (at_tag t (rindex s)) /\ k <> c_id c) ->
  (forall o, dget bc n' = Some o -> o = length (objs s) \/ (exists k, k <> c_id c /\ dget (cur s) k = Some o)) ->
  react (mkSt (objs s ++ [c]) (dset (cur s) (c_id c) (length (objs s))) bc n' ix rix).
Proof.
  intros G E [R B] K BC. split; simpl.
  - intros t k. rewrite K, R. split.
    + intros [(o & d & D & X & T) N]. exists o, d. rewrite dget_dset. destruct (Nat.eqb_spec k (c_id c)); [congruence|].
      rewrite nth_error_app1 by (eapply cur_lt; eauto). auto.
    + intros (o & d & D & X & T). rewrite dget_dset in D. destruct (Nat.eqb_spec k (c_id c)) as [->|N].
      * injection D as <-. rewrite nth_error_snoc, Nat.eqb_refl in X. injection X as <-. rewrite E in T. destruct T.
      * split; auto. exists o, d. rewrite nth_error_app1 in X by (eapply cur_lt; eauto). auto.
  - intros o D. destruct (BC _ D) as [->|(k & N & D')].
    + exists (c_id c). apply dget_dset_same.
    + exists k. rewrite dget_dset_other; auto.
Qed.

Lemma react_do hash x s s' : good s -> grows s x -> fresh s x -> react s -> do hash x s = Ok s' -> react s'.
Proof.
  intros G W F [R B] H. destruct x as [id tags actual|id|t [|] cell|t|old new|]; cbn [do] in H; cbn [fresh] in *.
  - destruct (dget (cur s) id) as [p|] eqn:D.
    + destruct (exec_again _ _ _ _ _ _ _ G W D H) as (pc & P & I & ->).
      apply (react_add s (mkCell id (Some (next_ctr actual s)) (supd tags (c_tags pc)) [] (Some p))); auto.
      * split; auto.
      * intros t k. rewrite In_rindex_discard. simpl. split; [|tauto]. intros [K1 K2]. split; auto. intros ->.
        apply R in K1. destruct K1 as (o & d & D1 & X & T). apply K2. split; auto. congruence.
      * intros o. rewrite dget_dset, Nat.eqb_refl. intros E. injection E as <-. auto.
    + rewrite (exec_first _ _ _ _ _ _ D H).
      apply (react_add s (mkCell id (Some (next_ctr actual s)) tags [] None)); auto.
      * split; auto.
      * intros t k. simpl. split; [|tauto]. intros K1. split; auto. intros ->.
        apply R in K1. destruct K1 as (o & d & D1 & X & T). congruence.
      * intros o. rewrite dget_dset, Nat.eqb_refl. intros E. injection E as <-. auto.
  - destruct (dget (cur s) id) as [p|] eqn:D; [injection H as <-; split; auto|].
    rewrite (untracked_first _ _ _ _ D H).
    apply (react_add s (mkCell id None [] [] None)); auto.
    + split; auto.
    + intros t k. simpl. split; [|tauto]. intros K1. split; auto. intros ->.
      apply R in K1. destruct K1 as (o & d & D1 & X & T). congruence.
    + intros o E. right. destruct (B _ E) as (k & K). exists k. split; auto. simpl. congruence.
  - unfold tag in H. apply rbind_Ok in H. destruct H as (o & O & H). apply rbind_Ok in H. destruct H as (c & C & H).
    apply of_option_Ok in C. injection H as <-. split; simpl; auto. intros u k. rewrite R. split.
    + intros (x & d & D & X & T). destruct (Nat.eq_dec x o) as [->|N].
      * exists o. eexists. split; auto. split; [eapply nth_lset_same; eauto|]. simpl. congruence.
      * exists x, d. rewrite nth_lset_other; auto.
    + intros (x & d & D & X & T). destruct (nth_lset_cases _ _ _ _ _ _ C X) as [[-> ->]|[_ E]]; eauto.
  - unfold tag in H. apply rbind_Ok in H. destruct H as (o & O & H). apply rbind_Ok in H. destruct H as (c & C & H).
    apply of_option_Ok in C. injection H as <-. split; simpl; auto. intros u k. rewrite R. split.
    + intros (x & d & D & X & T). destruct (Nat.eq_dec x o) as [->|N].
      * exists o. eexists. split; auto. split; [eapply nth_lset_same; eauto|]. simpl. congruence.
      * exists x, d. rewrite nth_lset_other; auto.
    + intros (x & d & D & X & T). destruct (nth_lset_cases _ _ _ _ _ _ C X) as [[-> ->]|[_ E]]; eauto.
  - unfold mark in H. apply rbind_Ok in H. destruct H as (o & O & H). apply rbind_Ok in H. destruct H as (c & C & H).
    apply of_option_Ok in C. apply target_Ok in O. destruct (B _ O) as (id & I).
    destruct (g_cur _ G _ _ I) as (c0 & C0 & J). assert (c0 = c) by congruence. subst c0.
    injection H as <-. split; simpl; auto. intros u k. rewrite at_tag_dset, J. split.
    + intros K.
      assert (K' : (u = t /\ k = id) \/ In k (at_tag u (rindex s))).
      { destruct (Nat.eqb_spec u t) as [->|]; auto. apply In_sadd in K. tauto. }
      destruct K' as [[-> ->]|K'].
      * exists o. eexists. split; auto. split; [eapply nth_lset_same; eauto|]. simpl. apply In_sadd. auto.
      * apply R in K'. destruct K' as (x & d & D & X & T). destruct (Nat.eq_dec x o) as [->|N].
        -- exists o. eexists. split; auto. split; [eapply nth_lset_same; eauto|]. simpl. apply In_sadd.
           assert (d = c) by congruence. subst. auto.
        -- exists x, d. rewrite nth_lset_other; auto.
    + intros (x & d & D & X & T).
      assert (K : (u = t /\ k = id) \/ In k (at_tag u (rindex s))).
      { destruct (nth_lset_cases _ _ _ _ _ _ C X) as [[-> ->]|[_ E]].
        - simpl in T. apply In_sadd in T. destruct T as [->|T].
          + left. split; auto. eapply cur_inj; eauto.
          + right. apply R. eauto.
        - right. apply R. eauto. }
      destruct (Nat.eqb_spec u t) as [->|N]; [apply In_sadd|]; tauto.
  - destruct (dget (cur s) old) as [o|] eqn:D; [|injection H as <-; split; auto].
    destruct (update_id_spec _ _ _ _ _ G D H) as (S1 & S2 & S3 & S4 & S5 & S6 & S7 & S8 & _). split.
    + intros t k. rewrite S6, S2. rewrite at_tag_map by reflexivity. rewrite In_rename_in, R, R. split.
      * intros [[(x & d & D1 & X & T) N]|[-> (x & d & D1 & X & T)]];
          destruct (proj2 S1 _ _ X) as (d' & X' & e1 & e2 & e3 & e4); exists x, d'; rewrite e3.
        -- rewrite dget_dset. destruct (Nat.eqb_spec k new); [congruence|].
           rewrite dget_ddel by apply G. destruct (Nat.eqb_spec k old); [congruence|]. auto.
        -- rewrite dget_dset_same. split; auto. congruence.
      * intros (x & d' & D1 & X & T). destruct (same_back _ _ _ _ S1 X) as (d & X0 & _ & _ & e). rewrite e in T.
        destruct (update_cur _ _ _ _ _ _ G D D1) as [[-> ->]|(N1 & N2 & _ & E')]; eauto 10.
    + intros x. rewrite S3, S4, S2. intros E. destruct (B _ E) as (k & K).
      destruct (Nat.eq_dec k old) as [->|N].
      * exists new. rewrite dget_dset_same. congruence.
      * exists k. rewrite dget_dset. destruct (Nat.eqb_spec k new); [congruence|].
        rewrite dget_ddel by apply G. destruct (Nat.eqb_spec k old); congruence.
  - injection H as <-. split; simpl; [|discriminate]. intros t k. split; [intros []|].
    intros (o & c & E & _). discriminate.
Qed.

(** * Histories *)
Lemma always_inv (P : st -> op -> Prop) (I : st -> Prop) hash :
  (forall s x s', I s -> P s x -> do hash x s = Ok s' -> I s') ->
  forall xs s s', I s -> always P hash xs s -> run hash xs s = Ok s' -> I s'.
Proof.
  intros H. induction xs as [|x xs IH]; intros s s' J A R; unfold run in R; cbn [rfold] in R.
  - injection R as <-. auto.
  - apply rbind_Ok in R. destruct R as (s1 & R1 & R). destruct A as [A1 A2]. apply (IH s1); eauto.
Qed.

Lemma index_step hash x s s' t o : do hash x s = Ok s' -> In o (from_tag t s') -> In o (from_tag t s) \/ carries s' o t.
Proof.
  unfold from_tag. intros H I. apply in_map_iff in I. destruct I as (e & <- & E).
  assert (Q : In e (at_tag t (index s)) \/ carries s' (snd e) t).
  2: { destruct Q as [Q|Q]; auto. left. apply in_map. auto. }
  destruct x as [id tags actual|id|u [|] cell|u|old new|]; cbn [do] in H.
  - unfold create in H. destruct (dget (cur s) id) as [p|].
    + apply rbind_Ok in H. destruct H as (pc & _ & H). injection H as <-. simpl in E.
      apply In_index_add in E. destruct E as [E|[E ->]].
      * apply In_index_discard in E. tauto.
      * right. eexists. simpl. rewrite nth_error_snoc, Nat.eqb_refl. split; [reflexivity|]. auto.
    + injection H as <-. simpl in E. apply In_index_add in E. destruct E as [E|[E ->]]; auto.
      right. eexists. simpl. rewrite nth_error_snoc, Nat.eqb_refl. split; [reflexivity|]. auto.
  - destruct (dget (cur s) id) eqn:D; [injection H as <-; auto|]. rewrite (untracked_first _ _ _ _ D H) in E. auto.
  - unfold tag in H. apply rbind_Ok in H. destruct H as (o & O & H). apply rbind_Ok in H. destruct H as (c & C & H).
    injection H as <-. auto.
  - unfold tag in H. apply rbind_Ok in H. destruct H as (o & O & H). apply rbind_Ok in H. destruct H as (c & C & H).
    apply of_option_Ok in C. injection H as <-. simpl in E. unfold index_add in E. rewrite at_tag_dset in E.
    destruct (Nat.eqb_spec t u) as [->|]; auto. apply In_hadd in E. destruct E as [->|E]; auto.
    right. eexists. simpl. split; [eapply nth_lset_same; eauto|]. simpl. apply In_sadd. auto.
  - unfold mark in H. apply rbind_Ok in H. destruct H as (o & O & H). apply rbind_Ok in H. destruct H as (c & C & H).
    injection H as <-. auto.
  - destruct (dget (cur s) old) as [o|]; [|injection H as <-; auto].
    unfold update_id in H. apply rbind_Ok in H. destruct H as (c & _ & H). apply rbind_Ok in H. destruct H as (os & _ & H).
    apply rbind_Ok in H. destruct H as (cu & _ & H). injection H as <-. auto.
  - injection H as <-. simpl in E. destruct E.
Qed.
Lemma run_snoc hash xs x s s' : run hash (xs ++ [x]) s = Ok s' -> exists s1, run hash xs s = Ok s1 /\ do hash x s1 = Ok s'.
Proof.
  revert s. induction xs as [|y xs IH]; intros s H; unfold run in *; cbn [rfold app] in *.
  - apply rbind_Ok in H. destruct H as (s1 & H1 & H). exists s. split; auto. injection H as <-. auto.
  - apply rbind_Ok in H. destruct H as (s1 & H1 & H). destruct (IH _ H) as (s2 & H2 & H3). exists s2. rewrite H1. auto.
Qed.

Lemma always_weak (P Q : st -> op -> Prop) hash : (forall s x, P s x -> Q s x) ->
  forall xs s, always P hash xs s -> always Q hash xs s.
Proof. intros H. induction xs as [|x xs IH]; intros s; simpl; auto. intros [A B]. split; auto. Qed.
Lemma run_good hash xs s : always grows hash xs start -> run hash xs start = Ok s -> good s.
Proof. intros A R. apply (always_inv grows good hash) with (xs := xs) (s := start); auto using good_start. intros; eapply good_do; eauto. Qed.
Lemma run_found hash xs s : always grows hash xs start -> run hash xs start = Ok s -> good s /\ found s.
Proof.
  intros A R. apply (always_inv grows (fun s => good s /\ found s) hash) with (xs := xs) (s := start); auto.
  - intros s1 x s2 [G F] W D. split; [eapply good_do; eauto|eapply found_do; eauto].
  - split; [apply good_start|]. intros id o c t D. discriminate.
Qed.
Lemma run_exact hash xs s : always (fun s x => grows s x /\ fresh s x /\ plain s x) hash xs start ->
  run hash xs start = Ok s -> exact s.
Proof.
  intros A R.
  assert (Q : good s /\ found s /\ sound hash s).
  { apply (always_inv (fun s x => grows s x /\ fresh s x /\ plain s x) (fun s => good s /\ found s /\ sound hash s) hash)
      with (xs := xs) (s := start); auto.
    - intros s1 x s2 (G & F & S1) (W & W2 & W3) D.
      split; [eapply good_do; eauto|]. split; [eapply found_do; eauto|eapply sound_do; eauto].
    - split; [apply good_start|]. split; [|apply sound_start]. intros id o c t D. discriminate. }
  destruct Q as (G & F & S1). eapply sound_exact; eauto.
Qed.
Lemma run_react hash xs s : always (fun s x => grows s x /\ fresh s x) hash xs start ->
  run hash xs start = Ok s -> good s /\ react s.
Proof.
  intros A R. apply (always_inv (fun s x => grows s x /\ fresh s x) (fun s => good s /\ react s) hash) with (xs := xs) (s := start); auto.
  - intros s1 x s2 (G & F) (W & W2) D. split; [eapply good_do; eauto|eapply react_do; eauto].
  - split; [apply good_start|apply react_start].
Qed.
Lemma In_forced s ts : forall acc k,
  In k (fold_left (fun acc t => supd acc (reactive_ids t s)) ts acc) <-> In k acc \/ exists t, In t ts /\ In k (reactive_ids t s).
Proof.
  induction ts as [|t ts IH]; intros acc k; simpl; [firstorder|]. rewrite IH, In_supd. split.
  - intros [[H|H]|(u & H1 & H2)]; eauto.
  - intros [H|(u & [<-|H1] & H2)]; eauto.
Qed.
