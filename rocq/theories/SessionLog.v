(** The registry as an execution log (C15), and edge views needed for C05 and C06. *)
Require Import List ZArith Bool Arith Lia.
Import ListNotations.
Require Import Verif.Base Verif.SessionModel Verif.SessionSpec Verif.SessionProofs
  Verif.SessionInv Verif.SessionHist Verif.SessionRename.

Lemma step_inv s r e s' r' :
  Inv s r -> bracketed r e r' -> restricted s r e -> step s e = Ok s' -> Inv s' r'.
Proof.
  intros I B R H. destruct e; simpl in B, R.
  - destruct B as [-> ->]. eapply exec_inv; eauto.
  - subst. eapply untracked_inv; eauto.
  - subst. eapply use_inv; eauto.
  - subst. eapply init_parents_inv; eauto.
  - destruct B as [B ->]. destruct R as (i & u & c & -> & C & P). eapply replay_inv; eauto.
  - destruct B as [B ->]. destruct r as [i|]; [|congruence].
    simpl in H. eapply finish_inv in H; eauto. apply H.
  - destruct B as [B ->]. destruct R as (i & u & c & -> & C & P). eapply untraced_inv; eauto.
  - destruct B as [-> ->]. destruct R as (N & -> & ->). eapply rename_inv; eauto.
Qed.

Lemma history_inv l s r : history restricted l s r -> Inv s r.
Proof. induction 1; [apply Inv_init|eapply step_inv; eauto]. Qed.

Lemma session_inv s r : session s r -> Inv s r.
Proof. intros [l H]. eapply history_inv; eauto. Qed.

(** ** Deciding whether an event list is a session, for the examples *)

Definition bracket (r : option nat) (e : event) : option (option nat) :=
  match e, r with
  | EExec i _ _, None => Some (Some i)
  | EReplay _ _ _, Some _ => Some r
  | (EFinish _ | EUntraced), Some _ => Some None
  | ERename _ _ _ _, None => Some None
  | (EUntracked _ | EUse _ _ _ _ | EInit _ _), _ => Some r
  | _, _ => None
  end.

Definition no_parents_yetb (s : sess) (r : option nat) : bool :=
  match r with
  | None => false
  | Some i => match dget (cur s) i with
              | None => false
              | Some u => match nth_error (heap s) u with
                          | None => false
                          | Some c => (is_nil (c_par c Dynamic) && is_nil (c_par c Static))%bool
                          end
              end
  end.

Definition restrictedb (s : sess) (r : option nat) (e : event) : bool :=
  match e with
  | EExec _ (Some n) _ => (counter s <? n)%Z
  | EExec _ None _ | EUntracked _ | EFinish _ => true
  | EUse _ u pu _ =>
      match nth_error (heap s) u, nth_error (heap s) pu with
      | Some c, Some p =>
          if Nat.eqb (c_id c) (c_id p)
          then match r with
               | None => false
               | Some i => match dget (cur s) i with
                           | Some u' => Nat.eqb u' u
                           | None => false
                           end
               end
          else true
      | _, _ => true
      end
  | EInit _ l => forallb (fun kv => negb (memb (fst kv) (snd kv))) l
  | EReplay _ _ _ | EUntraced => no_parents_yetb s r
  | ERename dyn stat _ new_id => (negb (dhas (cur s) new_id) && dyn && stat)%bool
  end.

Lemma bracket_sound r e r' : bracket r e = Some r' -> bracketed r e r'.
Proof.
  destruct e, r; simpl; intros [=]; subst; auto; split; auto; discriminate.
Qed.

Lemma no_parents_yetb_sound s r : no_parents_yetb s r = true -> no_parents_yet s r.
Proof.
  unfold no_parents_yetb. destruct r as [i|]; [|discriminate].
  destruct (dget (cur s) i) as [u|] eqn:D; [|discriminate].
  destruct (nth_error (heap s) u) as [c|] eqn:E; [|discriminate].
  intros H. apply andb_true_iff in H. destruct H as [H1 H2].
  apply is_nil_true in H1, H2. exists i, u, c. split; auto. split; [split; auto|].
  intros []; auto.
Qed.

Lemma restrictedb_sound s r e : restrictedb s r e = true -> restricted s r e.
Proof.
  destruct e; simpl; auto.
  - destruct fixup; [|discriminate]. intros H n [= <-]. now apply Z.ltb_lt.
  - intros H (c & p & A & B & E). rewrite A, B in H. apply Nat.eqb_eq in E. rewrite E in H.
    destruct r as [i|]; [|discriminate]. destruct (dget (cur s) i) eqn:D; [|discriminate].
    apply Nat.eqb_eq in H. subst. exists i, c. split; auto. split; auto.
  - intros H c ps I. rewrite forallb_forall in H. apply H in I. simpl in I.
    intros J. apply memb_In in J. rewrite J in I. discriminate.
  - apply no_parents_yetb_sound.
  - apply no_parents_yetb_sound.
  - intros H. apply andb_true_iff in H. destruct H as [H ->].
    apply andb_true_iff in H. destruct H as [H ->]. split; auto.
    apply negb_true_iff in H. now apply dhas_nkey.
Qed.

Fixpoint srun (chk : bool) (l : list event) (s : sess) (r : option nat)
  : option (sess * option nat) :=
  match l with
  | [] => Some (s, r)
  | e :: l' =>
      match bracket r e with
      | Some r' =>
          if (negb chk || restrictedb s r e)%bool
          then match step s e with Ok s' => srun chk l' s' r' | Err _ => None end
          else None
      | None => None
      end
  end.

Lemma srun_sound_gen chk (ok : sess -> option nat -> event -> Prop) :
  (forall s r e, (negb chk || restrictedb s r e)%bool = true -> ok s r e) ->
  forall l l0 s r s' r', history ok l0 s r -> srun chk l s r = Some (s', r') ->
  history ok (l0 ++ l) s' r'.
Proof.
  intros K. induction l as [|e l IH]; intros l0 s r s' r' H; simpl.
  - intros [= <- <-]. now rewrite app_nil_r.
  - destruct (bracket r e) as [r1|] eqn:B; [|discriminate].
    destruct (negb chk || restrictedb s r e)%bool eqn:C; [|discriminate].
    destruct (step s e) as [s1|] eqn:E; [|discriminate].
    intros R. replace (l0 ++ e :: l) with ((l0 ++ [e]) ++ l) by (now rewrite <- app_assoc).
    eapply IH; eauto. eapply H_step; eauto. now apply bracket_sound.
Qed.

Lemma srun_session l s r : srun true l sess_init None = Some (s, r) -> session s r.
Proof.
  intros H. exists l. apply (srun_sound_gen true restricted) with (l0 := []) in H; auto.
  - intros s0 r0 e. simpl. apply restrictedb_sound.
  - constructor.
Qed.

Lemma srun_any l s r : srun false l sess_init None = Some (s, r) -> any_session s r.
Proof.
  intros H. exists l.
  apply (srun_sound_gen false (fun _ _ _ => True)) with (l0 := []) in H; auto. constructor.
Qed.

(** ** The log *)

(** The log as it can be read off the heap. *)
Definition log_of (s : sess) : log := map (fun v => (c_id v, c_ctr v)) (heap s).

Lemma nth_log s u : nth_error (log_of s) u =
  option_map (fun v => (c_id v, c_ctr v)) (nth_error (heap s) u).
Proof. unfold log_of. apply nth_error_map. Qed.

Lemma logged_spec l i : logged l i = true <-> exists u k, nth_error l u = Some (i, k).
Proof.
  unfold logged. rewrite existsb_exists. split.
  - intros ([j k] & A & B). apply Nat.eqb_eq in B. simpl in B. subst.
    apply In_nth_error in A. destruct A as [u A]. eauto.
  - intros (u & k & A). apply nth_error_In in A. exists (i, k). split; auto.
    simpl. apply Nat.eqb_refl.
Qed.

Lemma filter_none {A} (f : A -> bool) l : (forall a, In a l -> f a = false) -> filter f l = [].
Proof.
  induction l as [|a l IH]; simpl; auto. intros H. rewrite (H a) by auto. apply IH. auto.
Qed.

Lemma firstn_S_nth {A} (l : list A) : forall n a,
  nth_error l n = Some a -> firstn (S n) l = firstn n l ++ [a].
Proof.
  induction l as [|b l IH]; intros [|n] a H; simpl in *; try discriminate.
  - now injection H as ->.
  - f_equal. now apply IH.
Qed.

Lemma filter_app' {A} (f : A -> bool) l1 l2 : filter f (l1 ++ l2) = filter f l1 ++ filter f l2.
Proof. induction l1 as [|a l1 IH]; simpl; auto. destruct (f a); simpl; now rewrite IH. Qed.

Lemma exec_counters_skip l i : forall n w, w <= n ->
  (forall u e, w <= u < n -> nth_error l u = Some e -> fst e <> i) ->
  exec_counters l n i = exec_counters l w i.
Proof.
  induction n as [|n IH]; intros w L H.
  - assert (w = 0) by lia. now subst.
  - destruct (Nat.eq_dec w (S n)) as [->|N]; auto.
    rewrite <- (IH w) by (try lia; intros; eapply H; eauto; lia).
    unfold exec_counters. destruct (nth_error l n) as [e|] eqn:E.
    + rewrite (firstn_S_nth _ _ _ E), filter_app', map_app. simpl.
      assert (fst e <> i) by (eapply H; eauto; lia).
      apply Nat.eqb_neq in H0. rewrite H0. simpl. now rewrite app_nil_r.
    + apply nth_error_None in E. rewrite !firstn_all2 by lia. reflexivity.
Qed.

Lemma exec_counters_S l n i k :
  nth_error l n = Some (i, k) ->
  exec_counters l (S n) i =
  exec_counters l n i ++ (if (-1 <? k)%Z then [k] else []).
Proof.
  intros H. unfold exec_counters. rewrite (firstn_S_nth _ _ _ H), filter_app', map_app.
  simpl. rewrite Nat.eqb_refl. simpl. destruct (-1 <? k)%Z; reflexivity.
Qed.

Lemma WF_presents s : WF s -> presents s (log_of s).
Proof.
  intros W.
  assert (LL : length (log_of s) = length (heap s)) by apply map_length.
  assert (PV : forall u v, nth_error (heap s) u = Some v ->
     forall w, c_prev v = Some w <-> latest (log_of s) u (c_id v) w).
  { intros u v H w. pose proof (wf_prev _ W _ _ H) as Q. destruct (c_prev v) as [p|].
    - destruct Q as (Q1 & (pv & Q2 & Q3 & _) & Q4).
      assert (LP : latest (log_of s) u (c_id v) p).
      { split; auto. split.
        - exists (c_ctr pv). rewrite nth_log, Q2. simpl. congruence.
        - intros u' e R. rewrite nth_log. destruct (nth_error (heap s) u') eqn:E;
            simpl; [|discriminate]. intros [= <-]. simpl. eapply Q4; eauto. }
      split; [intros [= <-]; auto|].
      intros (G1 & (k & G2) & G3). rewrite nth_log in G2.
      destruct (nth_error (heap s) w) as [d|] eqn:E; simpl in G2; [|discriminate].
      injection G2 as G2 _. f_equal.
      destruct (Nat.lt_trichotomy p w) as [L|[L|L]]; auto.
      + exfalso. eapply (Q4 w d); eauto.
      + exfalso. apply (G3 p (c_id pv, c_ctr pv)).
        * lia.
        * rewrite nth_log, Q2. reflexivity.
        * simpl. auto.
    - split; [discriminate|]. intros (G1 & (k & G2) & _). rewrite nth_log in G2.
      destruct (nth_error (heap s) w) as [d|] eqn:E; simpl in G2; [|discriminate].
      injection G2 as G2 _. exfalso. eapply (proj2 Q w d); eauto. }
  split; [auto|]. split; [|split; [|split]].
  - intros i u. rewrite from_id_Ok, LL. split.
    + intros H. destruct (wf_last _ W _ _ H) as (v & A & B & C). split.
      * apply nth_error_Some. congruence.
      * split; [exists (c_ctr v); rewrite nth_log, A; simpl; congruence|].
        intros u' e R. rewrite nth_log. destruct (nth_error (heap s) u') eqn:E;
          simpl; [|discriminate]. intros [= <-]. simpl. intros X.
        specialize (C _ _ E X). lia.
    + intros (_ & (k & A) & C). rewrite nth_log in A.
      destruct (nth_error (heap s) u) as [v|] eqn:E; simpl in A; [|discriminate].
      injection A as <- _. apply (wf_known _ W) in E as K. apply key_dget in K.
      destruct K as [w K]. rewrite K. f_equal.
      destruct (wf_last _ W _ _ K) as (d & D1 & D2 & D3). specialize (D3 _ _ E eq_refl).
      destruct (Nat.eq_dec w u); auto. exfalso.
      apply (C w (c_id d, c_ctr d)).
      * split; [lia|]. apply nth_error_Some. congruence.
      * rewrite nth_log, D1. reflexivity.
      * auto.
  - intros k u. rewrite at_counter_Ok, (wf_by _ W). split.
    + intros (v & A & B & C). exists (c_id v). rewrite nth_log, A. simpl. split; congruence.
    + intros (i & A & B). rewrite nth_log in A.
      destruct (nth_error (heap s) u) as [v|] eqn:E; simpl in A; [|discriminate].
      injection A as <- <-. eauto.
  - assert (HI : forall n u v, u < n -> nth_error (heap s) u = Some v ->
      c_history v = exec_counters (log_of s) (S u) (c_id v)).
    { induction n as [|n IH]; intros u v L H; [lia|].
      rewrite (exec_counters_S _ _ _ (c_ctr v)) by (rewrite nth_log, H; reflexivity).
      pose proof (wf_prev _ W _ _ H) as Q. destruct (c_prev v) as [p|].
      - destruct Q as (Q1 & (pv & Q2 & Q3 & Q4 & Q5) & Q6).
        rewrite Q4. apply Z.ltb_lt in Q5. rewrite Q5. f_equal.
        rewrite (IH p pv) by (auto; lia). rewrite Q3. symmetry. apply exec_counters_skip.
        + lia.
        + intros w e R. rewrite nth_log. destruct (nth_error (heap s) w) eqn:E; simpl;
            [|discriminate]. intros [= <-]. simpl. eapply Q6; eauto.
      - destruct Q as [Q1 Q2]. rewrite Q1.
        rewrite (exec_counters_skip _ _ u 0).
        + reflexivity.
        + lia.
        + intros w e R. rewrite nth_log. destruct (nth_error (heap s) w) eqn:E; simpl;
            [|discriminate]. intros [= <-]. simpl. eapply Q2; eauto. lia. }
    intros u v H. split; [rewrite nth_log, H; auto|]. split; [apply PV; auto|eauto].
  - intros u u' i i' k k' L K A B. rewrite nth_log in A, B.
    destruct (nth_error (heap s) u) as [v|] eqn:E; simpl in A; [|discriminate].
    destruct (nth_error (heap s) u') as [v'|] eqn:E'; simpl in B; [|discriminate].
    injection A as <- <-. injection B as <- <-. split.
    + eapply wf_ctr_lt; eauto.
    + apply (wf_ctr_le _ W) in E'. lia.
Qed.

(** Operations on edges do not change the log. *)
Definition same_log (s s' : sess) : Prop :=
  log_of s' = log_of s /\ counter s' = counter s /\ cur s' = cur s.

Lemma same_log_refl s : same_log s s.
Proof. repeat split. Qed.

Lemma same_log_trans a b c : same_log a b -> same_log b c -> same_log a c.
Proof. unfold same_log. intros (A1 & A2 & A3) (B1 & B2 & B3). repeat split; congruence. Qed.

Lemma map_lset {A B} (f : A -> B) l : forall u a b,
  nth_error l u = Some a -> f b = f a -> map f (lset l u b) = map f l.
Proof.
  induction l as [|c l IH]; intros [|u] a b H E; simpl in *; try discriminate.
  - injection H as ->. congruence.
  - f_equal. eapply IH; eauto.
Qed.

Lemma same_log_set_par s u c x e :
  nth_error (heap s) u = Some c -> same_log s (set_cell s u (with_par c x e)).
Proof.
  intros H. repeat split. unfold log_of. simpl. eapply map_lset; eauto.
Qed.

Lemma same_log_set_children s x i e : same_log s (set_children s x i e).
Proof. repeat split. Qed.

Lemma add_parent_edges_log s x u pu syms s' :
  add_parent_edges s x u pu syms = Ok s' -> same_log s s'.
Proof.
  unfold add_parent_edges. destruct (is_nil syms); [intros [= <-]; apply same_log_refl|].
  destruct (obj s u) as [c|] eqn:O; simpl; [|discriminate]. apply obj_Ok in O.
  destruct (obj s pu) as [p|]; simpl; [|discriminate].
  destruct (dhas _ _); [intros [= <-]; apply same_log_refl|].
  destruct (Nat.eqb _ _).
  - destruct (c_prev c); [|intros [= <-]; apply same_log_refl].
    destruct (obj s n); simpl; [|discriminate]. intros [= <-]. now apply same_log_set_par.
  - intros [= <-]. eapply same_log_trans; [|apply same_log_set_children].
    now apply same_log_set_par.
Qed.

Lemma remove_parent_edges_log s x u pid syms s' :
  remove_parent_edges s x u pid syms = Ok s' -> same_log s s'.
Proof.
  unfold remove_parent_edges. destruct (is_nil syms); [intros [= <-]; apply same_log_refl|].
  destruct (from_id s pid); simpl; [|discriminate].
  destruct (obj s u) as [c|] eqn:O; simpl; [|discriminate]. apply obj_Ok in O.
  intros [= <-]. eapply same_log_trans; [|apply same_log_set_children].
  now apply same_log_set_par.
Qed.

Lemma rfold_log {A} (f : sess -> A -> res sess) l :
  (forall s a s', f s a = Ok s' -> same_log s s') ->
  forall s s', rfold f l s = Ok s' -> same_log s s'.
Proof.
  intros F. induction l as [|a l IH]; intros s s'; simpl;
    [intros [= <-]; apply same_log_refl|].
  destruct (f s a) as [t|] eqn:E; simpl; [|discriminate].
  intros H. eapply same_log_trans; eauto.
Qed.

Ltac inv_bind H :=
  cbv beta in H;
  match type of H with
  | rbind ?m _ = Ok _ =>
      let E := fresh "E" in destruct m eqn:E; simpl in H; [|discriminate]
  end.

Lemma remove_dangling_ctx_log s x d s' :
  remove_dangling_ctx s x d = Ok s' -> same_log s s'.
Proof.
  apply rfold_log. intros t u t' H. inv_bind H. revert H. apply rfold_log.
  intros. eapply remove_parent_edges_log; eauto.
Qed.

Lemma remove_stale_ctx_log s x u v s' : remove_stale_ctx s x u v = Ok s' -> same_log s s'.
Proof.
  unfold remove_stale_ctx. intros H. inv_bind H. revert H. apply rfold_log.
  intros t kv t' H. inv_bind H. eapply remove_parent_edges_log; eauto.
Qed.

Lemma replay_ctx_log s x u v s' : replay_ctx s x u v = Ok s' -> same_log s s'.
Proof.
  unfold replay_ctx. intros H. inv_bind H. inv_bind H. inv_bind H.
  apply (same_log_trans s a0 s').
  - clear H E1. revert E0. apply rfold_log. unfold remove_parent_edges_aliased. intros t q t' H'.
    inv_bind H'. apply obj_Ok in E0. destruct (dget _ _); [|injection H' as <-; apply same_log_refl].
    destruct (is_nil l); [injection H' as <-; apply same_log_refl|]. inv_bind H'.
    injection H' as <-. now apply same_log_set_par.
  - revert H. apply rfold_log. intros t kv t' H. inv_bind H.
    eapply add_parent_edges_log; eauto.
Qed.

(** Events that are neither executions, nor creations, nor renamings. *)
Lemma edge_events_log s e s' :
  match e with EExec _ _ _ | EUntracked _ | ERename _ _ _ _ => False | _ => True end ->
  step s e = Ok s' -> same_log s s'.
Proof.
  destruct e; simpl; try contradiction; intros _ H.
  - unfold add_data_dep in H. inv_bind H. inv_bind H.
    destruct (_ && _)%bool; [|injection H as <-; apply same_log_refl].
    eapply add_parent_edges_log; eauto.
  - revert H. apply rfold_log. intros t [c ps] t' H. simpl in H.
    destruct (dget (cur t) c); [|injection H as <-; apply same_log_refl].
    revert H. apply rfold_log. intros t1 q t2 H.
    destruct (dget (cur t1) q); [|injection H as <-; apply same_log_refl].
    eapply add_parent_edges_log; eauto.
  - inv_bind H. unfold replay in H. destruct dyn; simpl in H.
    + inv_bind H. apply replay_ctx_log in E0.
      destruct stat; [|injection H as <-; auto].
      apply replay_ctx_log in H. eapply same_log_trans; eauto.
    + destruct stat; [|injection H as <-; apply same_log_refl].
      now apply replay_ctx_log in H.
  - unfold remove_dangling_parent_edges in H. inv_bind H. inv_bind H. inv_bind H. inv_bind H.
    apply remove_dangling_ctx_log in E, E0.
    assert (same_log s a0) by (eapply same_log_trans; eauto).
    destruct (c_prev a2); [|injection H as <-; auto].
    inv_bind H. apply remove_stale_ctx_log in E3, H.
    eapply same_log_trans; [eauto|]. eapply same_log_trans; eauto.
  - inv_bind H. unfold untraced_parents in H. inv_bind H. apply obj_Ok in E0.
    destruct (c_prev a0); [|injection H as <-; apply same_log_refl].
    inv_bind H. injection H as <-. repeat split. unfold log_of. simpl.
    eapply map_lset; eauto.
Qed.

Lemma step_log s r e r' s' :
  Inv s r -> bracketed r e r' -> restricted s r e -> step s e = Ok s' ->
  (log_of s', counter s') = log_step (log_of s) (counter s) e.
Proof.
  intros J BR R H. pose proof J as [I _].
  pose proof (i_wf _ _ I) as W.
  destruct e;
    try (apply edge_events_log in H; [|exact Logic.I]; destruct H as (-> & -> & _);
         reflexivity).
  - simpl in *. unfold create_and_track in H.
    set (n' := match fixup with Some n => n | None => (counter s + 1)%Z end) in *.
    destruct (Z.eqb n' (-1) && _)%bool; [discriminate|].
    destruct (dget (cur s) i) as [w|] eqn:D.
    + destruct (obj s w); simpl in H; [|discriminate]. injection H as <-.
      unfold log_of. simpl. rewrite map_app. reflexivity.
    + simpl in H. injection H as <-. unfold log_of. simpl. rewrite map_app. reflexivity.
  - simpl in *. destruct (dget (cur s) i) as [w|] eqn:D.
    + injection H as <-.
      destruct (wf_last _ W _ _ D) as (v & A & B & _).
      assert (L : logged (log_of s) i = true).
      { apply logged_spec. exists w, (c_ctr v). rewrite nth_log, A. simpl. congruence. }
      rewrite L. reflexivity.
    + assert (L : logged (log_of s) i = false).
      { destruct (logged (log_of s) i) eqn:L; auto. apply logged_spec in L.
        destruct L as (u & k & A). rewrite nth_log in A.
        destruct (nth_error (heap s) u) eqn:E; simpl in A; [|discriminate].
        injection A as A _. apply (wf_known _ W) in E. rewrite A in E.
        apply dget_None in D. contradiction. }
      rewrite L. unfold create_and_track in H. rewrite D in H. simpl in H.
      injection H as <-. unfold log_of. simpl. rewrite map_app. reflexivity.
  - destruct R as (NN & -> & ->). destruct BR as [-> ->]. simpl in *.
    destruct (from_id s i) as [u|] eqn:F; simpl in H; [|discriminate].
    apply from_id_Ok in F.
    destruct (rename_view s i new_id u J F NN) as (t & T1 & _ & _ & (V1 & V2 & _ & V4 & V5)).
    assert (t = s') by congruence. subst t. rewrite V2. f_equal.
    apply nth_error_ext'. intros w.
    rewrite nth_error_map, !nth_log.
    destruct (nth_error (heap s) w) as [v|] eqn:E; simpl.
    + destruct (V5 _ _ E) as (v' & A & B & C & _). rewrite A. simpl. congruence.
    + apply nth_error_None in E. rewrite <- V4 in E. apply nth_error_None in E.
      now rewrite E.
Qed.

Lemma history_log l s r : history restricted l s r ->
  log_after l = (log_of s, counter s).
Proof.
  induction 1 as [|l s r e s' r' H IH B R E]; [reflexivity|].
  unfold log_after. rewrite fold_left_app. simpl. fold (log_after l). rewrite IH. simpl.
  symmetry. eapply step_log; eauto. eapply history_inv; eauto.
Qed.
