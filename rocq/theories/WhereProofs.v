(** Lemmas about the last update of a symbol. *)
Require Import List ZArith Bool Arith Lia.
Import ListNotations.
Require Import Verif.Base Verif.SessionModel Verif.SessionSpec Verif.SessionProps Verif.WhereModel Verif.WhereSpec.

Definition evs (l : list op) : list event := flat_map (fun a => match a with Event e => [e] | _ => [] end) l.

Lemma evs_app l l' : evs (l ++ l') = evs l ++ evs l'.
Proof. apply flat_map_app. Qed.

Lemma snoc_inv ok l a t r : hist ok (l ++ [a]) t r ->
  (exists e t0 r0, a = Event e /\ hist ok l t0 r0 /\ bracketed r0 e r /\ ok (ss t0) r0 e /\ does t0 a = Ok t) \/
  (exists t0, (forall e, a <> Event e) /\ hist ok l t0 r /\ does t0 a = Ok t).
Proof.
  intros H. inversion H as [E|l0 t0 r0 e t' r' H0 B O D E|l0 t0 r0 a0 t' H0 N D E].
  - destruct l; discriminate.
  - apply app_inj_tail in E. destruct E as [-> <-]. subst. left. exists e, t0, r0. auto.
  - apply app_inj_tail in E. destruct E as [-> ->]. subst. right. exists t0. auto.
Qed.

Lemma snoc_does ok l a t r : hist ok (l ++ [a]) t r -> exists t0 r0, hist ok l t0 r0 /\ does t0 a = Ok t.
Proof. intros H. destruct (snoc_inv _ _ _ _ _ H) as [(e & t0 & r0 & D)|(t0 & D)]; [exists t0, r0|exists t0, r]; tauto. Qed.

Lemma other_ss t a t' : (forall e, a <> Event e) -> does t a = Ok t' -> ss t' = ss t.
Proof.
  intros N D. destruct a as [e|x o|x|x o|x]; simpl in D; [destruct (N e); auto|..]; injection D as <-; auto.
  unfold upsert. destruct (dget (globals t) x) as [o|]; auto.
  destruct (dget (syms t) x) as [[o' k]|]; auto. destruct (Nat.eqb o' o); auto.
Qed.

Lemma hist_events ok l t r : hist ok l t r -> history ok (evs l) (ss t) r.
Proof.
  induction 1 as [|l t r e t' r' H IH B O D|l t r a t' H IH N D].
  - constructor.
  - rewrite evs_app. simpl. simpl in D. destruct (step (ss t) e) as [s|] eqn:S; [|discriminate].
    injection D as <-. simpl. eapply H_step; eauto.
  - rewrite evs_app, (other_ss _ _ _ N D). destruct a as [e|x o|x|x o|x]; simpl; rewrite ?app_nil_r; auto.
    destruct (N e); auto.
Qed.

Lemma log_snoc l e : log_after (l ++ [e]) = log_step (fst (log_after l)) (snd (log_after l)) e.
Proof. unfold log_after. rewrite fold_left_app. reflexivity. Qed.

Lemma counter_pos l s r : history restricted l s r -> (0 <= snd (log_after l))%Z.
Proof.
  induction 1 as [|l s r e s' r' H IH B O S]; [simpl; lia|]. rewrite log_snoc.
  pose proof (proj2 (C15_registry_partial _ _ _ H)) as C.
  destruct e; simpl; auto. destruct fixup as [n|]; [|lia]. simpl in O. specialize (O n eq_refl). lia.
Qed.

(** An entry of the log stays, under the id by which the cell is known. *)
Lemma log_keeps h2 : forall h1 i k, In (i, k) (fst (log_after (evs h1))) ->
  In (known_as h2 i, k) (fst (log_after (evs (h1 ++ h2)))).
Proof.
  induction h2 as [|a h2 IH]; intros h1 i k H; [rewrite app_nil_r; auto|].
  replace (h1 ++ a :: h2) with ((h1 ++ [a]) ++ h2) by (rewrite <- app_assoc; auto).
  assert (G : In (known_as [a] i, k) (fst (log_after (evs (h1 ++ [a]))))).
  { rewrite evs_app. destruct a as [e|x o|x|x o|x]; simpl; rewrite ?app_nil_r; auto.
    rewrite log_snoc. destruct e; simpl; auto; try (apply in_or_app; auto).
    - destruct (logged _ _); auto. apply in_or_app. auto.
    - apply in_map_iff. exists (i, k). auto. }
  apply IH in G. destruct a as [[]|x o|x|x o|x]; exact G.
Qed.

(** The last run is the one with the current counter. *)
Lemma log_last a i f p b : Forall not_run b ->
  let l := a ++ Event (EExec i f p) :: b in
  In (known_as b i, snd (log_after (evs l))) (fst (log_after (evs l))).
Proof.
  intros N l. unfold l. replace (a ++ Event (EExec i f p) :: b) with ((a ++ [Event (EExec i f p)]) ++ b)
    by (rewrite <- app_assoc; auto).
  assert (E : snd (log_after (evs ((a ++ [Event (EExec i f p)]) ++ b))) =
              snd (log_after (evs (a ++ [Event (EExec i f p)])))).
  { clear l. induction b as [|o b IH] using rev_ind; [rewrite app_nil_r; auto|].
    apply Forall_app in N. destruct N as [N1 N2]. rewrite <- (IH N1). rewrite app_assoc, evs_app.
    destruct o as [e|x o|x|x o|x]; simpl; rewrite ?app_nil_r; auto. rewrite log_snoc.
    destruct e; simpl; auto. inversion N2 as [|? ? N3]. destruct (N3 _ _ _ eq_refl). }
  rewrite E. apply log_keeps. rewrite evs_app. simpl. rewrite log_snoc. simpl. apply in_or_app. simpl. auto.
Qed.

(** The answer is read off the log. *)
Lemma answer l t r x o k i : hist restricted l t r -> dget (syms t) x = Some (o, k) -> (-1 < k)%Z ->
  In (i, k) (fst (log_after (evs l))) -> last_updated t x = Some i.
Proof.
  intros H S K I. destruct (C15_registry_partial _ _ _ (hist_events _ _ _ _ H)) as [(L & _ & A & V & _) _].
  apply In_nth_error in I. destruct I as [u U]. unfold last_updated. rewrite S.
  rewrite (proj2 (A k u)); [|eauto]. simpl. unfold obj.
  assert (U' : u < length (heap (ss t))) by (rewrite L; apply nth_error_Some; congruence).
  destruct (nth_error (heap (ss t)) u) as [v|] eqn:E; [|apply nth_error_None in E; lia].
  simpl. destruct (V u v E) as [W _]. rewrite U in W. injection W as -> _. auto.
Qed.

Lemma counter_now l t r : hist restricted l t r -> now t = snd (log_after (evs l)) /\ (0 <= now t)%Z.
Proof.
  intros H. apply hist_events in H. pose proof (proj2 (C15_registry_partial _ _ _ H)) as C. unfold now. rewrite C.
  split; auto. eapply counter_pos; eauto.
Qed.

Lemma upsert_other t x y : x <> y -> dget (syms (fst (upsert t y))) x = dget (syms t) x.
Proof.
  intros N. unfold upsert. destruct (dget (globals t) y) as [o|]; auto.
  destruct (dget (syms t) y) as [[o' k]|]; [destruct (Nat.eqb o' o); auto|];
    simpl; rewrite dget_dset; destruct (Nat.eqb_spec x y); congruence.
Qed.
Lemma upsert_globals t y : globals (fst (upsert t y)) = globals t.
Proof.
  unfold upsert. destruct (dget (globals t) y) as [o|]; auto.
  destruct (dget (syms t) y) as [[o' k]|]; [destruct (Nat.eqb o' o); auto|]; auto.
Qed.
Lemma upsert_same t x o k : dget (globals t) x = Some o -> dget (syms t) x = Some (o, k) -> upsert t x = (t, false).
Proof. intros G S. unfold upsert. rewrite G, S, Nat.eqb_refl. auto. Qed.

Lemma hist_wf ok l t r : hist ok l t r -> dwf (globals t) /\ dwf (syms t).
Proof.
  induction 1 as [|l t r e t' r' H [G S] B O D|l t r a t' H [G S] N D].
  - split; constructor.
  - simpl in D. destruct (step (ss t) e); [|discriminate]. injection D as <-. auto.
  - destruct a as [e|x o|x|x o|x]; simpl in D; [destruct (N e); auto|..]; injection D as <-; simpl;
      auto using dwf_dset, dwf_ddel.
    unfold upsert. destruct (dget (globals t) x) as [o|]; auto.
    destruct (dget (syms t) x) as [[o' k]|]; [destruct (Nat.eqb o' o); auto|]; simpl; auto using dwf_dset.
Qed.

(** What one operation leaves alone. *)
Lemma does_quiet ok l t r a t' x o k : hist ok l t r -> does t a = Ok t' -> quiet x a ->
  dget (globals t) x = Some o -> dget (syms t) x = Some (o, k) ->
  dget (globals t') x = Some o /\ dget (syms t') x = Some (o, k).
Proof.
  intros H D Q G S. destruct (hist_wf _ _ _ _ H) as [W1 W2].
  destruct a as [e|y o'|y|y o'|y]; simpl in D, Q.
  - destruct (step (ss t) e); [|discriminate]. injection D as <-. auto.
  - injection D as <-. simpl. rewrite !dget_dset_other; auto.
  - injection D as <-. simpl. rewrite !dget_ddel; auto. destruct (Nat.eqb_spec x y); [congruence|auto].
  - injection D as <-. simpl. rewrite !dget_dset_other; auto.
  - injection D as <-. rewrite upsert_globals. split; auto. destruct (Nat.eq_dec x y) as [<-|N].
    + rewrite (upsert_same t x o k); auto.
    + rewrite upsert_other; auto.
Qed.

Lemma does_unseen ok l t r a t' x : hist ok l t r -> does t a = Ok t' -> unseen x a ->
  dget (syms t') x = dget (syms t) x.
Proof.
  intros H D Q. destruct (hist_wf _ _ _ _ H) as [W1 W2].
  destruct a as [e|y o'|y|y o'|y]; simpl in D, Q.
  - destruct (step (ss t) e); [|discriminate]. injection D as <-. auto.
  - injection D as <-. simpl. rewrite !dget_dset_other; auto.
  - injection D as <-. simpl. rewrite !dget_ddel; auto. destruct (Nat.eqb_spec x y); [congruence|auto].
  - injection D as <-. auto.
  - injection D as <-. apply upsert_other. auto.
Qed.

Lemma does_unknown ok l t r a t' x : hist ok l t r -> does t a = Ok t' -> unknown x a ->
  dget (syms t) x = None -> dget (syms t') x = None.
Proof.
  intros H D Q S. destruct (hist_wf _ _ _ _ H) as [W1 W2].
  destruct a as [e|y o'|y|y o'|y]; simpl in D, Q.
  - destruct (step (ss t) e); [|discriminate]. injection D as <-. auto.
  - injection D as <-. simpl. rewrite !dget_dset_other; auto.
  - injection D as <-. simpl. rewrite !dget_ddel; auto. destruct (Nat.eqb_spec x y); auto.
  - injection D as <-. auto.
  - injection D as <-. rewrite upsert_other; auto.
Qed.

(** The symbol after an assignment. *)
Lemma assigned ok h x o t r : hist ok (h ++ [Assign x o]) t r -> exists t0 r0, hist ok h t0 r0 /\
  dget (globals t) x = Some o /\ dget (syms t) x = Some (o, now t0).
Proof.
  intros H. destruct (snoc_does _ _ _ _ _ H) as (t0 & r0 & H0 & D). exists t0, r0. split; auto.
  simpl in D. injection D as <-. simpl. rewrite !dget_dset_same. auto.
Qed.

Lemma after_quiet h x o h2 : Forall (quiet x) h2 -> forall t r,
  hist restricted (h ++ Assign x o :: h2) t r ->
  dget (globals t) x = Some o /\ dget (syms t) x = Some (o, snd (log_after (evs h))) /\
  (0 <= snd (log_after (evs h)))%Z.
Proof.
  induction h2 as [|a h2 IH] using rev_ind; intros Q t r H.
  - destruct (assigned _ _ _ _ _ _ H) as (t0 & r0 & H0 & G & S). destruct (counter_now _ _ _ H0) as [<- C]. auto.
  - rewrite app_comm_cons, app_assoc in H. apply Forall_app in Q. destruct Q as [Q1 Q2].
    destruct (snoc_does _ _ _ _ _ H) as (t0 & r0 & H0 & D). destruct (IH Q1 _ _ H0) as (G & S & C).
    inversion Q2 as [|? ? Q3]. destruct (does_quiet _ _ _ _ _ _ x o _ H0 D Q3 G S). auto.
Qed.

Lemma after_unseen h x o h2 : Forall (unseen x) h2 -> forall t r,
  hist restricted (h ++ Assign x o :: h2) t r ->
  dget (syms t) x = Some (o, snd (log_after (evs h))) /\ (0 <= snd (log_after (evs h)))%Z.
Proof.
  induction h2 as [|a h2 IH] using rev_ind; intros Q t r H.
  - destruct (assigned _ _ _ _ _ _ H) as (t0 & r0 & H0 & G & S). destruct (counter_now _ _ _ H0) as [<- C]. auto.
  - rewrite app_comm_cons, app_assoc in H. apply Forall_app in Q. destruct Q as [Q1 Q2].
    destruct (snoc_does _ _ _ _ _ H) as (t0 & r0 & H0 & D). destruct (IH Q1 _ _ H0) as (S & C).
    inversion Q2 as [|? ? Q3]. rewrite (does_unseen _ _ _ _ _ _ x H0 D Q3). auto.
Qed.

(** The run before the assignment is the one named by the answer. *)
Lemma named a i f p b x o h2 t r o' : Forall not_run b ->
  let h := a ++ Event (EExec i f p) :: b in
  hist restricted (h ++ Assign x o :: h2) t r ->
  dget (syms t) x = Some (o', snd (log_after (evs h))) -> (0 <= snd (log_after (evs h)))%Z ->
  last_updated t x = Some (known_as (b ++ h2) i).
Proof.
  intros N h H S C. eapply answer; eauto; [lia|].
  replace (known_as (b ++ h2) i) with (known_as (Assign x o :: h2) (known_as b i)).
  - apply log_keeps. apply (log_last a i f p b N).
  - simpl. clear. revert i. induction b as [|c b IH]; intros i; auto. destruct c as [[]|?|?|?|?]; simpl; auto.
Qed.

Lemma does_unset ok l t r a t' x : hist ok l t r -> does t a = Ok t' -> unset x a ->
  dget (globals t) x = None -> dget (globals t') x = None.
Proof.
  intros H D Q S. destruct (hist_wf _ _ _ _ H) as [W1 W2].
  destruct a as [e|y o'|y|y o'|y]; simpl in D, Q.
  - destruct (step (ss t) e); [|discriminate]. injection D as <-. auto.
  - injection D as <-. simpl. rewrite !dget_dset_other; auto.
  - injection D as <-. simpl. rewrite !dget_ddel; auto. destruct (Nat.eqb_spec x y); auto.
  - injection D as <-. simpl. rewrite !dget_dset_other; auto.
  - injection D as <-. rewrite upsert_globals. auto.
Qed.

Lemma gone ok l x : l = [] \/ (exists l', l = l' ++ [Del x]) -> forall t r, hist ok l t r ->
  dget (globals t) x = None /\ dget (syms t) x = None.
Proof.
  intros [->|[l' ->]] t r H.
  - inversion H as [|l0 ? ? ? ? ? ? ? ? ? E|l0 ? ? ? ? ? ? ? E]; [auto|destruct l0; discriminate|destruct l0; discriminate].
  - destruct (snoc_does _ _ _ _ _ H) as (t0 & r0 & H0 & D). simpl in D. injection D as <-. simpl.
    destruct (hist_wf _ _ _ _ H0). rewrite !dget_ddel, Nat.eqb_refl; auto.
Qed.

Lemma unknown_sym ok l h x : l = [] \/ (exists l', l = l' ++ [Del x]) -> Forall (unknown x) h -> forall t r,
  hist ok (l ++ h) t r -> dget (syms t) x = None.
Proof.
  intros L. induction h as [|a h IH] using rev_ind; intros Q t r H.
  - rewrite app_nil_r in H. eapply gone; eauto.
  - rewrite app_assoc in H. apply Forall_app in Q. destruct Q as [Q1 Q2].
    destruct (snoc_does _ _ _ _ _ H) as (t0 & r0 & H0 & D). inversion Q2 as [|? ? Q3].
    eapply does_unknown; eauto.
Qed.

Lemma unset_global ok l h x : l = [] \/ (exists l', l = l' ++ [Del x]) -> Forall (unset x) h -> forall t r,
  hist ok (l ++ h) t r -> dget (globals t) x = None.
Proof.
  intros L. induction h as [|a h IH] using rev_ind; intros Q t r H.
  - rewrite app_nil_r in H. eapply gone; eauto.
  - rewrite app_assoc in H. apply Forall_app in Q. destruct Q as [Q1 Q2].
    destruct (snoc_does _ _ _ _ _ H) as (t0 & r0 & H0 & D). inversion Q2 as [|? ? Q3].
    eapply does_unset; eauto.
Qed.

Lemma no_run_log l : Forall not_run l -> Forall (fun e => snd e = (-1)%Z) (fst (log_after (evs l))).
Proof.
  induction l as [|a l IH] using rev_ind; intros N; [constructor|].
  apply Forall_app in N. destruct N as [N1 N2]. specialize (IH N1). rewrite evs_app.
  destruct a as [e|x o|x|x o|x]; simpl; rewrite ?app_nil_r; auto. rewrite log_snoc.
  inversion N2 as [|? ? N3]. destruct e; simpl; auto.
  - destruct (N3 _ _ _ eq_refl).
  - destruct (logged _ _); auto. apply Forall_app. auto.
  - apply Forall_map. simpl. auto.
Qed.

Lemma no_run_answer l t r x : Forall not_run l -> hist restricted l t r -> last_updated t x = None.
Proof.
  intros N H. unfold last_updated. destruct (dget (syms t) x) as [[o k]|]; auto.
  destruct (at_counter (ss t) k) as [u|] eqn:A; auto.
  destruct (C15_registry_partial _ _ _ (hist_events _ _ _ _ H)) as [(_ & _ & B & _) _].
  apply B in A. destruct A as (i & E & K). apply nth_error_In in E.
  apply (proj1 (Forall_forall _ _) (no_run_log l N)) in E. simpl in E. lia.
Qed.
