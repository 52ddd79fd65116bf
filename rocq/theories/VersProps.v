(** C74-C76: versions of variables and what a use depends on. *)
From Coq Require Import List Arith Bool ZArith Lia.
From Verif Require Import Base Loops TimestampModel TimestampProofs VersModel VersSpec VersProofs.
Import ListNotations.
Local Open Scope nat_scope.

(** C74: `code(x)` asks for the last write of [x] and of everything in it at any depth. Whatever else
    it asks for is the stamp that a part without one of its own is shown with, or a change inside the
    namespace of a part. *)
Theorem C74_partial : forall born h S0 H s defined l,
  run born h = Ok S0 -> ordered born h -> plain h s -> (exists t, written h s t) ->
  for_version H S0 defined s (-1) = Ok l ->
  (forall p t, part H s p -> last_write h p t -> In t l) /\
  (forall t, In t l -> t <> ts_uninit /\ exists p, part H s p /\
     (shown born h H p t \/ exists n e, ns_of H p = Some n /\ In e h /\ stirs e n t)).
Proof.
  intros born h S0 H s defined l R O P (w & Ww). unfold for_version.
  rewrite (snap_nonempty _ _ _ _ _ R O P Ww).
  destruct (last_snap _ _ _ _ _ R O P Ww) as (u & Eu & Cu). rewrite Eu. cbn [rbind].
  rewrite Cu. cbn [Z.eqb Pos.eqb]. rewrite rmap_Ok. intros (l0 & Ec & <-).
  destruct (collect_spec _ _ _ _ _ Ec) as (C1 & C2). split.
  - intros p t Hp Lt. pose proof (last_write_written _ _ _ Lt) as Wt.
    pose proof (written_init _ _ _ _ O Wt) as It. apply filter_In.
    split; [|now apply initialized_neq]. apply C1.
    destruct (C2 p Hp) as (lp & Ep). exists p, lp. split; auto. split; auto.
    cbn [own_stamps] in Ep. rewrite rbind_Ok in Ep. destruct Ep as (a & Ea & Eb).
    rewrite rmap_Ok in Eb. destruct Eb as (b & _ & <-). left.
    unfold shallow in Ea.
    assert (Eo : own S0 p = t) by (eapply stamp_fun; [eapply own_stamp; eauto|left; exact Lt]).
    rewrite init_own in Ea by congruence. congruence.
  - intros t Ht. apply filter_In in Ht. destruct Ht as [Ht Nt]. apply negb_true_iff in Nt.
    split. { intros ->. unfold ts_eqb in Nt. now rewrite !Z.eqb_refl in Nt. }
    apply C1 in Ht. destruct Ht as (p & lp & Hp & Ep & It). exists p. split; auto.
    cbn [own_stamps] in Ep. rewrite rbind_Ok in Ep. destruct Ep as (a & Ea & Eb).
    rewrite rmap_Ok in Eb. destruct Eb as (b & Eb & <-).
    pose proof (init_shown _ _ _ _ R _ _ _ _ Ea) as Sa.
    destruct It as [<-|[<-|[]]]; auto.
    destruct (deep_facts _ _ _ _ _ _ R O Eb) as (a' & Ea' & D & _).
    rewrite Ea in Ea'. injection Ea' as <-.
    destruct D as [->|(n & e & D)]; eauto.
Qed.
Print Assumptions C74_partial.

(** The timestamp of [x] is that of the last write of [x] or of something directly in it. *)
Theorem C74_time_partial : forall born h S0 H s u,
  run born h = Ok S0 -> ordered born h -> last_write h s u ->
  exists t, deep H S0 s = Ok t /\ ts_leb u t = true /\
    (t = u \/ exists n e, ns_of H s = Some n /\ In e h /\ stirs e n t) /\
    (is_module H s = false -> forall n e v, ns_of H s = Some n -> In e h -> stirs e n v ->
       ts_leb v t = true).
Proof.
  intros born h S0 H s u R O L.
  assert (Eo : own S0 s = u) by (eapply stamp_fun; [eapply own_stamp; eauto|left; exact L]).
  assert (Iu : ts_is_initialized u = true).
  { eapply written_init; eauto. eapply last_write_written; eauto. }
  assert (Sh : shallow H S0 s = Ok u) by (unfold shallow; rewrite init_own; congruence).
  assert (E : exists t, deep H S0 s = Ok t) by (unfold deep; rewrite Sh; cbn; eauto).
  destruct E as (t & E). exists t. split; auto.
  destruct (deep_facts _ _ _ _ _ _ R O E) as (a & Ea & D1 & D2 & D3).
  rewrite Sh in Ea. injection Ea as <-. auto.
Qed.
Print Assumptions C74_time_partial.

(** However the objects hold one another, no event and no query gets stuck; a query fails only for a
    version that does not exist. *)
Theorem C74_total : forall born h, Forall known h ->
  exists S0, run born h = Ok S0 /\
    forall H s defined k, finite H -> In s (syms H) ->
      (exists l, for_version H S0 defined s k = Ok l) \/
      (for_version H S0 defined s k = Err IndexError /\ snap S0 s <> [] /\
       forall t, ~ at_index (snap S0 s) k t).
Proof.
  intros born h Fk. destruct (run_total born h Fk) as (S0 & R). exists S0. split; auto.
  intros H s defined k Fi I. now apply version_total.
Qed.
Print Assumptions C74_total.

(** Objects: symbol 0 is `x`, 1 is `x.a`, 2 is `x.a.b`, 3 is `y`, another name for `x`. *)
Definition H0 : heap :=
  {| syms := [0; 1; 2; 3];
     ns_of := fun s => match s with 0 | 3 => Some 10 | 1 => Some 11 | _ => None end;
     inside := fun s => match s with 1 => Some 10 | 2 => Some 11 | _ => None end;
     own_members := fun n => match n with 10 => [1] | 11 => [2] | _ => [] end;
     inherited := fun _ => [];
     aliases := fun n => match n with 10 => [0; 3] | 11 => [1] | _ => [] end;
     is_class := fun _ => false; is_module := fun _ => false |}.
Definition tm (n : Z) : ts := mkTs n 0.
Definition none : nat -> ts := fun _ => ts_uninit.

Lemma ordered_check born h :
  (forall h1 e1 h2 e2 h3 t1 t2, h = h1 ++ e1 :: h2 ++ e2 :: h3 ->
     wtime e1 = Some t1 -> wtime e2 = Some t2 -> ts_leb t1 t2 = true) ->
  (forall e t, In e h -> wtime e = Some t -> ts_is_initialized t = true) ->
  born = none -> ordered born h.
Proof.
  intros A B ->. repeat apply conj; auto.
  - intros s t (e & I & We). apply uninit_le. eapply B; eauto. eapply writes_wtime; eauto.
Qed.

Fixpoint sorted_times (last : ts) (h : list event) : bool :=
  match h with
  | [] => true
  | e :: h' => match wtime e with
               | Some t => ts_leb last t && ts_is_initialized t && sorted_times t h'
               | None => sorted_times last h'
               end
  end.

Lemma sorted_times_above h : forall last, sorted_times last h = true ->
  forall e t, In e h -> wtime e = Some t -> ts_leb last t = true /\ ts_is_initialized t = true.
Proof.
  induction h as [|x h IH]; intros last; cbn [sorted_times]; [intros _ e t []|].
  destruct (wtime x) as [tx|] eqn:Ex.
  - rewrite !andb_true_iff. intros ((L & Ii) & So) e t [<-|J] E.
    + rewrite Ex in E. injection E as <-. auto.
    + destruct (IH _ So e t J E). split; auto. eapply ts_leb_trans; eauto.
  - intros So e t [<-|J] E; [congruence|eauto].
Qed.

Lemma sorted_times_ordered h : sorted_times ts_uninit h = true -> ordered none h.
Proof.
  intros So. apply ordered_check; auto.
  - assert (G : forall h last, sorted_times last h = true ->
      forall h1 e1 h2 e2 h3 t1 t2, h = h1 ++ e1 :: h2 ++ e2 :: h3 ->
      wtime e1 = Some t1 -> wtime e2 = Some t2 -> ts_leb t1 t2 = true).
    { clear. induction h as [|x h IH]; intros last; cbn [sorted_times];
        [intros _ h1 ? ? ? ? ? ? E; destruct h1; discriminate E|].
      intros So h1 e1 h2 e2 h3 t1 t2 E W1 W2. destruct h1 as [|y h1]; injection E as -> ->.
      - rewrite W1 in So. rewrite !andb_true_iff in So. destruct So as (_ & So).
        eapply (sorted_times_above _ _ So e2); auto. rewrite in_app_iff. right. left. auto.
      - destruct (wtime y); [rewrite !andb_true_iff in So; destruct So as (_ & So)|]; eauto. }
    eapply G; eauto.
  - intros e t I E. eapply sorted_times_above; eauto.
Qed.

(** `x = …` in cell 1, `x.a = …` in 2, `x.a.b = …` in 3, `x.a.b = …` again in 4. *)
Definition story : list event :=
  [Refresh H0 0 true false (tm 1); Refresh H0 1 true false (tm 2);
   Refresh H0 2 true false (tm 3); Refresh H0 2 true false (tm 4)].

Example C74_ex :
  exists S0, run none story = Ok S0 /\ ordered none story /\ plain story 0 /\
    (exists t, written story 0 t) /\ Forall known story /\
    part H0 0 2 /\ last_write story 2 (tm 4) /\
    for_version H0 S0 (fun _ => 1%Z) 0 (-1) = Ok [tm 1; tm 2; tm 2; tm 4; tm 4; tm 4].
Proof.
  eexists. split; [vm_compute; reflexivity|]. split; [now apply sorted_times_ordered|]. split.
  { intros e t I We. cbn in I.
    destruct I as [<-|[<-|[<-|[<-|[]]]]]; cbn in We; destruct We as (-> & [We|(We & _)]);
      try discriminate. eauto. }
  split. { exists (tm 1). eexists. split; [left; reflexivity|]. cbn. auto. }
  split.
  { assert (Fi : finite H0).
    { intros s Is. cbn in Is. destruct Is as [<-|[<-|[<-|[<-|[]]]]]; cbn; split;
        intros x; cbn; tauto. }
    repeat apply Forall_cons; try apply Forall_nil; cbn [known]; split; try exact Fi; cbn; tauto. }
  split. { apply reach_step with 1; [cbn; auto|]. apply reach_one. cbn. auto. }
  split; [|vm_compute; reflexivity].
  exists [Refresh H0 0 true false (tm 1); Refresh H0 1 true false (tm 2);
          Refresh H0 2 true false (tm 3)], (Refresh H0 2 true false (tm 4)), [].
  split; [reflexivity|]. split; [cbn; auto|]. intros e' t' [].
Qed.

(** What fails: `x` came into being before tracking and has no time of its own. Once `x.a` is written
    in cell 2, `code(x)` asks for cell 1, where `x` was first seen, and not for the write of `x.a`. *)
Theorem C74_refuted : exists born h S0 H s p t,
  run born h = Ok S0 /\ ordered born h /\ (forall q, plain h q) /\
  part H s p /\ last_write h p t /\
  exists l, for_version H S0 (fun _ => 1%Z) s (-1) = Ok l /\ ~ In t l.
Proof.
  exists none, [Refresh H0 1 true false (tm 2)]. eexists. exists H0, 0, 1, (tm 2).
  split; [vm_compute; reflexivity|]. split; [now apply sorted_times_ordered|].
  split.
  { intros q e t [<-|[]] We. cbn in We. destruct We as (-> & [->|(We & _)]); [|discriminate]. eauto. }
  split; [apply reach_one; cbn; auto|]. split.
  { exists [], (Refresh H0 1 true false (tm 2)), []. split; [reflexivity|]. split; [cbn; auto|].
    intros e' t' []. }
  eexists. split; [vm_compute; reflexivity|]. cbn. intros [E|[]]. discriminate E.
Qed.
Print Assumptions C74_refuted.

(** C75: the versions of a variable with nothing in it are its writes, in order: version [k] is the
    [k]-th time it was written (from the end, if negative), and there are no others. *)
Theorem C75_plain : forall born h S0 H s defined k,
  run born h = Ok S0 -> ordered born h -> plain h s -> alone h s -> ns_of H s = None ->
  (exists t, written h s t) ->
  (forall t, at_index (times h s) k t ->
     exists l, for_version H S0 defined s k = Ok l /\ forall x, In x l <-> x = t) /\
  ((forall t, ~ at_index (times h s) k t) -> for_version H S0 defined s k = Err IndexError).
Proof.
  intros born h S0 H s defined k R O P Al N (w & Ww). split.
  - intros t A. eapply plain_version; eauto.
  - intros No. unfold for_version. rewrite (snap_nonempty _ _ _ _ _ R O P Ww).
    rewrite (snap_times _ _ _ R O s P Al).
    destruct (py_index (times h s) k) as [t|e] eqn:E; cbn [rbind].
    + apply py_index_spec in E. now apply No in E.
    + now rewrite (py_index_err _ _ _ E).
Qed.
Print Assumptions C75_plain.

(** An older version of a variable with parts: it has the time [u] that the variable itself was last
    written at when the version came to be, and it asks for the last write of each part by [u]. *)
Theorem C75_parts_partial : forall born h S0 H s defined k l u,
  run born h = Ok S0 -> ordered born h -> (forall p, part H s p -> plain h p) ->
  k <> (-1)%Z -> at_index (snap S0 s) k u -> ts_is_initialized u = true ->
  for_version H S0 defined s k = Ok l ->
  (written h s u \/ u = born s) /\
  (forall p t, part H s p -> last_write_by h p u t -> In t l) /\
  (forall t, In t l -> exists p, part H s p /\ ts_leb t u = true /\
     (written h p t \/ t = born p) /\
     forall t', written h p t' -> ts_leb t' u = true -> ts_leb t' t = true).
Proof.
  intros born h S0 H s defined k l u R O P Nk A Iu.
  pose proof (at_index_In _ _ _ A) as Is.
  unfold for_version. destruct (is_nil (snap S0 s)) eqn:Ns.
  { apply is_nil_true in Ns. rewrite Ns in Is. destruct Is. }
  rewrite (proj2 (py_index_spec _ _ _) A). cbn [rbind]. rewrite (initialized_cell _ Iu).
  destruct (Z.eqb_spec k (-1)); [contradiction|]. rewrite rmap_Ok. intros (l0 & Ec & <-).
  destruct (collect_spec _ _ _ _ _ Ec) as (C1 & C2). split.
  { destruct (snap_facts _ _ _ R O s) as (I1 & _). destruct (I1 u Is); auto. }
  split.
  - intros p t Hp (Wt & Lt & Mt). pose proof (written_init _ _ _ _ O Wt) as It.
    apply filter_In. split; [|now apply initialized_neq]. apply C1.
    pose proof (snap_complete _ _ _ R O p (P p Hp) t Wt) as Ip.
    destruct (snap_facts _ _ _ R O p) as (I1 & SS).
    pose proof (find_last _ u SS) as Fl. exists p, [t]. split; auto. split; [|left; auto].
    cbn [own_stamps]. destruct (find _ _) as [t'|].
    + destruct Fl as (F1 & F2 & F3).
      assert (t' = t) as ->; [|now rewrite It].
      apply ts_leb_antisym; [|auto]. destruct (I1 t' F1) as [->|W']; [|auto].
      destruct O as (_ & _ & B & _). auto.
    + specialize (Fl t Ip). congruence.
  - intros t Ht. apply filter_In in Ht. destruct Ht as [Ht _]. apply C1 in Ht.
    destruct Ht as (p & lp & Hp & Ep & It). exists p. split; auto.
    destruct (snap_facts _ _ _ R O p) as (I1 & SS).
    pose proof (find_last _ u SS) as Fl. cbn [own_stamps] in Ep.
    destruct (find _ _) as [t'|]; [|injection Ep as <-; destruct It].
    destruct Fl as (F1 & F2 & F3). injection Ep as <-.
    destruct (ts_is_initialized t'); [|destruct It]. destruct It as [<-|[]].
    split; auto. split; [destruct (I1 t' F1); auto|].
    intros t'' W'' L''. apply F3; auto. eapply snap_complete; eauto.
Qed.
Print Assumptions C75_parts_partial.

(** A variable 2 that is written in cells 1, 2, 2 and 3. *)
Definition flat : heap :=
  {| syms := [2]; ns_of := fun _ => None; inside := fun _ => None; own_members := fun _ => [];
     inherited := fun _ => []; aliases := fun _ => []; is_class := fun _ => false;
     is_module := fun _ => false |}.
Definition diary : list event :=
  [Refresh flat 2 true false (tm 1); Refresh flat 2 true false (tm 2);
   Refresh flat 2 true false (tm 2); Refresh flat 2 true false (tm 3)].
Example C75_ex :
  exists S0, run none diary = Ok S0 /\ ordered none diary /\ plain diary 2 /\ alone diary 2 /\
    ns_of flat 2 = None /\ times diary 2 = [tm 1; tm 2; tm 3] /\
    at_index (times diary 2) (-2) (tm 2) /\
    for_version flat S0 (fun _ => 1%Z) 2 (-2) = Ok [tm 2].
Proof.
  eexists. split; [vm_compute; reflexivity|]. split; [now apply sorted_times_ordered|]. split.
  { intros e t I We. cbn in I.
    destruct I as [<-|[<-|[<-|[<-|[]]]]]; cbn in We; destruct We as (-> & _); eauto. }
  split.
  { intros H r d now I Re. cbn in I. destruct I as [I|[I|[I|[I|[]]]]]; congruence. }
  split; [reflexivity|]. split; [reflexivity|]. split; [|vm_compute; reflexivity].
  exists 1. split; [reflexivity|]. right. split; [lia|]. reflexivity.
Qed.

(** `x = …` in cell 1, `x.a = …` in 2, `x = …` in 3: version 0 of `x` is that of cell 1, and from
    version -2 (`x.a` written) on `x` itself counts as of cell 1. *)
Example C75_parts_ex :
  let h := [Refresh H0 0 true false (tm 1); Refresh H0 1 true false (tm 2);
            Refresh H0 0 true false (tm 3); Refresh H0 1 true false (tm 4)] in
  exists S0, run none h = Ok S0 /\ ordered none h /\ (forall p, plain h p) /\
    at_index (snap S0 0) 2 (tm 3) /\ last_write_by h 1 (tm 3) (tm 2) /\
    for_version H0 S0 (fun _ => 1%Z) 0 2 = Ok [tm 3; tm 2].
Proof.
  cbn zeta. eexists. split; [vm_compute; reflexivity|]. split; [now apply sorted_times_ordered|].
  split.
  { intros p e t I We. cbn in I.
    destruct I as [<-|[<-|[<-|[<-|[]]]]]; cbn in We; destruct We as (-> & [->|(We & _)]);
      try discriminate; eauto. }
  split. { exists 2. split; [reflexivity|]. left. reflexivity. }
  split; [|vm_compute; reflexivity].
  split. { eexists. split; [right; left; reflexivity|]. cbn. auto. }
  split; [reflexivity|]. intros t' (e & I & We) L. cbn in I.
  destruct I as [<-|[<-|[<-|[<-|[]]]]]; cbn in We; destruct We as (-> & [We|(We & _)]);
    try discriminate; auto.
Qed.

(** What fails: after `x = …` (cell 1), `x.a = …` (cell 2) and `x.a = …` (cell 3), the version before
    the last is the one with the first `x.a`; `code(x, version=-2)` leaves that write out. The times
    that versions came to be are recorded, but never looked at. *)
Theorem C75_refuted : exists h S0,
  h = [Refresh H0 0 true false (tm 1); Refresh H0 1 true false (tm 2);
       Refresh H0 1 true false (tm 3)] /\
  run none h = Ok S0 /\ ordered none h /\ (forall p, plain h p) /\
  length (snap S0 0) = length h /\
  for_version H0 S0 (fun _ => 1%Z) 0 (-2) = Ok [tm 1].
Proof.
  eexists. eexists. split; [reflexivity|]. split; [vm_compute; reflexivity|].
  split; [now apply sorted_times_ordered|]. split.
  { intros p e t I We. cbn in I.
    destruct I as [<-|[<-|[<-|[]]]]; cbn in We; destruct We as (-> & [->|(We & _)]);
      try discriminate; eauto. }
  split; vm_compute; reflexivity.
Qed.
Print Assumptions C75_refuted.

(** C76: a use at [at_], while the program runs, of [s] and of all that is in it is recorded to depend
    on the last write of each of these, if that is earlier than the use. *)
Theorem C76_dynamic_partial : forall born h S0 H visible ex at_ s S1,
  run born h = Ok S0 -> ordered born h -> use H visible false false ex at_ S0 s = Ok S1 ->
  (exists nw, deps S1 = deps S0 ++ nw /\
     (forall p u, asked H ex s p -> last_write h p u ->
        forall v, In (mk false at_ v p) nw <-> v = u /\ ts_ltb u at_ = true) /\
     (forall d, In d nw -> d_static d = false /\ d_used d = at_ /\ asked H ex s (d_sym d) /\
        shown born h H (d_sym d) (d_upd d) /\ ts_ltb (d_upd d) at_ = true)) /\
  (forall p u t, asked H ex s p -> last_write h p u -> ts_is_initialized at_ = true ->
     used S1 p t = if ts_ltb u at_ && ts_eqb t at_ then Some u else used S0 p t) /\
  (forall p t, ~ asked H ex s p -> used S1 p t = used S0 p t) /\ live S1 = live S0.
Proof.
  intros born h S0 H visible ex at_ s S1 R O E.
  destruct (use_split _ _ _ _ _ _ _ _ E) as (l & Hl & Er).
  destruct (use_many _ _ _ _ _ _ _ Er) as (_ & U1 & (nw & Ed & U2) & U3 & U4 & U5).
  assert (Key : forall p u lp, last_write h p u -> updates H S0 p = Ok lp ->
     (forall v, In (mk false at_ v p) (fst (use_loop visible false at_ p (sort_desc lp))) <->
                v = u /\ ts_ltb u at_ = true) /\
     (snd (use_loop visible false at_ p (sort_desc lp)) = ts_ltb u at_)).
  { intros p u lp Lu El. destruct (updates_written _ _ _ _ _ _ _ R Lu O El) as (_ & Q1 & Q2).
    assert (Iu : ts_is_initialized u = true).
    { eapply written_init; eauto. eapply last_write_written; eauto. }
    assert (Inu : In u lp) by (apply Q1; right; eapply last_write_written; eauto).
    destruct (loop_dynamic visible at_ p _ (sort_sorted lp)) as (D1 & D2). cbn zeta in *.
    assert (Top : forall v, (In v (sort_desc lp) /\ ts_is_initialized v = true /\
        (forall w, In w (sort_desc lp) -> ts_is_initialized w = true -> ts_leb w v = true) /\
        ts_ltb v at_ = true) <-> v = u /\ ts_ltb u at_ = true).
    { intros v. rewrite In_sort. split.
      - intros (Iv & Ii & Mx & Lt).
        assert (v = u) as -> by (apply ts_leb_antisym; [auto|apply Mx; [now apply In_sort|auto]]).
        auto.
      - intros (-> & Lt). split; [exact Inu|]. split; [exact Iu|]. split; [|exact Lt].
        intros w Iw _. apply (proj1 (In_sort w lp)) in Iw. auto. }
    split.
    - intros v. rewrite D1. split.
      + intros (w & T & Ew). injection Ew as <-. now apply Top.
      + intros T. exists v. split; auto. now apply Top.
    - destruct (ts_ltb u at_) eqn:Lt.
      + apply D2. exists u. now apply Top.
      + destruct (snd _) eqn:Sn; auto. destruct (proj1 D2 eq_refl) as (w & T).
        apply Top in T. destruct T. congruence. }
  split.
  - exists nw. split; auto. split.
    + intros p u As Lu v. rewrite U2. split.
      * intros (q & lp & Iq & El & J).
        destruct (loop_dynamic visible at_ q _ (sort_sorted lp)) as (D1 & _). cbn zeta in *.
        pose proof J as J0. apply D1 in J0. destruct J0 as (w & _ & Ew).
        assert (p = q) as <- by congruence.
        apply (proj1 (Key p u lp Lu El)) in J. exact J.
      * intros T. apply Hl in As. destruct (U1 p As) as (i & lp & _ & El).
        exists p, lp. split; auto. split; auto. apply (proj1 (Key p u lp Lu El)). exact T.
    + intros d Id. apply U2 in Id. destruct Id as (q & lp & Iq & El & J).
      destruct (loop_dynamic visible at_ q _ (sort_sorted lp)) as (D1 & _). cbn zeta in *.
      apply D1 in J. destruct J as (w & (T1 & T2 & T3 & T4) & ->). cbn.
      repeat apply conj; auto; [now apply Hl|].
      apply (proj1 (In_sort w lp)) in T1.
      assert (Sh : shallow H S0 q = Ok w).
      { refine (updates_unwritten _ _ _ _ _ _ R O El w T1 T2 _). intros v Iv. apply T3. now apply (proj2 (In_sort v lp)). }
      eapply init_shown; [exact R|exact Sh].
  - split; [|split].
    + intros p u t As Lu Ia. apply Hl in As. destruct (U1 p As) as (i & lp & Ei & El).
      specialize (U5 p t i lp As Ei El). cbn [dict_of] in U5. rewrite U5, Ia.
      rewrite (proj2 (Key p u lp Lu El)), andb_true_r.
      destruct (updates_written _ _ _ _ _ _ _ R Lu O El) as (Su & _).
      rewrite Su in Ei. now injection Ei as <-.
    + intros p t N. apply (U4 p t). now rewrite Hl.
    + exact U3.
Qed.
Print Assumptions C76_dynamic_partial.

(** A use that is found by looking at the code of a cell is recorded to depend on each write back to
    the last one that was made by a cell that is still in the notebook. *)
Theorem C76_static_partial : forall born h S0 H visible ex at_ s S1,
  run born h = Ok S0 -> ordered born h -> use H visible true false ex at_ S0 s = Ok S1 ->
  (exists nw, deps S1 = deps S0 ++ nw /\
     (forall p w, asked H ex s p -> last_write h p w ->
        forall u, In (mk true at_ u p) nw <->
          update born h p u /\
          forall v, update born h p v -> ts_ltb u v = true -> visible v = false) /\
     (forall d, In d nw -> d_static d = true /\ d_used d = at_ /\ asked H ex s (d_sym d) /\
        ts_is_initialized (d_upd d) = true)) /\
  (forall p w, asked H ex s p -> last_write h p w -> ts_is_initialized at_ = true ->
     (live S1 p at_ = Some w /\ exists v, update born h p v /\ visible v = true) \/
     (live S1 p at_ = live S0 p at_ /\ forall v, update born h p v -> visible v = false)) /\
  (forall p t, t <> at_ -> live S1 p t = live S0 p t) /\
  (forall p t, ~ asked H ex s p -> live S1 p t = live S0 p t) /\ used S1 = used S0.
Proof.
  intros born h S0 H visible ex at_ s S1 R O E.
  destruct (use_split _ _ _ _ _ _ _ _ E) as (l & Hl & Er).
  destruct (use_many _ _ _ _ _ _ _ Er) as (_ & U1 & (nw & Ed & U2) & U3 & U4 & U5).
  assert (Upd : forall p w lp, last_write h p w -> updates H S0 p = Ok lp -> forall v,
     In v (sort_desc lp) /\ ts_is_initialized v = true <-> update born h p v).
  { intros p w lp Lw El v. destruct (updates_written _ _ _ _ _ _ _ R Lw O El) as (_ & Q1 & _).
    rewrite In_sort, Q1. unfold update. tauto. }
  split.
  - exists nw. split; auto. split.
    + intros p w As Lw u. rewrite U2. split.
      * intros (q & lp & Iq & El & J).
        destruct (loop_static visible at_ q _ (sort_sorted lp)) as (D1 & _).
        apply D1 in J. destruct J as (x & Ix & Ii & Nv & Ex). injection Ex as <- <-.
        split; [apply (Upd p w lp Lw El); auto|].
        intros v Uv. apply (Upd p w lp Lw El) in Uv. destruct Uv. auto.
      * intros (Uu & Nv). apply Hl in As. destruct (U1 p As) as (i & lp & _ & El).
        exists p, lp. split; auto. split; auto.
        destruct (loop_static visible at_ p _ (sort_sorted lp)) as (D1 & _).
        apply D1. apply (Upd p w lp Lw El) in Uu. destruct Uu as (Iu & Ii).
        exists u. repeat apply conj; auto. intros v Iv Vi. apply Nv.
        apply (Upd p w lp Lw El); auto.
    + intros d Id. apply U2 in Id. destruct Id as (q & lp & Iq & El & J).
      destruct (loop_static visible at_ q _ (sort_sorted lp)) as (D1 & _).
      apply D1 in J. destruct J as (x & Ix & Ii & Nv & ->). cbn.
      repeat apply conj; auto. now apply Hl.
  - split; [|split; [|split]].
    + intros p w As Lw Ia. apply Hl in As. destruct (U1 p As) as (i & lp & Ei & El).
      specialize (U5 p at_ i lp As Ei El). cbn [dict_of] in U5. rewrite U5, Ia, andb_true_r.
      assert (ts_eqb at_ at_ = true) as -> by (now apply ts_eqb_eq).
      rewrite andb_true_r.
      destruct (updates_written _ _ _ _ _ _ _ R Lw O El) as (Su & _).
      rewrite Su in Ei. injection Ei as <-.
      destruct (loop_static visible at_ p _ (sort_sorted lp)) as (_ & D2).
      destruct (snd _) eqn:Sn.
      * left. split; auto. destruct (proj1 D2 eq_refl) as (v & Iv & Ii & Vv).
        exists v. split; auto. apply (Upd p w lp Lw El); auto.
      * right. split; auto. intros v Uv. apply (Upd p w lp Lw El) in Uv. destruct Uv as (Iv & Ii).
        destruct (visible v) eqn:Vv; auto.
        assert (false = true) by (apply D2; eauto). discriminate.
    + intros p t Nt. destruct (in_dec Nat.eq_dec p l) as [J|J]; [|now apply (U4 p t)].
      destruct (U1 p J) as (i & lp & Ei & El). specialize (U5 p t i lp J Ei El).
      cbn [dict_of] in U5. rewrite U5. destruct (ts_eqb t at_) eqn:Et.
      * apply ts_eqb_eq in Et. contradiction.
      * now rewrite andb_false_r.
    + intros p t N. apply (U4 p t). now rewrite Hl.
    + exact U3.
Qed.
Print Assumptions C76_static_partial.

(** A use that is marked as blocking leaves everything as it is, and no use changes a version. *)
Theorem C76_blocked : forall H visible static ex at_ S0 s S1,
  use H visible static true ex at_ S0 s = Ok S1 -> S1 = S0.
Proof. intros H visible static ex at_ S0 s S1 E. eapply use_blocked; eauto. Qed.
Print Assumptions C76_blocked.

Theorem C76_reads_only : forall H visible static blocking ex at_ S0 s S1,
  use H visible static blocking ex at_ S0 s = Ok S1 ->
  forall H' defined r k,
    for_version H' S1 defined r k = for_version H' S0 defined r k /\
    own S1 r = own S0 r /\ upd S1 r = upd S0 r.
Proof.
  intros H visible static blocking ex at_ S0 s S1 E H' defined r k. apply use_same in E.
  split; [now apply version_same|]. destruct E as (-> & -> & _). auto.
Qed.
Print Assumptions C76_reads_only.

(** After the writes of [story] the variable is used in cell 5, and in cell 4 itself. *)
Example C76_ex :
  exists S0 S1, run none story = Ok S0 /\ ordered none story /\
    use H0 (fun _ => true) false false false (tm 5) S0 0 = Ok S1 /\
    deps S1 = [mk false (tm 5) (tm 1) 0; mk false (tm 5) (tm 2) 1; mk false (tm 5) (tm 4) 2] /\
    used S1 2 (tm 5) = Some (tm 4).
Proof.
  eexists. eexists. split; [vm_compute; reflexivity|]. split; [now apply sorted_times_ordered|].
  split; [vm_compute; reflexivity|]. split; vm_compute; reflexivity.
Qed.

Example C76_now_ex :
  exists S0 S1, run none story = Ok S0 /\
    use H0 (fun _ => true) false false false (tm 4) S0 0 = Ok S1 /\
    deps S1 = [mk false (tm 4) (tm 1) 0; mk false (tm 4) (tm 2) 1].
Proof.
  eexists. eexists. split; [vm_compute; reflexivity|].
  split; [vm_compute; reflexivity|]. vm_compute; reflexivity.
Qed.

(** Cell 3 of [diary] is no longer in the notebook: a static use depends on cells 3 and 2. What
    fails: the version noted for the use is that of cell 3, which the user cannot see. *)
Theorem C76_refuted : exists S0 S1 visible,
  run none diary = Ok S0 /\ ordered none diary /\
  use flat visible true false false (tm 5) S0 2 = Ok S1 /\
  deps S1 = [mk true (tm 5) (tm 3) 2; mk true (tm 5) (tm 2) 2] /\
  visible (tm 2) = true /\ visible (tm 3) = false /\
  live S1 2 (tm 5) = Some (tm 3).
Proof.
  eexists. eexists. exists (fun t => negb (cell_num t =? 3)%Z).
  split; [vm_compute; reflexivity|]. split; [now apply sorted_times_ordered|].
  split; [vm_compute; reflexivity|]. repeat apply conj; vm_compute; reflexivity.
Qed.
Print Assumptions C76_refuted.
