From Coq Require Import List Arith Bool Lia.
From Verif Require Import Base Loops SkipModel SkipSpec.
Import ListNotations.

(** The invariant within a cell; [pend]: assigned without tracing in this
    statement. *)
Record inv (now : nat) (s0 : st) (pend : list nat) (s : st) : Prop := mkInv {
  i_wf : dwf (syms s);
  i_bound : forall x y, dget (syms s) x = Some y -> env s x <> None;
  i_sync : forall x y, dget (syms s) x = Some y ->
             env s x = Some (obj y) \/ ts y = now \/ In x pend;
  i_upd : forall x y, In x (upd s) -> dget (syms s) x = Some y -> ts y = now;
  i_old : forall x y, dget (syms s) x = Some y -> ts y = now \/ env s0 x = Some (obj y);
  i_new : forall x, env s x <> None -> env s x <> env s0 x ->
             (exists y, dget (syms s) x = Some y /\ ts y = now) \/ In x pend;
  i_off : pend <> [] -> off s = true
}.

Lemma inv_start : forall now s, at_rest s -> inv now s [] s.
Proof.
  intros now s (Y & W & U & O). constructor; auto.
  - intros x y G. rewrite (Y x y G). discriminate.
  - intros x y I. rewrite U in I. destruct I.
  - intros x _ N. contradiction.
Qed.

Definition pends (e : event) (pend : list nat) : list nat :=
  match e with Assign false x _ => x :: pend | _ => pend end.

Definition no_del (e : event) : Prop := match e with Del false _ => False | _ => True end.

Lemma inv_step : forall now s0 pend s e, no_del e ->
  inv now s0 pend s -> inv now s0 (pends e pend) (step now s e).
Proof.
  intros now s0 pend s e ND [W B Y U O N F]. destruct e as [[|] x o|[|] x|c l|x|c o|]; cbn [step pends].
  - constructor; cbn [with_upd upsert with_syms with_env syms env upd off len items].
    + now apply dwf_dset.
    + intros z y. rewrite dget_dset. destruct (z =? x); [discriminate|apply B].
    + intros z y. rewrite dget_dset. destruct (z =? x) eqn:E; [|apply Y].
      intros G. injection G as <-. cbn. auto.
    + intros z y I. rewrite dget_dset. destruct (Nat.eqb_spec z x) as [ -> |NE].
      * intros G. injection G as <-. reflexivity.
      * destruct I as [E|I]; [congruence|]. now apply U.
    + intros z y. rewrite dget_dset. destruct (z =? x) eqn:E; [|apply O].
      intros G. injection G as <-. cbn. auto.
    + intros z. rewrite dget_dset. destruct (z =? x) eqn:E; [|apply N].
      intros _ _. left. eexists. split; reflexivity.
    + exact F.
  - constructor; cbn [with_off with_env syms env upd off items]; auto.
    + intros z y G. destruct (z =? x); [discriminate|eauto].
    + intros z y G. destruct (Nat.eqb_spec z x) as [ -> |NE]; [right; right; now left|].
      destruct (Y z y G) as [H|[H|H]]; auto. right. right. now right.
    + intros z. destruct (Nat.eqb_spec z x) as [ -> |NE]; [right; now left|].
      intros A C. destruct (N z A C) as [H|H]; auto. right. now right.
  - assert (D : forall z y, dget (ddel (syms s) x) z = Some y -> z <> x /\ dget (syms s) z = Some y).
    { intros z y. rewrite dget_ddel by auto. destruct (Nat.eqb_spec z x) as [ -> |NE]; [discriminate|auto]. }
    constructor; cbn [with_syms with_env syms env upd off items].
    + now apply dwf_ddel.
    + intros z y G. destruct (D z y G) as (NE & G'). apply Nat.eqb_neq in NE. rewrite NE. eauto.
    + intros z y G. destruct (D z y G) as (NE & G'). apply Nat.eqb_neq in NE. rewrite NE. auto.
    + intros z y I G. destruct (D z y G) as (NE & G'). eauto.
    + intros z y G. destruct (D z y G) as (NE & G'). auto.
    + intros z. destruct (Nat.eqb_spec z x) as [ -> |NE]; [contradiction|].
      intros A C. destruct (N z A C) as [(y & G & T)|H]; auto. left. exists y. split; auto.
      rewrite dget_ddel by auto. apply Nat.eqb_neq in NE. now rewrite NE.
    + exact F.
  - destruct ND.
  - constructor; auto.
  - destruct (dget (syms s) x) as [y0|] eqn:G0; [|now constructor].
    constructor; cbn [with_upd with_syms syms env upd off items].
    + now apply dwf_dset.
    + intros z y. rewrite dget_dset. destruct (Nat.eqb_spec z x) as [ -> |NE]; [intros _; eauto|apply B].
    + intros z y. rewrite dget_dset. destruct (z =? x) eqn:E; [|apply Y].
      intros G. injection G as <-. cbn. auto.
    + intros z y I. rewrite dget_dset. destruct (Nat.eqb_spec z x) as [ -> |NE].
      * intros G. injection G as <-. reflexivity.
      * destruct I as [E|I]; [congruence|]. now apply U.
    + intros z y. rewrite dget_dset. destruct (z =? x) eqn:E; [|apply O].
      intros G. injection G as <-. cbn. auto.
    + intros z. rewrite dget_dset. destruct (z =? x) eqn:E; [|apply N].
      intros _ _. left. eexists. split; reflexivity.
    + exact F.
  - constructor; auto.
  - constructor; auto. intros x y I. destruct I.
Qed.

(** What [resync] does. *)
Lemma resync_spec : forall now r s x s', resync now r s x = Ok s' ->
  env s' = env s /\ items s' = items s /\ upd s' = upd s /\ off s' = off s /\
  (dwf (syms s) -> dwf (syms s')) /\
  (forall z, z <> x -> dget (syms s') z = dget (syms s) z) /\
  match dget (syms s) x, env s x with
  | Some y, Some o =>
      exists y', dget (syms s') x = Some y' /\ obj y' = o /\
        (y' = y \/ ts y' = if r then now else ts y) /\
        (obj y = o -> clen y = len s o -> y' = y) /\
        (obj y <> o \/ clen y <> len s o -> ts y' = if r then now else ts y)
  | g, _ => dget (syms s') x = g
  end.
Proof.
  intros now r s x s'. unfold resync.
  destruct (dget (syms s) x) as [y|] eqn:G; [|intros E; injection E as <-; repeat split; auto].
  destruct (env s x) as [o|] eqn:V; [|intros E; injection E as <-; repeat split; auto].
  destruct (Nat.eqb_spec (obj y) o) as [EO|NO].
  - assert (L : forall b, b = (match len s o, clen y with
                 | Some a, Some b => a =? b | None, None => true | _, _ => false end) ->
                 if b then clen y = len s o else clen y <> len s o).
    { intros b ->. destruct (len s o) as [a|], (clen y) as [c|]; try discriminate; auto.
      destruct (Nat.eqb_spec a c); congruence. }
    specialize (L _ eq_refl).
    destruct (match len s o, clen y with
                 | Some a, Some b => a =? b | None, None => true | _, _ => false end).
    + intros E. injection E as <-. repeat split; auto. exists y. rewrite G. repeat split; auto.
      intros [H|H]; congruence.
    + intros E. injection E as <-. cbn [with_syms syms env items upd off].
      repeat split; auto using dwf_dset.
      * intros z NE. rewrite dget_dset. apply Nat.eqb_neq in NE. now rewrite NE.
      * exists (mkSym o (len s o) (if r then now else ts y)). rewrite dget_dset, Nat.eqb_refl.
        cbn. repeat split; auto. intros _ H. congruence.
  - intros E. apply rbind_Ok in E. destruct E as (es & _ & E). injection E as <-.
    cbn [with_syms with_elems syms env items upd off]. repeat split; auto using dwf_dset.
    + intros z NE. rewrite dget_dset. apply Nat.eqb_neq in NE. now rewrite NE.
    + exists (mkSym o (len s o) (if r then now else ts y)). rewrite dget_dset, Nat.eqb_refl.
      cbn. repeat split; auto. intros H. congruence.
Qed.

Lemma inv_resync : forall now r s0 pend s x s',
  (r = true \/ forall y, dget (syms s) x = Some y -> ts y = now) ->
  resync now r s x = Ok s' -> inv now s0 pend s -> inv now s0 pend s' /\
  (forall y, dget (syms s') x = Some y -> env s' x = Some (obj y) /\ (env s' x <> env s0 x -> ts y = now)) /\
  (forall z y, dget (syms s) z = Some y -> ts y = now -> exists y', dget (syms s') z = Some y' /\ ts y' = now) /\
  (forall z, z <> x -> dget (syms s') z = dget (syms s) z) /\
  (dget (syms s') x = None <-> dget (syms s) x = None).
Proof.
  intros now r s0 pend s x s' R E [W B Y U O N F].
  destruct (resync_spec now r s x s' E) as (EV & EI & EU & EF & WF & OT & X).
  destruct (dget (syms s) x) as [y|] eqn:G.
  - destruct (env s x) as [o|] eqn:V; [|exfalso; now apply (B x y G)].
    destruct X as (y' & G' & EO & T & SA & _).
    assert (T' : (ts y' = now \/ y' = y) /\ (ts y = now -> ts y' = now)).
    { destruct R as [ -> |R]; [destruct T as [ -> |T]; auto|].
      pose proof (R y eq_refl) as TY. destruct r; destruct T as [ -> |T]; auto; split; intros; try left; congruence. }
    destruct T' as (T1 & T2).
    assert (AG : forall z q, dget (syms s') z = Some q -> z = x /\ q = y' \/ z <> x /\ dget (syms s) z = Some q).
    { intros z q Q. destruct (Nat.eq_dec z x) as [ -> |NE]; [left; split; congruence|right; split; auto]. now rewrite <- (OT z NE). }
    split; [|split; [|split; [|split]]].
    + constructor; rewrite ?EV, ?EU, ?EF; auto.
      * intros z q Q. destruct (AG z q Q) as [( -> & -> )|(NE & Q')]; [congruence|eauto].
      * intros z q Q. destruct (AG z q Q) as [( -> & -> )|(NE & Q')]; [left; congruence|eauto].
      * intros z q I Q. destruct (AG z q Q) as [( -> & -> )|(NE & Q')]; [|eauto]. apply T2. eauto.
      * intros z q Q. destruct (AG z q Q) as [( -> & -> )|(NE & Q')]; [|eauto].
        destruct T1 as [H| -> ]; auto.
      * intros z A C. destruct (N z A C) as [(q & Q & TQ)|H]; auto. left.
        destruct (Nat.eq_dec z x) as [ -> |NE]; [|exists q; rewrite (OT z NE); auto].
        exists y'. split; auto. apply T2. congruence.
    + intros q Q. rewrite EV. assert (q = y') by congruence. subst q. split; [congruence|].
      intros C. destruct T1 as [H| -> ]; auto. destruct (O x y G) as [H|H]; auto. congruence.
    + intros z q Q TQ. destruct (Nat.eq_dec z x) as [ -> |NE]; [|exists q; rewrite (OT z NE); auto].
      exists y'. split; auto. apply T2. congruence.
    + exact OT.
    + rewrite G'. split; discriminate.
  - assert (D : forall z, dget (syms s') z = dget (syms s) z).
    { intros z. destruct (Nat.eq_dec z x) as [ -> |NE]; auto. rewrite G. destruct (env s x); exact X. }
    split; [|split; [|split; [|split]]].
    + constructor; rewrite ?EV, ?EU, ?EF; auto; setoid_rewrite D; auto.
    + intros q Q. rewrite D, G in Q. discriminate.
    + intros z q Q TQ. exists q. now rewrite D.
    + auto.
    + rewrite D, G. tauto.
Qed.

Definition ok (now : nat) (s0 : st) (l : list nat) (s : st) : Prop :=
  forall x y, In x l -> dget (syms s) x = Some y ->
    (env s x = Some (obj y) \/ ts y = now) /\ (env s x <> env s0 x -> ts y = now).

Lemma resync_env : forall now r s x s', resync now r s x = Ok s' -> env s' = env s.
Proof. intros now r s x s' E. apply (resync_spec now r s x s' E). Qed.

Lemma catch_fold : forall now s0 pend l dn s s',
  rfold (fun s x => if memb x (upd s) then Ok s else resync now true s x) l s = Ok s' ->
  inv now s0 pend s -> ok now s0 dn s ->
  inv now s0 pend s' /\ ok now s0 (dn ++ l) s'.
Proof.
  intros now s0 pend l. induction l as [|x l IH]; intros dn s s' E I K.
  - injection E as <-. rewrite app_nil_r. auto.
  - cbn [rfold] in E. apply rbind_Ok in E. destruct E as (s1 & E1 & E).
    replace (dn ++ x :: l) with ((dn ++ [x]) ++ l) by (rewrite <- app_assoc; reflexivity).
    destruct (memb x (upd s)) eqn:M.
    + injection E1 as <-. apply (IH _ s); auto. intros z y IN G. apply in_app_or in IN.
      destruct IN as [IN|[ <- |[]]]; [auto|]. apply memb_In in M.
      pose proof (i_upd _ _ _ _ I x y M G). auto.
    + destruct (inv_resync now true s0 pend s x s1 (or_introl eq_refl) E1 I) as (I1 & X & _ & OT & _).
      apply (IH _ s1); auto. intros z y IN G.
      destruct (Nat.eq_dec z x) as [ -> |NE].
      * destruct (X y G) as (A & C). auto.
      * apply in_app_or in IN. destruct IN as [IN|[H|[]]]; [|congruence].
        rewrite (OT z NE) in G. rewrite (resync_env _ _ _ _ _ E1). auto.
Qed.

Lemma make_fold : forall now s0 pend l names dn s,
  inv now s0 pend s -> ok now s0 names s ->
  (forall x, In x dn -> env s x <> None -> dget (syms s) x <> None) ->
  forall s', s' = fold_left (fun s x =>
        match dget (syms s) x, env s x with
        | None, Some o => upsert now s x o
        | _, _ => s
        end) l s ->
  inv now s0 pend s' /\ ok now s0 names s' /\
  (forall x, In x (dn ++ l) -> env s' x <> None -> dget (syms s') x <> None).
Proof.
  intros now s0 pend l. induction l as [|x l IH]; intros names dn s I K D s' ->.
  - rewrite app_nil_r. auto.
  - replace (dn ++ x :: l) with ((dn ++ [x]) ++ l) by (rewrite <- app_assoc; reflexivity).
    cbn [fold_left].
    assert (SAME : (env s x <> None -> dget (syms s) x <> None) ->
       forall z, In z (dn ++ [x]) -> env s z <> None -> dget (syms s) z <> None).
    { intros H z IN. apply in_app_or in IN. destruct IN as [IN|[ <- |[]]]; auto. }
    destruct (dget (syms s) x) as [y|] eqn:G.
    { apply (IH names (dn ++ [x]) s); auto. apply SAME. discriminate. }
    destruct (env s x) as [o|] eqn:V.
    2: { apply (IH names (dn ++ [x]) s); auto. }
    apply (IH names (dn ++ [x]) (upsert now s x o)); auto.
    + destruct I as [W B Y U O N F].
      constructor; cbn [upsert with_syms syms env upd off].
      * now apply dwf_dset.
      * intros z q. rewrite dget_dset. destruct (Nat.eqb_spec z x) as [ -> |NE]; [congruence|apply B].
      * intros z q. rewrite dget_dset. destruct (z =? x); [|apply Y]. intros Q. injection Q as <-. cbn. auto.
      * intros z q IN. rewrite dget_dset. destruct (z =? x); [|now apply U]. intros Q. now injection Q as <-.
      * intros z q. rewrite dget_dset. destruct (z =? x); [|apply O]. intros Q. injection Q as <-. cbn. auto.
      * intros z. rewrite dget_dset. destruct (z =? x); [|apply N]. intros _ _. left. eexists. split; reflexivity.
      * exact F.
    + intros z q IN. cbn [upsert with_syms syms env]. rewrite dget_dset. destruct (z =? x).
      * intros Q. injection Q as <-. cbn. auto.
      * now apply K.
    + intros z IN. cbn [upsert with_syms syms env]. rewrite dget_dset. destruct (Nat.eqb_spec z x) as [ -> |NE]; [discriminate|].
      apply in_app_or in IN. destruct IN as [IN|[H|[]]]; [auto|congruence].
Qed.

Lemma inv_catch : forall now s0 pend live dead s s',
  (forall x, In x pend -> In x dead) ->
  catch_up now live dead s = Ok s' -> inv now s0 pend s -> inv now s0 [] s'.
Proof.
  intros now s0 pend live dead s s' P E I. unfold catch_up in E. apply rbind_Ok in E.
  destruct E as (s1 & E1 & E). injection E as E. symmetry in E.
  destruct (catch_fold now s0 pend (live ++ dead) [] s s1 E1 I) as (I1 & K1); [intros x y []|].
  cbn [app] in K1.
  destruct (make_fold now s0 pend dead (live ++ dead) [] s1 I1 K1) with (s' := s') as (I2 & K2 & D); [intros x []|auto|].
  cbn [app] in D. destruct I2 as [W B Y U O N F]. constructor; auto.
  - intros x y G. destruct (Y x y G) as [H|[H|H]]; auto.
    destruct (K2 x y (in_or_app _ _ _ (or_intror (P x H))) G) as ([A|A] & _); auto.
  - intros x A C. destruct (N x A C) as [H|H]; auto. left.
    destruct (dget (syms s') x) as [y|] eqn:G; [|exfalso; now apply (D x (P x H) A)].
    exists y. split; auto. now apply (K2 x y (in_or_app _ _ _ (or_intror (P x H))) G).
Qed.

Lemma inv_events : forall now s0 names es pend s,
  (forall x, In x pend -> In x names) -> Forall (visible names) es -> inv now s0 pend s ->
  exists pend', (forall x, In x pend' -> In x names) /\ inv now s0 pend' (fold_left (step now) es s).
Proof.
  intros now s0 names es. induction es as [|e es IH]; intros pend s P V I; [exists pend; auto|].
  inversion V as [|? ? V1 V2]; subst. cbn [fold_left].
  apply (IH (pends e pend)); auto.
  - intros x. destruct e as [[|] z o| | | | |]; cbn in *; auto. intros [ <- |IN]; auto.
  - apply inv_step; auto. destruct e as [|[|] z| | | |]; cbn in *; auto.
Qed.

Lemma inv_off : forall now s0 s, inv now s0 [] s -> inv now s0 [] (with_off s false).
Proof. intros now s0 s [W B Y U O N F]. constructor; auto. Qed.

Lemma inv_stmt : forall now s0 s t s', textual t ->
  run_stmt now s t = Ok s' -> inv now s0 [] s -> inv now s0 [] s'.
Proof.
  intros now s0 s t s' T E I. unfold run_stmt in E. cbv zeta in E. apply rmap_Ok in E.
  destruct E as (s1 & E & <-). apply inv_off.
  destruct (inv_events now s0 (dead t) (happens t) [] s) as (pend & P & I1); [intros x []|exact T|exact I|].
  destruct (off (fold_left (step now) (happens t) s)) eqn:F.
  - exact (inv_catch now s0 pend _ _ _ _ P E I1).
  - injection E as <-. destruct pend as [|x pend]; [exact I1|].
    exfalso. assert (H := i_off _ _ _ _ I1). rewrite F in H. discriminate H. discriminate.
Qed.

Lemma inv_stmts : forall now s0 l s s', Forall textual l ->
  rfold (run_stmt now) l s = Ok s' -> inv now s0 [] s -> inv now s0 [] s'.
Proof.
  intros now s0 l. induction l as [|t l IH]; intros s s' T E I.
  - injection E as <-. exact I.
  - cbn [rfold] in E. apply rbind_Ok in E. destruct E as (s1 & E1 & E).
    inversion T; subst. apply (IH s1); auto. exact (inv_stmt now s0 s t s1 ltac:(auto) E1 I).
Qed.

Lemma inv_rest : forall now s0 es s, Forall seen es -> inv now s0 [] s ->
  inv now s0 [] (fold_left (step now) es s).
Proof.
  intros now s0 es s V I.
  destruct (inv_events now s0 [] es [] s) as (pend & P & I1); auto.
  - eapply Forall_impl; [|exact V]. intros e H. destruct e as [[|] z o|[|] z| | | |]; cbn in *; auto; discriminate.
  - destruct pend as [|x pend]; [exact I1|]. destruct (P x). now left.
Qed.

(** The end of the cell. *)
Lemma finish_fold : forall now s0 l dn s s',
  rfold (resync now false) l s = Ok s' -> inv now s0 [] s ->
  (forall x y, In x l -> dget (syms s) x = Some y -> ts y = now) ->
  (forall x y, In x dn -> dget (syms s) x = Some y -> env s x = Some (obj y)) ->
  inv now s0 [] s' /\
  (forall x y, In x (dn ++ l) -> dget (syms s') x = Some y -> env s' x = Some (obj y)) /\
  (forall x, ~ In x l -> dget (syms s') x = dget (syms s) x).
Proof.
  intros now s0 l. induction l as [|x l IH]; intros dn s s' E I L D.
  - injection E as <-. rewrite app_nil_r. auto.
  - cbn [rfold] in E. apply rbind_Ok in E. destruct E as (s1 & E1 & E).
    destruct (inv_resync now false s0 [] s x s1) as (I1 & X & T & OT & _); auto.
    { right. intros y. apply L. now left. }
    replace (dn ++ x :: l) with ((dn ++ [x]) ++ l) by (rewrite <- app_assoc; reflexivity).
    destruct (IH (dn ++ [x]) s1 s' E I1) as (I2 & D2 & O2).
    + intros z y IN G. destruct (dget (syms s) z) as [q|] eqn:GZ.
      * destruct (T z q GZ) as (q' & Q & TQ); [apply (L z q); [now right|auto]|]. congruence.
      * destruct (Nat.eq_dec z x) as [ -> |NE]; [|rewrite (OT z NE), GZ in G; discriminate].
        destruct (resync_spec now false s x s1 E1) as (_ & _ & _ & _ & _ & _ & H). rewrite GZ in H.
        destruct (env s x); congruence.
    + intros z y IN G. destruct (Nat.eq_dec z x) as [ -> |NE]; [now apply X|].
      apply in_app_or in IN. destruct IN as [IN|[H|[]]]; [|congruence].
      rewrite (OT z NE) in G. rewrite (resync_env _ _ _ _ _ E1). auto.
    + split; [auto|]. split; [auto|]. intros z NI. rewrite O2 by (intros H; apply NI; now right).
      apply OT. intros ->. apply NI. now left.
Qed.

Lemma finish_list : forall now (d : dict sym) x,
  dwf d -> (In x (map fst (filter (fun kv => ts (snd kv) =? now) d)) <->
    exists y, dget d x = Some y /\ ts y = now).
Proof.
  intros now d x W. rewrite in_map_iff. split.
  - intros ([k y] & <- & H). apply filter_In in H. destruct H as (I & T). cbn in *.
    exists y. split; [now apply In_dget|now apply Nat.eqb_eq].
  - intros (y & G & T). exists (x, y). split; auto. apply filter_In. split; [now apply dget_In|].
    cbn. now apply Nat.eqb_eq.
Qed.

Lemma inv_finish : forall now s0 s s', finish now s = Ok s' -> inv now s0 [] s ->
  inv now s0 [] s' /\ in_sync s'.
Proof.
  intros now s0 s s' E I. unfold finish in E.
  pose proof (finish_list now (syms s)) as FL.
  destruct (finish_fold now s0 _ [] s s' E I) as (I1 & D & O).
  - intros x y IN G. apply FL in IN; [|apply (i_wf _ _ _ _ I)]. destruct IN as (q & Q & T). congruence.
  - intros x y [].
  - split; auto. intros x y G. cbn [app] in D.
    destruct (in_dec Nat.eq_dec x (map fst (filter (fun kv => ts (snd kv) =? now) (syms s)))) as [IN|NI]; [now apply D|].
    destruct (i_sync _ _ _ _ I1 x y G) as [H|[H|[]]]; auto.
    exfalso. apply NI. apply FL; [apply (i_wf _ _ _ _ I)|]. exists y. rewrite <- (O x NI). auto.
Qed.

Lemma cell_inv : forall now l rest s s', at_rest s -> Forall textual l -> Forall seen rest ->
  run_cell now l rest s = Ok s' -> inv now s [] s' /\ in_sync s'.
Proof.
  intros now l rest s s' A T R E. unfold run_cell in E. apply rbind_Ok in E. destruct E as (s1 & E1 & E).
  apply (inv_finish now s _ s' E). apply inv_rest; auto.
  apply (inv_stmts now s l s s1 T E1). now apply inv_start.
Qed.

(** A variable to which nothing happens. *)
Definition still (x : nat) (y : sym) (s : st) : Prop :=
  dget (syms s) x = Some y /\ env s x = Some (obj y) /\ len s (obj y) = clen y /\ dwf (syms s).

Lemma still_step : forall now x y s e, spares x (obj y) e -> still x y s -> still x y (step now s e).
Proof.
  intros now x y s e P (G & V & L & W). unfold still, len in *.
  destruct e as [[|] z o|[|] z|c l|z|c o|]; cbn [step spares] in *;
    cbn [with_upd upsert with_syms with_env with_off with_items with_elems syms env items len].
  - repeat split; auto using dwf_dset; [rewrite dget_dset|]; destruct (Nat.eqb_spec x z); try congruence.
  - repeat split; auto. destruct (Nat.eqb_spec x z); congruence.
  - repeat split; auto using dwf_ddel; [rewrite dget_ddel by auto|]; destruct (Nat.eqb_spec x z); try congruence.
  - repeat split; auto. destruct (Nat.eqb_spec x z); congruence.
  - repeat split; auto. destruct (Nat.eqb_spec (obj y) c); congruence.
  - destruct (dget (syms s) z); cbn [with_upd with_syms syms env items]; repeat split; auto using dwf_dset.
    rewrite dget_dset. destruct (Nat.eqb_spec x z); congruence.
  - repeat split; auto.
  - repeat split; auto.
Qed.

Lemma still_steps : forall now x y es s, Forall (spares x (obj y)) es -> still x y s ->
  still x y (fold_left (step now) es s).
Proof.
  intros now x y es. induction es as [|e es IH]; intros s P S; [exact S|].
  inversion P; subst. apply IH; auto. now apply still_step.
Qed.

Lemma still_resync : forall now r x y s z s', resync now r s z = Ok s' -> still x y s -> still x y s'.
Proof.
  intros now r x y s z s' E (G & V & L & W).
  destruct (resync_spec now r s z s' E) as (EV & EI & _ & _ & WF & OT & X).
  unfold still, len. rewrite EV, EI. repeat split; auto.
  destruct (Nat.eq_dec x z) as [ <- |NE]; [|now rewrite OT].
  rewrite G, V in X. destruct X as (y' & G' & _ & _ & SA & _). rewrite G'. f_equal. now apply SA.
Qed.

Lemma still_rfold : forall x y (f : st -> nat -> res st) l s s',
  (forall s z s', f s z = Ok s' -> still x y s -> still x y s') ->
  rfold f l s = Ok s' -> still x y s -> still x y s'.
Proof.
  intros x y f l. induction l as [|z l IH]; intros s s' H E S; [injection E as <-; auto|].
  cbn [rfold] in E. apply rbind_Ok in E. destruct E as (s1 & E1 & E). eauto.
Qed.

Lemma still_stmt : forall now x y s t s', Forall (spares x (obj y)) (happens t) ->
  run_stmt now s t = Ok s' -> still x y s -> still x y s'.
Proof.
  intros now x y s t s' P E S. unfold run_stmt in E. cbv zeta in E. apply rmap_Ok in E.
  destruct E as (s1 & E & <-).
  assert (S1 : still x y s1); [|destruct S1 as (A & B & C & D); repeat split; auto].
  pose proof (still_steps now x y (happens t) s P S) as S0.
  destruct (off _); [|injection E as <-; auto].
  unfold catch_up in E. apply rbind_Ok in E. destruct E as (s2 & E2 & E). injection E as <-.
  assert (S2 : still x y s2).
  { refine (still_rfold x y _ _ _ _ _ E2 S0). intros q z q' H. destruct (memb z (upd q)); [injection H as <-; auto|].
    now apply (still_resync now true x y q z q'). }
  clear E2. revert s2 S2. induction (dead t) as [|z l IH]; intros s2 S2; [exact S2|].
  cbn [fold_left]. apply IH. destruct (dget (syms s2) z) eqn:G; auto. destruct (env s2 z) eqn:V; auto.
  destruct S2 as (A & B & C & D). unfold still. cbn [upsert with_syms syms env len items].
  repeat split; auto using dwf_dset. rewrite dget_dset. destruct (Nat.eqb_spec x z); congruence.
Qed.

Lemma still_cell : forall now x y l rest s s',
  Forall (spares x (obj y)) (events l rest) ->
  run_cell now l rest s = Ok s' -> still x y s -> still x y s'.
Proof.
  intros now x y l rest s s' P E S. unfold run_cell in E. apply rbind_Ok in E. destruct E as (s1 & E1 & E).
  unfold events in P. apply Forall_app in P. destruct P as (P1 & P2).
  assert (S1 : still x y s1).
  { clear E P2 rest. revert s S E1. induction l as [|t l IH]; intros s S E1; [injection E1 as <-; auto|].
    cbn [rfold] in E1. apply rbind_Ok in E1. destruct E1 as (s2 & E2 & E1).
    cbn [flat_map] in P1. apply Forall_app in P1. destruct P1 as (Pa & Pb).
    apply (IH Pb s2); auto. exact (still_stmt now x y s t s2 Pa E2 S). }
  unfold finish in E. refine (still_rfold x y _ _ _ _ _ E (still_steps now x y rest s1 P2 S1)).
  intros q z q' H. now apply (still_resync now false x y q z q').
Qed.

(** Nothing raises if no list is empty. *)
Definition full (s : st) : Prop := forall c, items s c <> Some [].

Lemma move_full : forall s old new es, full s -> exists es', move s old new es = Ok es'.
Proof.
  intros s old new es F. induction es as [|[c o] es (es' & IH)]; [eexists; reflexivity|].
  cbn [move]. pose proof (F c) as FC. destruct (o =? old).
  - destruct (items s c) as [[|i l]|] eqn:I; [congruence| |].
    + destruct (last (i :: l) 0 =? new); cbn [rbind]; rewrite IH; eexists; reflexivity.
    + cbn [rbind]. rewrite IH. eexists; reflexivity.
  - cbn [rbind]. rewrite IH. eexists; reflexivity.
Qed.

Lemma resync_full : forall now r s x, full s -> exists s', resync now r s x = Ok s' /\ full s'.
Proof.
  intros now r s x F.
  assert (H : exists s', resync now r s x = Ok s').
  { unfold resync. destruct (dget (syms s) x) as [y|]; [|eauto]. destruct (env s x) as [o|]; [|eauto].
    destruct (obj y =? o).
    - destruct (len s o), (clen y); try destruct (_ =? _); eauto.
    - destruct (aliased s o); [eexists; reflexivity|].
      destruct (move_full s (obj y) o (elems s) F) as (es & E). rewrite E. eexists; reflexivity. }
  destruct H as (s' & E). exists s'. split; auto.
  destruct (resync_spec now r s x s' E) as (_ & EI & _). intros c. rewrite EI. apply F.
Qed.

Lemma rfold_full : forall (f : st -> nat -> res st) l s,
  (forall s z, full s -> exists s', f s z = Ok s' /\ full s') ->
  full s -> exists s', rfold f l s = Ok s' /\ full s'.
Proof.
  intros f l. induction l as [|z l IH]; intros s H F; [exists s; auto|].
  cbn [rfold]. destruct (H s z F) as (s1 & E & F1). rewrite E. cbn [rbind]. now apply IH.
Qed.

Definition fills (e : event) : Prop := match e with Fill _ l => l <> [] | _ => True end.

Lemma steps_full : forall now es s, Forall fills es -> full s -> full (fold_left (step now) es s).
Proof.
  intros now es. induction es as [|e es IH]; intros s P F; [exact F|].
  inversion P as [|? ? P1 P2]; subst. apply IH; auto.
  destruct e as [[|] z o|[|] z|c l|z|c o|]; try exact F.
  - intros b. cbn. destruct (b =? c); [cbn in P1; congruence|apply F].
  - cbn [step]. destruct (dget (syms s) z); exact F.
Qed.

Lemma stmt_full : forall now s t, Forall fills (happens t) -> full s ->
  exists s', run_stmt now s t = Ok s' /\ full s'.
Proof.
  intros now s t P F. unfold run_stmt. cbv zeta.
  pose proof (steps_full now (happens t) s P F) as F1.
  destruct (off _); [|eexists; split; [reflexivity|exact F1]].
  unfold catch_up.
  destruct (rfold_full (fun s x => if memb x (upd s) then Ok s else resync now true s x)
              (live t ++ dead t) (fold_left (step now) (happens t) s)) as (s2 & E2 & F2); [|exact F1|].
  { intros q z H. destruct (memb z (upd q)); [eauto|now apply resync_full]. }
  rewrite E2. cbn [rbind rmap]. eexists. split; [reflexivity|]. clear E2.
  change (full (fold_left (fun s x =>
        match dget (syms s) x, env s x with
        | None, Some o => upsert now s x o
        | _, _ => s
        end) (dead t) s2)).
  revert s2 F2. induction (dead t) as [|z l IH]; intros s2 F2; [exact F2|].
  cbn [fold_left]. apply IH. destruct (dget (syms s2) z); auto. destruct (env s2 z); auto.
Qed.

Lemma cell_full : forall now l rest s, Forall fills (events l rest) -> full s ->
  exists s', run_cell now l rest s = Ok s'.
Proof.
  intros now l rest s P F. unfold run_cell.
  unfold events in P. apply Forall_app in P. destruct P as (P1 & P2).
  assert (H : exists s1, rfold (run_stmt now) l s = Ok s1 /\ full s1).
  { clear P2. revert s F. induction l as [|t l IH]; intros s F; [exists s; auto|].
    cbn [flat_map] in P1. apply Forall_app in P1. destruct P1 as (Pa & Pb).
    cbn [rfold]. destruct (stmt_full now s t Pa F) as (s1 & E & F1). rewrite E. cbn [rbind]. now apply IH. }
  destruct H as (s1 & E & F1). rewrite E. cbn [rbind]. unfold finish.
  destruct (rfold_full (resync now false) (map fst (filter (fun kv => ts (snd kv) =? now)
    (syms (fold_left (step now) rest s1)))) (fold_left (step now) rest s1)) as (s2 & E2 & _).
  - intros q z. apply resync_full.
  - now apply steps_full.
  - eauto.
Qed.

(** A list that changed its length. *)
Lemma grown_fold : forall now l s s' x,
  rfold (fun s x => if memb x (upd s) then Ok s else resync now true s x) l s = Ok s' ->
  ~ In x (upd s) ->
  forall y, dget (syms s) x = Some y -> env s x = Some (obj y) ->
  exists y', dget (syms s') x = Some y' /\ env s' x = Some (obj y') /\ items s' = items s /\
    (ts y = now \/ In x l -> obj y' = obj y -> clen y <> len s (obj y) \/ ts y = now -> ts y' = now) /\
    obj y' = obj y /\ (y' = y \/ ts y' = now).
Proof.
  intros now l. induction l as [|z l IH]; intros s s' x E U y G V.
  - injection E as <-. exists y. repeat split; auto. intros [H|[]] _ _; auto.
  - cbn [rfold] in E. apply rbind_Ok in E. destruct E as (s1 & E1 & E).
    destruct (memb z (upd s)) eqn:M.
    + injection E1 as <-. destruct (IH s s' x E U y G V) as (y' & A & B & C & D & F & H).
      exists y'. repeat split; auto. intros [T|[ -> |I]] O L; auto.
      apply memb_In in M. contradiction.
    + destruct (resync_spec now true s z s1 E1) as (EV & EI & EU & _ & _ & OT & X).
      destruct (Nat.eq_dec x z) as [ <- |NE].
      * rewrite G, V in X. destruct X as (y1 & G1 & O1 & T1 & SA & CH).
        destruct (IH s1 s' x E) with (y := y1) as (y' & A & B & C & D & F & H); auto; try congruence.
        exists y'. repeat split; auto; try congruence.
        -- intros _ O L. assert (TN : ts y1 = now).
           { destruct L as [L|L]; [apply CH; auto|]. destruct T1 as [ -> |T1]; auto. }
           apply D; auto.
        -- destruct H as [ -> |H]; auto.
      * destruct (IH s1 s' x E) with (y := y) as (y' & A & B & C & D & F & H); auto; try congruence.
        { rewrite OT; auto. }
        exists y'. repeat split; auto; try congruence.
        intros I O L. apply D; auto.
        -- destruct I as [I|[I|I]]; auto. congruence.
        -- destruct L as [L|L]; auto. left. unfold len in *. rewrite EI. exact L.
Qed.

(** Cached lengths at the end of the cell. *)
Lemma resync_clen : forall now r s x s' y, resync now r s x = Ok s' -> env s x <> None ->
  dget (syms s') x = Some y -> clen y = len s' (obj y).
Proof.
  intros now r s x s' y. unfold resync. destruct (dget (syms s) x) as [q|] eqn:G.
  2: { intros E _ Q. injection E as <-. congruence. }
  destruct (env s x) as [o|]; [|contradiction]. destruct (Nat.eqb_spec (obj q) o) as [ <- |N].
  - destruct (len s (obj q)) as [a|] eqn:L, (clen q) as [b|] eqn:C; try destruct (Nat.eqb_spec a b);
      intros E _ Q; injection E as <-; cbn [with_syms syms] in Q; rewrite ?dget_dset, ?Nat.eqb_refl in Q;
      try (injection Q as <-; cbn [clen obj]; unfold len in *; cbn [with_syms items]; congruence);
      rewrite G in Q; injection Q as <-; congruence.
  - intros E _ Q. apply rbind_Ok in E. destruct E as (es & _ & E). injection E as <-.
    cbn [with_syms syms] in Q. rewrite dget_dset, Nat.eqb_refl in Q. injection Q as <-. reflexivity.
Qed.

Lemma finish_clen : forall now s0 l dn s s',
  rfold (resync now false) l s = Ok s' -> inv now s0 [] s ->
  (forall x y, In x l -> dget (syms s) x = Some y -> ts y = now) ->
  (forall x y, In x dn -> dget (syms s) x = Some y -> clen y = len s (obj y)) ->
  forall x y, In x (dn ++ l) -> dget (syms s') x = Some y -> clen y = len s' (obj y).
Proof.
  intros now s0 l. induction l as [|x l IH]; intros dn s s' E I L D.
  - injection E as <-. rewrite app_nil_r. auto.
  - cbn [rfold] in E. apply rbind_Ok in E. destruct E as (s1 & E1 & E).
    destruct (inv_resync now false s0 [] s x s1) as (I1 & X & T & OT & NN); auto.
    { right. intros y. apply L. now left. }
    replace (dn ++ x :: l) with ((dn ++ [x]) ++ l) by (rewrite <- app_assoc; reflexivity).
    destruct (resync_spec now false s x s1 E1) as (EV & EI & _).
    apply (IH (dn ++ [x]) s1 s' E I1).
    + intros z y IN G. destruct (dget (syms s) z) as [q|] eqn:GZ.
      * destruct (T z q GZ) as (q' & Q & TQ); [apply (L z q); [now right|auto]|]. congruence.
      * destruct (Nat.eq_dec z x) as [ -> |NE]; [apply NN in GZ; congruence|rewrite (OT z NE), GZ in G; discriminate].
    + intros z y IN G. destruct (Nat.eq_dec z x) as [ -> |NE].
      * apply (resync_clen now false s x s1 y E1); auto. rewrite <- EV.
        apply (i_bound _ _ _ _ I1 x y G).
      * apply in_app_or in IN. destruct IN as [IN|[H|[]]]; [|congruence].
        rewrite (OT z NE) in G. unfold len. rewrite EI. now apply (D z y).
Qed.

Lemma cell_clen : forall now l rest s s' x y, at_rest s -> Forall textual l -> Forall seen rest ->
  run_cell now l rest s = Ok s' -> dget (syms s') x = Some y -> ts y = now ->
  clen y = len s' (obj y).
Proof.
  intros now l rest s s' x y A T R E G TY. unfold run_cell in E. apply rbind_Ok in E. destruct E as (s1 & E1 & E).
  assert (I : inv now s [] (fold_left (step now) rest s1)).
  { apply inv_rest; auto. apply (inv_stmts now s l s s1 T E1). now apply inv_start. }
  unfold finish in E. set (s2 := fold_left (step now) rest s1) in *.
  pose proof (finish_list now (syms s2)) as FL.
  assert (LL : forall x y, In x (map fst (filter (fun kv => ts (snd kv) =? now) (syms s2))) ->
     dget (syms s2) x = Some y -> ts y = now).
  { intros z q IN Q. apply FL in IN; [|apply (i_wf _ _ _ _ I)]. destruct IN as (q' & Q' & T'). congruence. }
  destruct (finish_fold now s _ [] s2 s' E I LL) as (_ & _ & O); [intros z q []|].
  refine (finish_clen now s _ [] s2 s' E I LL _ x y _ G); [intros z q []|].
  cbn [app]. destruct (in_dec Nat.eq_dec x (map fst (filter (fun kv => ts (snd kv) =? now) (syms s2)))) as [IN|NI]; auto.
  exfalso. apply NI, FL; [apply (i_wf _ _ _ _ I)|]. exists y. rewrite <- (O x NI). auto.
Qed.
