(** Proofs about chains of attributes, subscripts and calls. *)
From Coq Require Import List Arith Bool Lia.
From Verif Require Import Base FollowModel FollowSpec.
Import ListNotations.

Lemma key_eqb_eq : forall a b, key_eqb a b = true <-> a = b.
Proof.
  intros [x|x|x] [y|y|y]; cbn; rewrite ?Nat.eqb_eq; split; congruence.
Qed.
Lemma scope_eqb_eq : forall a b, scope_eqb a b = true <-> a = b.
Proof.
  intros [|x] [|y]; cbn; rewrite ?Nat.eqb_eq; split; congruence.
Qed.
Lemma sym_eqb_eq : forall a b, sym_eqb a b = true <-> a = b.
Proof.
  intros [a1 a2] [b1 b2]. unfold sym_eqb. cbn.
  rewrite andb_true_iff, scope_eqb_eq, key_eqb_eq. split; [intros [-> ->]; auto|].
  intros E. injection E as -> ->. auto.
Qed.
Lemma sym_eqb_refl : forall a, sym_eqb a a = true.
Proof. intros a. now apply sym_eqb_eq. Qed.

Lemma slook_put : forall y o s z,
  slook (syms (sput y o s)) z = if sym_eqb z y then Some o else slook (syms s) z.
Proof. reflexivity. Qed.

(** What never gets worse. *)
Definition kept (W : world) (s s' : st) : Prop :=
  (forall y, slook (syms s') y = slook (syms s) y \/
             exists v, denotes W y = Some v /\ slook (syms s') y = Some v) /\
  (forall y, slook (syms s) y <> None -> slook (syms s') y <> None).

Definition more (vs : list visit) (s s' : st) : Prop :=
  exists new, loaded s' = loaded s ++ new /\ Forall (reason vs) new.

Lemma kept_refl : forall W s, kept W s s.
Proof. intros W s. split; auto. Qed.

Lemma kept_trans : forall W a b c, kept W a b -> kept W b c -> kept W a c.
Proof.
  intros W a b c [P Q] [R S0]. split; [|auto].
  intros y. destruct (R y) as [E|(v & D & E)]; [|right; eauto].
  rewrite E. apply P.
Qed.

Lemma kept_same : forall W s s', syms s' = syms s -> kept W s s'.
Proof. intros W s s' E. split; intros y; rewrite E; auto. Qed.

Lemma kept_put : forall W y o s,
  denotes W y = Some o -> kept W s (sput y o s).
Proof.
  intros W y o s D. split; intros z; rewrite slook_put;
    destruct (sym_eqb z y) eqn:E; auto.
  - apply sym_eqb_eq in E as ->. right. eauto.
  - discriminate.
Qed.

Lemma kept_bound : forall W s s' y v,
  kept W s s' -> denotes W y = Some v -> slook (syms s) y = Some v ->
  slook (syms s') y = Some v.
Proof.
  intros W s s' y v [P _] D B. destruct (P y) as [E|(v' & D' & E)]; congruence.
Qed.

Lemma reason_incl : forall vs vs' x, incl vs vs' -> reason vs x -> reason vs' x.
Proof. intros vs vs' x I (v & A & B). exists v. split; auto. Qed.

Lemma more_refl : forall vs s, more vs s s.
Proof. intros vs s. exists []. rewrite app_nil_r. auto. Qed.

Lemma more_trans : forall vs vs1 vs2 a b c,
  more vs1 a b -> more vs2 b c -> incl vs1 vs -> incl vs2 vs -> more vs a c.
Proof.
  intros vs vs1 vs2 a b c (n1 & E1 & F1) (n2 & E2 & F2) I1 I2.
  exists (n1 ++ n2). split; [rewrite E2, E1, app_assoc; auto|].
  apply Forall_app. split.
  - eapply Forall_impl; [|exact F1]. intros x. now apply reason_incl.
  - eapply Forall_impl; [|exact F2]. intros x. now apply reason_incl.
Qed.

Lemma more_same : forall vs s s', loaded s' = loaded s -> more vs s s'.
Proof. intros vs s s' E. exists []. rewrite app_nil_r. auto. Qed.

Lemma more_In : forall vs s s' x, more vs s s' -> In x (loaded s) -> In x (loaded s').
Proof. intros vs s s' x (new & E & _) I. rewrite E. apply in_or_app. auto. Qed.

(** A visit read what is there. *)
Definition valid (W : world) (v : visit) : Prop :=
  fld W (vo v) (vk v) = Some (vv v) /\ vo v <> 0.

Lemma vsym_denotes : forall W v, valid W v -> denotes W (vsym v) = Some (vv v) \/ exists o, vk v = KAnon o.
Proof.
  intros W v [E _]. unfold vsym. destruct (vk v); cbn in *; eauto.
Qed.

(** Keys read are attributes or subscripts. *)
Definition proper (v : visit) : Prop := forall o, vk v <> KAnon o.

(** Bound. *)
Definition bound (W : world) (s : st) (v : visit) : Prop :=
  vcalled v = false -> supported W (vk v) = true ->
  slook (syms s) (vsym v) = Some (vv v).
Definition listed (W : world) (s : st) (v : visit) : Prop :=
  vlast v = true -> supported W (vk v) = true -> In (vn v, vsym v) (loaded s).
(** Known before. *)
Definition early (W : world) (s s' : st) (v : visit) : Prop :=
  slook (syms s) (vsym v) <> None ->
  match vfrom v with
  | FromStep => True
  | FromName x => slook (syms s) (SFrame, KAttr x) <> None /\
                  slook (syms s) (SFrame, KAttr x) = env W x
  | FromElse => False
  end ->
  In (vn v, vsym v) (loaded s').

Lemma bound_kept : forall W s s' v,
  kept W s s' -> valid W v -> proper v -> bound W s v -> bound W s' v.
Proof.
  intros W s s' v K V P B C S0.
  destruct (vsym_denotes W v V) as [D|[o D]]; [|now apply P in D].
  eapply kept_bound; [exact K|exact D|]. now apply B.
Qed.

Lemma listed_more : forall W vs s s' v, more vs s s' -> listed W s v -> listed W s' v.
Proof. intros W vs s s' v M L A B. eapply more_In; [exact M|]. now apply L. Qed.

Lemma early_more : forall W vs s0 s s' v,
  more vs s s' -> early W s0 s v -> early W s0 s' v.
Proof. intros W vs s0 s s' v M L A B. eapply more_In; [exact M|]. now apply L. Qed.

Lemma early_before : forall W a b s v,
  kept W a b -> early W b s v -> early W a s v.
Proof.
  intros W a b s v [K1 K2] L A B. apply L; [now apply K2|].
  destruct (vfrom v) as [|x|]; auto. destruct B as [B1 B2]. split; [now apply K2|].
  destruct (K1 (SFrame, KAttr x)) as [E|(o & D & E)]; [congruence|].
  cbn in D. congruence.
Qed.

(** ** The steps *)

Lemma clear_lookup_spec : forall W o s,
  (forall p k, saved s = Some (p, k) -> fld W p k = Some o /\ (forall q, k <> KAnon q)) ->
  let '(so, s') := clear_lookup o s in
  so = match saved s with Some (p, k) => Some (SNs p, k) | None => None end /\
  (forall y, so = Some y -> slook (syms s') y = Some o) /\
  kept W s s' /\ saved s' = None /\
  loaded s' = loaded s /\ calls s' = calls s /\ lex s' = lex s /\ stored s' = stored s /\
  first s' = first s /\ top s' = top s /\ active s' = active s.
Proof.
  intros W o s P. unfold clear_lookup. destruct (saved s) as [[p k]|] eqn:E.
  - destruct (P p k eq_refl) as [F N].
    assert (D : denotes W (SNs p, k) = Some o).
    { cbn. destruct k; auto. now destruct (N o0). }
    destruct (slook (syms (set_saved None s)) (SNs p, k)) as [o1|] eqn:L.
    + destruct (o1 =? o) eqn:Q.
      * apply Nat.eqb_eq in Q as ->. repeat split; auto.
        -- intros y Y. injection Y as <-. exact L.
      * repeat split; auto.
        -- intros y Y. injection Y as <-. rewrite slook_put, sym_eqb_refl. auto.
        -- apply (kept_put W (SNs p, k) o (set_saved None s) D).
        -- apply (kept_put W (SNs p, k) o (set_saved None s) D).
    + repeat split; auto.
      * intros y Y. injection Y as <-. rewrite slook_put, sym_eqb_refl. auto.
      * apply (kept_put W (SNs p, k) o (set_saved None s) D).
      * apply (kept_put W (SNs p, k) o (set_saved None s) D).
  - repeat split; auto. discriminate.
Qed.

Lemma get_name_spec : forall s x y,
  active s = SFrame -> get_name s x = Some y ->
  y = (SFrame, KAttr x) /\ slook (syms s) y <> None.
Proof.
  intros s x y A G. unfold get_name in G. rewrite A in G.
  destruct (slook (syms s) (SFrame, KAttr x)) eqn:E; [|discriminate].
  injection G as <-. split; [auto|congruence].
Qed.

Lemma note_spec : forall n o k so s,
  syms (note n o k so s) = syms s /\ saved (note n o k so s) = saved s /\
  active (note n o k so s) = active s /\ calls (note n o k so s) = calls s /\
  lex (note n o k so s) = lex s /\ stored (note n o k so s) = stored s /\
  first (note n o k so s) <> None /\
  top (note n o k so s) = Some (match top s with Some m => m | None => n end) /\
  exists new, loaded (note n o k so s) = loaded s ++ new /\
    Forall (fun x => x = (match top s with Some m => m | None => n end, (SNs o, k))) new /\
    (forall y, so = Some y -> slook (syms s) y = Some o -> slook (syms s) (SNs o, k) <> None ->
       In (match top s with Some m => m | None => n end, (SNs o, k)) (loaded s ++ new)).
Proof.
  intros n o k so s. unfold note.
  destruct (match so with Some y => _ | None => false end) eqn:F; cbn.
  - repeat (split; [destruct (first s); congruence|]).
    eexists. split; [reflexivity|]. split; [constructor; auto|].
    intros y _ _ _. apply in_or_app. right. now left.
  - repeat (split; [destruct (first s); congruence|]).
    exists []. rewrite app_nil_r. split; [auto|]. split; [constructor|].
    intros y -> A B. rewrite A, Nat.eqb_refl in F.
    destruct (slook (syms s) (SNs o, k)); [discriminate|contradiction].
Qed.

(** The condition on the chain's state before a step. *)
Definition ready (n : nat) (s : st) : Prop := top s = None \/ top s = Some n.

Definition from_ok (W : world) (nm : option nat) (p : option (nat * key)) (s : st) (fr : origin) : Prop :=
  fr = match p with
       | Some _ => FromStep
       | None => match nm with Some x => FromName x | None => FromElse end
       end /\
  (nm <> None -> p = None /\ active s = SFrame).

Lemma attrsub_spec : forall W n o nm k cc last s p fr vs,
  o <> 0 -> ready n s -> saved s = p ->
  (forall q j, p = Some (q, j) ->
     fld W q j = Some o /\ (forall z, j <> KAnon z) /\
     exists v, In v vs /\ vn v = n /\ vsym v = (SNs q, j)) ->
  from_ok W nm p s fr ->
  (forall x, nm = Some x -> env W x = Some o) ->
  (forall z, k <> KAnon z) ->
  forall v0, fld W o k = Some v0 ->
  let v := mkV n o k v0 fr cc last in
  forall s', s' = attrsub W n o nm k cc s ->
  kept W s s' /\ more (vs ++ [v]) s s' /\
  calls s' = calls s /\ lex s' = lex s /\ stored s' = stored s /\
  first s' <> None /\ top s' = Some n /\
  saved s' = pend W o k /\
  (forall q j, p = Some (q, j) -> slook (syms s') (SNs q, j) = Some o) /\
  early W s s' v.
Proof.
  intros W n o nm k cc last s p fr vs O R SV P [FR NM] EN NK v0 FV v s' SE.
  assert (PS : forall q j, saved s = Some (q, j) -> fld W q j = Some o /\ (forall z, j <> KAnon z)).
  { intros q j E. rewrite SV in E. destruct (P q j E) as (A & B & _). auto. }
  pose proof (clear_lookup_spec W o s PS) as C.
  unfold attrsub in SE. apply Nat.eqb_neq in O. rewrite O in SE. apply Nat.eqb_neq in O.
  unfold sym_for in SE. rewrite SV in C. destruct (clear_lookup o s) as [so0 s1].
  destruct C as (SO & SB & K1 & S1 & L1 & C1 & X1 & T1 & F1 & TP1 & A1).
  set (so := match so0, nm with None, Some x => get_name s1 x | _, _ => so0 end).
  assert (NC : (match so0, nm with None, Some x => (get_name s1 x, s1) | _, _ => (so0, s1) end) = (so, s1)).
  { unfold so. destruct so0; auto. destruct nm; auto. }
  rewrite NC in SE. clear NC.
  pose proof (note_spec n o k so s1) as N.
  set (s2 := note n o k so s1) in *.
  destruct N as (N1 & N2 & N3 & N4 & N5 & N6 & N7 & N8 & new & N9 & N10 & N11).
  assert (T : match top s1 with Some m => m | None => n end = n).
  { rewrite TP1. destruct R as [-> | -> ]; auto. }
  rewrite T in N8, N10, N11.
  assert (VS : vsym v = (SNs o, k)) by reflexivity.
  assert (IV : In v (vs ++ [v])) by (apply in_or_app; right; now left).
  assert (M2 : more (vs ++ [v]) s s2).
  { exists new. split; [congruence|]. eapply Forall_impl; [|exact N10].
    intros x ->. exists v. split; [exact IV|]. split; [auto|]. now left. }
  assert (K2 : kept W s s2).
  { eapply kept_trans; [exact K1|]. now apply kept_same. }
  assert (E2 : early W s s2 v).
  { intros A B. rewrite VS in *. cbn [vn v]. rewrite N9.
    cbn [vfrom v] in B. rewrite FR in B. clear FR.
    destruct p as [[q j]|].
    - apply (N11 (SNs q, j)).
      + unfold so. rewrite SO. auto.
      + apply SB. rewrite SO. auto.
      + apply (proj2 K1), A.
    - destruct nm as [x|]; [|contradiction]. destruct B as [B1 B2].
      rewrite (EN x eq_refl) in B2. destruct (NM ltac:(discriminate)) as [_ AC].
      assert (SX : slook (syms s1) (SFrame, KAttr x) = Some o).
      { eapply kept_bound; [exact K1|cbn; auto|auto]. }
      apply (N11 (SFrame, KAttr x)).
      + unfold so. rewrite SO. unfold get_name. rewrite A1, AC, SX. auto.
      + exact SX.
      + apply (proj2 K1), A. }
  assert (PB : forall s3, kept W s2 s3 -> forall q j, p = Some (q, j) -> slook (syms s3) (SNs q, j) = Some o).
  { intros s3 K3 q j E. destruct (P q j E) as (A & B & _).
    eapply kept_bound; [exact K3| |].
    - cbn. destruct j; auto. now destruct (B o0).
    - rewrite N1. apply SB. rewrite SO, E. auto. }
  destruct (supported W k) eqn:SK.
  - assert (PD : pend W o k = Some (o, k)) by (unfold pend; rewrite SK; auto).
    destruct cc.
    + set (s3 := set_saved (Some (o, k)) s2) in *.
      assert (RC : exists s4 y, receiver o nm k so s3 = load n y s4 /\
                 kept W s2 s4 /\ loaded s4 = loaded s2 /\ calls s4 = calls s2 /\
                 lex s4 = lex s2 /\ stored s4 = stored s2 /\ first s4 = first s2 /\ top s4 = top s2 /\
                 saved s4 = Some (o, k) /\ reason (vs ++ [v]) (n, y)).
      { assert (TN : top s3 = Some n) by exact N8.
        unfold receiver. destruct so as [y|] eqn:SOE.
        - exists s3, y. rewrite TN. split; [auto|]. split; [now apply kept_same|].
          repeat split; auto.
          unfold so in SOE. destruct so0 as [y0|].
          + assert (y0 = y) by (destruct nm; congruence). subst y0.
            destruct p as [[q j]|]; [|discriminate SO].
            destruct (P q j eq_refl) as (_ & _ & v1 & I1 & VN & VE).
            exists v1. split; [apply in_or_app; auto|]. split; [exact VN|]. left.
            cbn. injection SO as ->. congruence.
          + destruct nm as [x|]; [|discriminate].
            destruct (NM ltac:(discriminate)) as [PN AC].
            assert (AC1 : active s1 = SFrame) by congruence.
            destruct (get_name_spec s1 x y AC1 SOE) as [-> _].
            exists v. split; [exact IV|]. split; [auto|]. right. split; [auto|]. left.
            exists x. split; [cbn; rewrite FR, PN; auto|]. now left.
        - set (kk := match nm with None => KAnon o | Some x => match k with KSub _ => KSub x | _ => KAttr x end end).
          exists (sput (active s3, kk) o s3), (active s3, kk). cbn [top sput]. rewrite TN.
          split; [auto|].
          assert (DN : denotes W (active s3, kk) = Some o /\ reason (vs ++ [v]) (n, (active s3, kk))).
          { unfold kk. destruct nm as [x|].
            - destruct (NM ltac:(discriminate)) as [PN AC].
              assert (AC3 : active s3 = SFrame) by (cbn; congruence).
              rewrite AC3. pose proof (EN x eq_refl) as EX.
              split; [destruct k; cbn; auto|].
              exists v. split; [exact IV|]. split; [auto|]. right. split; [auto|]. left.
              exists x. split; [cbn; rewrite FR, PN; auto|]. cbn. destruct k; auto.
            - split; [destruct (active s3); reflexivity|].
              exists v. split; [exact IV|]. split; [auto|]. right. split; [auto|]. right.
              reflexivity. }
          destruct DN as [DN RS]. split.
          + eapply kept_trans; [|apply kept_put; exact DN]. now apply kept_same.
          + repeat split; auto. }
      destruct RC as (s4 & y & RE & K4 & L4 & C4 & X4 & T4 & F4 & TP4 & S4 & RS).
      rewrite RE in SE. subst s'. cbn [set_active load loaded calls lex stored first top saved syms].
      assert (KF : kept W s4 (set_active (SNs o) (load n y s4))) by (now apply kept_same).
      split; [eapply kept_trans; [exact K2|]; eapply kept_trans; [exact K4|exact KF]|].
      split.
      { eapply (more_trans _ (vs ++ [v]) (vs ++ [v])); [exact M2| |apply incl_refl|apply incl_refl].
        exists [(n, y)]. split; [cbn; rewrite L4; auto|]. constructor; auto. }
      repeat split; try congruence.
      * intros q j E. apply (PB s4 K4 q j E).
      * intros A B. specialize (E2 A B). cbn. apply in_or_app. left. rewrite L4. exact E2.
    + subst s'. cbn [set_active set_saved loaded calls lex stored first top saved syms].
      split; [eapply kept_trans; [exact K2|]; now apply kept_same|].
      split; [destruct M2 as (nw & E & F); exists nw; split; auto|].
      repeat split; try congruence.
      * intros q j E. apply (PB s2 (kept_refl W s2) q j E).
      * exact E2.
  - assert (PD : pend W o k = None) by (unfold pend; rewrite SK; auto).
    subst s'. cbn [set_active loaded calls lex stored first top saved syms].
    split; [eapply kept_trans; [exact K2|]; now apply kept_same|].
    split; [destruct M2 as (nw & E & F); exists nw; split; auto|].
    repeat split; try congruence.
    + intros q j E. apply (PB s2 (kept_refl W s2) q j E).
    + exact E2.
Qed.

(** ** The whole evaluation *)

Definition good (W : world) (s s' : st) (v : visit) : Prop :=
  valid W v /\ proper v /\ bound W s' v /\ listed W s' v /\ early W s s' v.

Definition goodc (W : world) (n : nat) (p : option (nat * key)) (called last : bool)
    (s s' : st) (v : visit) : Prop :=
  valid W v /\ proper v /\ early W s s' v /\
  (bound W s' v \/ (called = false /\ p = Some (vo v, vk v))) /\
  (listed W s' v \/ (last = true /\ vn v = n /\ p = Some (vo v, vk v))).

Lemma good_after : forall W a b c vs v,
  kept W b c -> more vs b c -> good W a b v -> good W a c v.
Proof.
  intros W a b c vs v K M (V & P & B & L & E).
  split; [auto|]. split; [auto|]. split; [eapply bound_kept; eauto|].
  split; [eapply listed_more; eauto|eapply early_more; eauto].
Qed.

Lemma good_before : forall W a b c v,
  kept W a b -> good W b c v -> good W a c v.
Proof.
  intros W a b c v K (V & P & B & L & E).
  split; [exact V|]. split; [exact P|]. split; [exact B|]. split; [exact L|]. eapply early_before; eauto.
Qed.

(** With nothing pending, a visit of a chain is as good as any. *)
Lemma goodc_good : forall W n called s s' v,
  goodc W n None called false s s' v -> good W s s' v.
Proof.
  intros W n called s s' v (V & P & E & B & L).
  split; [exact V|]. split; [exact P|]. split; [destruct B as [B|[_ B]]; [auto|discriminate]|].
  split; [destruct L as [L|[L _]]; [auto|discriminate]|auto].
Qed.

(** Called at once: bound unless it is what is called. *)
Lemma goodc_called : forall W n p s s' v,
  goodc W n p true false s s' v -> good W s s' v.
Proof.
  intros W n p s s' v (V & P & E & B & L).
  split; [exact V|]. split; [exact P|]. split; [destruct B as [B|[B _]]; [auto|discriminate]|].
  split; [destruct L as [L|[L _]]; [auto|discriminate]|auto].
Qed.

Lemma good_goodc : forall W n p called last s s' v,
  good W s s' v -> goodc W n p called last s s' v.
Proof.
  intros W n p called last s s' v (V & P & B & L & E).
  split; [exact V|]. split; [exact P|]. split; [exact E|]. auto.
Qed.

(** The next step settles what was pending. *)
Lemma goodc_next : forall W n p o s s1 s2 vs v,
  goodc W n p false false s s1 v ->
  kept W s1 s2 -> more vs s1 s2 ->
  (forall q j, p = Some (q, j) -> slook (syms s2) (SNs q, j) = Some o) ->
  (forall q j, p = Some (q, j) -> fld W q j = Some o) ->
  good W s s2 v.
Proof.
  intros W n p o s s1 s2 vs v (V & P & E & B & L) K M PB PF.
  split; [auto|]. split; [auto|]. split.
  - destruct B as [B|[_ B]]; [eapply bound_kept; eauto|].
    intros _ _. unfold vsym. rewrite (PB _ _ B). f_equal.
    destruct V as [V _]. rewrite (PF _ _ B) in V. congruence.
  - split; [destruct L as [L|[L _]]; [|discriminate]; eapply listed_more; eauto|].
    eapply early_more; eauto.
Qed.

Lemma idle_ready : forall n s, idle s -> ready n s.
Proof. intros n s (_ & T & _). now left. Qed.

Definition exprP (e : expr) : Prop :=
  forall W s, none_bare W -> plain e = true -> idle s ->
  match py_expr W e with
  | Some (o, vs, cs) =>
      exists s', ev_expr W e s = (Ok o, s') /\ idle s' /\ kept W s s' /\ more vs s s' /\
        calls s' = calls s ++ cs /\ lex s' = lex s /\ stored s' = stored s /\
        Forall (good W s s') vs
  | None => exists s', ev_expr W e s = (Err AttributeError, s')
  end.

Definition chainP (c : chain) : Prop :=
  forall W n called last s, none_bare W -> plain_chain c = true -> idle s ->
  match py_chain W n c called last with
  | Some (o, p, vs, cs) =>
      exists s', ev_chain W n c called s = (Ok o, s') /\ kept W s s' /\ more vs s s' /\
        calls s' = calls s ++ cs /\ lex s' = lex s /\ stored s' = stored s /\ saved s' = p /\
        (fresh c = true -> idle s') /\
        (fresh c = false -> first s' <> None /\ top s' = Some n) /\
        (forall q j, p = Some (q, j) ->
           fld W q j = Some o /\ (forall z, j <> KAnon z) /\
           exists v, In v vs /\ vn v = n /\ vsym v = (SNs q, j)) /\
        Forall (goodc W n p called last s s') vs
  | None => exists s', ev_chain W n c called s = (Err AttributeError, s')
  end.

Definition argsP (a : args) : Prop :=
  forall W s, none_bare W -> plain_args a = true -> idle s ->
  match py_args W a with
  | Some (l, vs, cs) =>
      exists s', ev_args W a s = (Ok l, s') /\ idle s' /\ kept W s s' /\ more vs s s' /\
        calls s' = calls s ++ cs /\ lex s' = lex s /\ stored s' = stored s /\
        Forall (good W s s') vs
  | None => exists s', ev_args W a s = (Err AttributeError, s')
  end.

Lemma name_origin : forall W n c called last s o p vs cs s',
  py_chain W n c called last = Some (o, p, vs, cs) ->
  ev_chain W n c called s = (Ok o, s') -> idle s ->
  from_ok W (name_of c) p s' (origin_of c p) /\
  (forall x, name_of c = Some x -> env W x = Some o).
Proof.
  intros W n c called last s o p vs cs s' PY EV I. split.
  - split.
    + unfold origin_of, name_of. destruct p; auto.
      destruct c as [e| | |]; auto. destruct e; auto.
    + destruct c as [e| | |]; try (intros N; now destruct N).
      destruct e; try (intros N; now destruct N). intros _.
      cbn in PY, EV. destruct (env W x); [|discriminate].
      split; [congruence|]. injection EV as _ <-. apply I.
  - intros x N. destruct c as [e| | |]; try discriminate. destruct e; try discriminate.
    injection N as ->. cbn in PY. destruct (env W x); congruence.
Qed.

Scheme expr_mut := Induction for expr Sort Prop
  with chain_mut := Induction for chain Sort Prop
  with args_mut := Induction for args Sort Prop.
Combined Scheme chain_all from expr_mut, chain_mut, args_mut.

(** One step after a chain [c] was followed to [o]. *)
Lemma step_lemma : forall W n called last s s1 s2 o p fr nm k vs vs' v0,
  none_bare W ->
  saved s1 = p -> ready n s1 -> kept W s s1 ->
  (forall q j, p = Some (q, j) ->
     fld W q j = Some o /\ (forall z, j <> KAnon z) /\
     exists v, In v vs /\ vn v = n /\ vsym v = (SNs q, j)) ->
  from_ok W nm p s1 fr -> (forall x, nm = Some x -> env W x = Some o) ->
  (forall z, k <> KAnon z) ->
  fld W o k = Some v0 ->
  more vs' s s1 -> incl vs vs' ->
  Forall (goodc W n p false false s s1) vs' ->
  s2 = attrsub W n o nm k called s1 ->
  kept W s s2 /\ more (vs' ++ [mkV n o k v0 fr called last]) s s2 /\
  calls s2 = calls s1 /\ lex s2 = lex s1 /\ stored s2 = stored s1 /\
  saved s2 = pend W o k /\ first s2 <> None /\ top s2 = Some n /\
  (forall q j, pend W o k = Some (q, j) ->
     fld W q j = Some v0 /\ (forall z, j <> KAnon z) /\
     exists v, In v (vs' ++ [mkV n o k v0 fr called last]) /\ vn v = n /\ vsym v = (SNs q, j)) /\
  Forall (goodc W n (pend W o k) called last s s2) (vs' ++ [mkV n o k v0 fr called last]).
Proof.
  intros W n called last s s1 s2 o p fr nm k vs vs' v0 NB SV R K P FR EN NK FV M IC GD E2.
  assert (O : o <> 0) by (intros ->; rewrite NB in FV; discriminate).
  set (v := mkV n o k v0 fr called last).
  destruct (attrsub_spec W n o nm k called last s1 p fr vs' O R SV
              ltac:(intros q j E; destruct (P q j E) as (A & B & w & C & D); eauto 6)
              FR EN NK v0 FV s2 E2)
    as (K2 & M2 & C2 & X2 & T2 & F2 & TP2 & S2 & PB & ER).
  fold v in M2, ER.
  split; [eapply kept_trans; eauto|].
  split; [eapply more_trans; [exact M|exact M2|apply incl_appl, incl_refl|apply incl_refl]|].
  do 6 (split; [assumption|]). split.
  - intros q j E. unfold pend in E. destruct (supported W k); [|discriminate].
    injection E as <- <-. split; [auto|]. split; [auto|].
    exists v. split; [apply in_or_app; right; now left|auto].
  - apply Forall_app. split.
    + eapply Forall_impl; [|exact GD]. intros w GW. apply good_goodc.
      eapply goodc_next; [exact GW|exact K2|exact M2|exact PB|].
      intros q j E. now destruct (P q j E).
    + constructor; [|constructor]. split; [split; auto|]. split; [exact NK|].
      split; [eapply early_before; eauto|].
      destruct (supported W k) eqn:SK.
      * split.
        -- destruct called; [left; intros A; discriminate A|].
           right. split; [auto|]. unfold pend. rewrite SK. auto.
        -- destruct last; [|left; intros A; discriminate A].
           right. split; [auto|]. split; [auto|]. unfold pend. rewrite SK. auto.
      * split; left; intros _ A; cbn in A; congruence.
Qed.

Lemma chain_main : (forall e, exprP e) /\ (forall c, chainP c) /\ (forall a, argsP a).
Proof.
  apply chain_all.
  - (* EConst *)
    intros o W s NB PL I. cbn. exists s.
    split; [auto|]. split; [auto|]. split; [apply kept_refl|]. split; [apply more_refl|].
    rewrite app_nil_r. auto.
  - (* EName *)
    intros x W s NB PL I. cbn. destruct (env W x) as [o|]; [|eauto]. exists s.
    split; [auto|]. split; [auto|]. split; [apply kept_refl|]. split; [apply more_refl|].
    rewrite app_nil_r. auto.
  - (* ELoad *)
    intros n c IH W s NB PL I. cbn in *. specialize (IH W n false true s NB PL I).
    destruct (py_chain W n c false true) as [[[[o p] vs] cs]|].
    2:{ destruct IH as (s1 & ->). eauto. }
    destruct IH as (s1 & -> & K & M & C & X & T & SV & FI & FN & P & GD).
    unfold after_complex. destruct (fresh c) eqn:FR.
    + destruct (FI eq_refl) as (F & TP & SV1 & AC). rewrite F.
      eexists. split; [reflexivity|]. split; [repeat split|].
      split; [eapply kept_trans; [exact K|now apply kept_same]|].
      split; [destruct M as (nw & E & Z); exists nw; auto|].
      cbn. do 3 (split; [auto|]).
      assert (p = None) as -> by congruence.
      eapply Forall_impl; [|exact GD]. intros v (V & PR & E & B & L).
      split; [auto|]. split; [auto|]. split; [|split; [|exact E]].
      * destruct B as [B|[_ B]]; [exact B|discriminate].
      * destruct L as [L|(_ & _ & L)]; [exact L|discriminate].
    + destruct (FN eq_refl) as (F & TP). destruct (first s1) as [f|]; [|contradiction].
      rewrite TP.
      assert (PS : forall q j, saved s1 = Some (q, j) -> fld W q j = Some o /\ (forall z, j <> KAnon z)).
      { intros q j E. rewrite SV in E. destruct (P q j E) as (A & B & _). auto. }
      pose proof (clear_lookup_spec W o s1 PS) as CL.
      rewrite SV in CL. destruct (clear_lookup o s1) as [so s2].
      destruct CL as (SO & SB & K2 & S2 & L2 & C2 & X2 & T2 & _ & _ & _).
      eexists. split; [reflexivity|]. split; [repeat split|].
      assert (SY : syms (match so with Some y => load n y s2 | None => s2 end) = syms s2) by (destruct so; auto).
      assert (KE : kept W s1 (mkS (syms (match so with Some y => load n y s2 | None => s2 end)) None None None SFrame
         (loaded (match so with Some y => load n y s2 | None => s2 end))
         (calls (match so with Some y => load n y s2 | None => s2 end))
         (stored (match so with Some y => load n y s2 | None => s2 end))
         (lex (match so with Some y => load n y s2 | None => s2 end)))).
      { eapply kept_trans; [exact K2|]. apply kept_same. cbn. exact SY. }
      match goal with |- kept _ _ ?X /\ _ => set (s3 := X) in * end.
      assert (L3 : loaded s3 = loaded s1 ++ match p with Some (q, j) => [(n, (SNs q, j))] | None => [] end).
      { unfold s3. cbn. rewrite SO. destruct p as [[q j]|]; cbn; rewrite L2; auto.
        now rewrite app_nil_r. }
      assert (M3 : more vs s1 s3).
      { eexists. split; [exact L3|]. destruct p as [[q j]|]; [|constructor].
        constructor; [|constructor]. destruct (P q j eq_refl) as (_ & _ & v & IV & VN & VS).
        exists v. split; [auto|]. split; [auto|]. left. auto. }
      split; [eapply kept_trans; eauto|].
      split; [eapply more_trans; [exact M|exact M3|apply incl_refl|apply incl_refl]|].
      assert (CS : calls s3 = calls s1 /\ lex s3 = lex s1 /\ stored s3 = stored s1).
      { unfold s3. cbn. destruct so; cbn; auto. }
      destruct CS as (CS1 & CS2 & CS3).
      split; [congruence|]. split; [congruence|]. split; [congruence|].
      eapply Forall_impl; [|exact GD]. intros v (V & PR & E & B & L).
      split; [auto|]. split; [auto|]. split; [|split].
      * destruct B as [B|[_ B]]; [eapply bound_kept; eauto|]. intros _ _.
        unfold s3. cbn. rewrite SY. unfold vsym. rewrite (SB (SNs (vo v), vk v)); [|rewrite SO, B; auto].
        f_equal. destruct V as [V _]. destruct (P _ _ B) as (A & _). congruence.
      * destruct L as [L|(_ & VN & L)]; [eapply listed_more; eauto|]. intros _ _.
        rewrite L3, L. apply in_or_app. right. left. unfold vsym. rewrite VN. reflexivity.
      * eapply early_more; eauto.
  - (* CBase *)
    intros e IH W n called last s NB PL I. cbn in *. specialize (IH W s NB PL I).
    destruct (py_expr W e) as [[[o vs] cs]|].
    2:{ destruct IH as (s1 & ->). eauto. }
    destruct IH as (s1 & -> & I1 & K & M & C & X & T & GD).
    exists s1. do 6 (split; [auto|]). split; [apply I1|]. split; [auto|].
    split; [discriminate|]. split; [discriminate|].
    eapply Forall_impl; [|exact GD]. intros v. apply good_goodc.
  - (* CAttr *)
    intros d IH k W n called last s NB PL I. cbn in *. specialize (IH W n false false s NB PL I).
    destruct (py_chain W n d false false) as [[[[o p] vs] cs]|] eqn:PY.
    2:{ destruct IH as (s1 & ->). eauto. }
    destruct IH as (s1 & EV & K & M & C & X & T & SV & FI & FN & P & GD).
    rewrite EV. destruct (fld W o (KAttr k)) as [v0|] eqn:FV; [|eauto].
    destruct (name_origin W n d false false s o p vs cs s1 PY EV I) as (FO & EN).
    assert (R : ready n s1).
    { destruct (fresh d) eqn:FR; [now apply idle_ready, FI|right; now apply FN]. }
    destruct (step_lemma W n called last s s1 _ o p (origin_of d p) (name_of d) (KAttr k) vs vs v0
                NB SV R K P FO EN ltac:(discriminate) FV M (incl_refl vs) GD eq_refl)
      as (K2 & M2 & C2 & X2 & T2 & S2 & F2 & TP2 & P2 & G2).
    eexists. split; [reflexivity|]. split; [exact K2|]. split; [exact M2|].
    split; [congruence|]. split; [congruence|]. split; [congruence|]. split; [exact S2|].
    split; [discriminate|]. split; [auto|]. split; [exact P2|exact G2].
  - (* CSub *)
    intros d IH e IHe W n called last s NB PL I. cbn in *.
    apply andb_true_iff in PL as [PL PF]. apply andb_true_iff in PL as [PL PE].
    specialize (IH W n false false s NB PL I).
    destruct (py_chain W n d false false) as [[[[o p] vs] cs]|] eqn:PY.
    2:{ destruct IH as (s1 & ->). eauto. }
    destruct IH as (s1 & EV & K & M & C & X & T & SV & FI & FN & P & GD).
    rewrite EV.
    destruct (name_origin W n d false false s o p vs cs s1 PY EV I) as (FO & EN).
    assert (SL : match py_expr W e with
                 | Some (i, vs', cs') =>
                     exists s2, ev_expr W e s1 = (Ok i, s2) /\ kept W s s2 /\
                       more (vs ++ vs') s s2 /\ calls s2 = calls s ++ cs ++ cs' /\
                       lex s2 = lex s /\ stored s2 = stored s /\ saved s2 = p /\ ready n s2 /\
                       active s2 = active s1 /\
                       Forall (goodc W n p false false s s2) (vs ++ vs')
                 | None => exists s2, ev_expr W e s1 = (Err AttributeError, s2)
                 end).
    { destruct (fresh d) eqn:FR.
      - specialize (FI eq_refl). specialize (IHe W s1 NB PE FI).
        destruct (py_expr W e) as [[[i vs'] cs']|]; [|exact IHe].
        destruct IHe as (s2 & EV2 & I2 & K2 & M2 & C2 & X2 & T2 & G2).
        exists s2. split; [exact EV2|]. split; [eapply kept_trans; eauto|].
        split; [eapply more_trans; [exact M|exact M2|apply incl_appl, incl_refl|apply incl_appr, incl_refl]|].
        split; [rewrite C2, C, app_assoc; auto|]. split; [congruence|]. split; [congruence|].
        assert (p = None) as -> by (destruct FI as (_ & _ & Z & _); congruence).
        split; [apply I2|]. split; [now apply idle_ready|].
        split; [destruct I2 as (_ & _ & _ & Z); destruct FI as (_ & _ & _ & Z'); congruence|].
        apply Forall_app. split.
        + eapply Forall_impl; [|exact GD]. intros v GV. apply good_goodc.
          apply goodc_good in GV. eapply good_after; eauto.
        + eapply Forall_impl; [|exact G2]. intros v GV. apply good_goodc.
          eapply good_before; eauto.
      - cbn in PF. destruct e as [c0|x|m c0]; [| |discriminate].
        + cbn. exists s1. rewrite !app_nil_r. do 7 (split; [auto|]).
          split; [right; now apply FN|]. split; auto.
        + cbn. destruct (env W x) as [i|]; [|eauto]. exists s1. rewrite !app_nil_r. do 7 (split; [auto|]).
          split; [right; now apply FN|]. split; auto. }
    destruct (py_expr W e) as [[[i vs'] cs']|].
    2:{ destruct SL as (s2 & ->). eauto. }
    destruct SL as (s2 & -> & K2 & M2 & C2 & X2 & T2 & SV2 & R2 & A2 & G2).
    destruct (fld W o (KSub i)) as [v0|] eqn:FV; [|eauto].
    assert (FO2 : from_ok W (name_of d) p s2 (origin_of d p)).
    { destruct FO as [FO1 FO2]. split; [auto|]. intros N. rewrite A2. auto. }
    destruct (step_lemma W n called last s s2 _ o p (origin_of d p) (name_of d) (KSub i) vs (vs ++ vs') v0
                NB SV2 R2 K2 P FO2 EN ltac:(discriminate) FV M2 (incl_appl _ (incl_refl vs)) G2 eq_refl)
      as (K3 & M3 & C3 & X3 & T3 & S3 & F3 & TP3 & P3 & G3).
    eexists. split; [reflexivity|]. split; [exact K3|]. split; [exact M3|].
    split; [congruence|]. split; [congruence|]. split; [congruence|]. split; [exact S3|].
    split; [discriminate|]. split; [auto|]. split; [exact P3|exact G3].
  - (* CCall *)
    intros d IH a IHa W n called last s NB PL I. cbn in *.
    apply andb_true_iff in PL as [PL PA].
    specialize (IH W n true false s NB PL I).
    destruct (py_chain W n d true false) as [[[[f p] vs] cs]|] eqn:PY.
    2:{ destruct IH as (s1 & ->). eauto. }
    destruct IH as (s1 & -> & K & M & C & X & T & SV & FI & FN & P & GD).
    specialize (IHa W (before_call f s1) NB PA ltac:(repeat split)).
    destruct (py_args W a) as [[[l vs'] cs']|].
    2:{ destruct IHa as (s2 & ->). eauto. }
    destruct IHa as (s2 & -> & I2 & K2 & M2 & C2 & X2 & T2 & G2).
    destruct (callr W f l) as [v|]; [|eauto].
    unfold after_call. rewrite X2. cbn [lex before_call].
    eexists. split; [reflexivity|]. cbn in C2, T2.
    assert (K1 : kept W s (before_call f s1)) by (eapply kept_trans; [exact K|now apply kept_same]).
    assert (M1 : more vs s (before_call f s1)).
    { destruct M as (nw & E & F). exists nw. auto. }
    split; [eapply kept_trans; [exact K1|]; eapply kept_trans; [exact K2|now apply kept_same]|].
    split.
    { destruct (more_trans (vs ++ vs') vs vs' _ _ _ M1 M2) as (nw & E & F);
        [apply incl_appl, incl_refl|apply incl_appr, incl_refl|].
      exists nw. auto. }
    cbn. split; [rewrite C2, SV, C, <- !app_assoc; auto|].
    split; [auto|]. split; [congruence|]. split; [auto|].
    split; [intros FR; destruct (FI FR) as (Z1 & Z2 & Z3 & Z4); repeat split; auto; apply I2|].
    split; [auto|]. split; [discriminate|].
    assert (K3 : kept W s2 (mkS (syms s2) (first s1) (top s1) None (active s2) (loaded s2) (calls s2) (stored s2) (lex s1)))
      by (now apply kept_same).
    assert (M3 : more [] s2 (mkS (syms s2) (first s1) (top s1) None (active s2) (loaded s2) (calls s2) (stored s2) (lex s1)))
      by (now apply more_same).
    apply Forall_app. split.
    + eapply Forall_impl; [|exact GD]. intros w GW. apply good_goodc. apply goodc_called in GW.
      eapply good_after; [exact K3|exact M3|]. eapply good_after; [exact K2|exact M2|].
      eapply (good_after _ _ s1 _ []); [now apply kept_same|now apply more_same|exact GW].
    + eapply Forall_impl; [|exact G2]. intros w GW. apply good_goodc.
      eapply good_after; [exact K3|exact M3|]. eapply good_before; [exact K1|exact GW].
  - (* ANil *)
    intros W s NB PL I. cbn. exists s.
    split; [auto|]. split; [auto|]. split; [apply kept_refl|]. split; [apply more_refl|].
    rewrite app_nil_r. auto.
  - (* ACons *)
    intros e IHe a IHa W s NB PL I. cbn in *. apply andb_true_iff in PL as [PE PA].
    specialize (IHe W s NB PE I). destruct (py_expr W e) as [[[o vs] cs]|].
    2:{ destruct IHe as (s1 & ->). eauto. }
    destruct IHe as (s1 & -> & I1 & K & M & C & X & T & GD).
    specialize (IHa W s1 NB PA I1). destruct (py_args W a) as [[[l vs'] cs']|].
    2:{ destruct IHa as (s2 & ->). eauto. }
    destruct IHa as (s2 & -> & I2 & K2 & M2 & C2 & X2 & T2 & G2).
    exists s2. split; [auto|]. split; [auto|]. split; [eapply kept_trans; eauto|].
    split; [eapply more_trans; [exact M|exact M2|apply incl_appl, incl_refl|apply incl_appr, incl_refl]|].
    split; [rewrite C2, C, app_assoc; auto|]. split; [congruence|]. split; [congruence|].
    apply Forall_app. split.
    + eapply Forall_impl; [|exact GD]. intros v. eapply good_after; eauto.
    + eapply Forall_impl; [|exact G2]. intros v. eapply good_before; eauto.
Qed.

Lemma after_stmt_idle : forall s, idle (after_stmt s).
Proof. repeat split. Qed.

(** ** Stores, which also start in the middle of things *)

Definition coh (s : st) : Prop := first s <> None -> top s <> None.

Definition exprQ (e : expr) : Prop :=
  forall W s, none_bare W -> plain e = true -> saved s = None -> coh s ->
  match py_expr W e with
  | Some (o, vs, cs) =>
      exists s', ev_expr W e s = (Ok o, s') /\ saved s' = None /\ coh s' /\
        lex s' = lex s /\ stored s' = stored s
  | None => exists s', ev_expr W e s = (Err AttributeError, s')
  end.

Definition chainQ (c : chain) : Prop :=
  forall W n called last s, none_bare W -> plain_chain c = true -> saved s = None -> coh s ->
  match py_chain W n c called last with
  | Some (o, p, vs, cs) =>
      exists s', ev_chain W n c called s = (Ok o, s') /\ saved s' = p /\ coh s' /\
        (fresh c = true -> p = None) /\
        lex s' = lex s /\ stored s' = stored s
  | None => exists s', ev_chain W n c called s = (Err AttributeError, s')
  end.

Definition argsQ (a : args) : Prop :=
  forall W s, none_bare W -> plain_args a = true -> saved s = None -> coh s ->
  match py_args W a with
  | Some (l, vs, cs) =>
      exists s', ev_args W a s = (Ok l, s') /\ saved s' = None /\ coh s' /\
        lex s' = lex s /\ stored s' = stored s
  | None => exists s', ev_args W a s = (Err AttributeError, s')
  end.

Lemma clear_lookup_calm : forall o s,
  let '(_, s') := clear_lookup o s in
  saved s' = None /\ lex s' = lex s /\ stored s' = stored s /\ first s' = first s /\ top s' = top s.
Proof.
  intros o s. unfold clear_lookup. destruct (saved s) as [[p k]|] eqn:E; [|auto].
  destruct (slook _ _) as [o1|]; [|repeat split].
  destruct (o1 =? o); repeat split.
Qed.

Lemma sym_for_calm : forall o nm s,
  let '(_, s') := sym_for o nm s in
  saved s' = None /\ lex s' = lex s /\ stored s' = stored s.
Proof.
  intros o nm s. unfold sym_for. pose proof (clear_lookup_calm o s) as C.
  destruct (clear_lookup o s) as [so s1]. destruct C as (A & B & C & _).
  destruct so; [auto|]. destruct nm; auto.
Qed.

Lemma attrsub_calm : forall W n o nm k cc s,
  o <> 0 ->
  saved (attrsub W n o nm k cc s) = pend W o k /\
  top (attrsub W n o nm k cc s) <> None /\
  lex (attrsub W n o nm k cc s) = lex s /\ stored (attrsub W n o nm k cc s) = stored s.
Proof.
  intros W n o nm k cc s O. unfold attrsub. apply Nat.eqb_neq in O. rewrite O.
  pose proof (sym_for_calm o nm s) as C. destruct (sym_for o nm s) as [so s1].
  destruct C as (C1 & C2 & C3).
  destruct (note_spec n o k so s1) as (_ & N2 & _ & _ & N5 & N6 & _ & N8 & _).
  unfold pend. destruct (supported W k).
  - destruct cc.
    + unfold receiver.
      destruct so as [y|]; cbn [top set_saved set_active sput]; rewrite N8; cbn;
        (split; [auto|]); (split; [congruence|]); split; congruence.
    + cbn. split; [auto|]. split; [rewrite N8; discriminate|]. split; congruence.
  - cbn. split; [congruence|]. split; [rewrite N8; discriminate|]. split; congruence.
Qed.

Lemma chain_calm : (forall e, exprQ e) /\ (forall c, chainQ c) /\ (forall a, argsQ a).
Proof.
  apply chain_all.
  - intros o W s NB PL SV CO. cbn. eauto 8.
  - intros x W s NB PL SV CO. cbn. destruct (env W x) as [o|]; eauto 8.
  - intros n c IH W s NB PL SV CO. cbn in *. specialize (IH W n false true s NB PL SV CO).
    destruct (py_chain W n c false true) as [[[[o p] vs] cs]|].
    2:{ destruct IH as (s1 & ->). eauto. }
    destruct IH as (s1 & -> & S1 & C1 & _ & X1 & T1). unfold after_complex.
    destruct (first s1) as [f|] eqn:F.
    + destruct (top s1) as [t|] eqn:TP; [|exfalso; apply C1; congruence].
      pose proof (clear_lookup_calm o s1) as CL. destruct (clear_lookup o s1) as [so s2].
      destruct CL as (A & B & C & _).
      eexists. split; [reflexivity|]. cbn. split; [auto|].
      split; [intros Z; now destruct Z|]. destruct so; cbn; split; congruence.
    + eexists. split; [reflexivity|]. cbn. split; [auto|].
      split; [intros Z; now destruct Z|]. auto.
  - intros e IH W n called last s NB PL SV CO. cbn in *. specialize (IH W s NB PL SV CO).
    destruct (py_expr W e) as [[[o vs] cs]|]; [|exact IH].
    destruct IH as (s1 & -> & A & B & C & D). eauto 8.
  - intros d IH k W n called last s NB PL SV CO. cbn in *. specialize (IH W n false false s NB PL SV CO).
    destruct (py_chain W n d false false) as [[[[o p] vs] cs]|].
    2:{ destruct IH as (s1 & ->). eauto. }
    destruct IH as (s1 & -> & A & B & _ & C & D).
    destruct (fld W o (KAttr k)) as [v0|] eqn:FV; [|eauto].
    assert (O : o <> 0) by (intros ->; rewrite NB in FV; discriminate).
    destruct (attrsub_calm W n o (name_of d) (KAttr k) called s1 O) as (Z1 & Z2 & Z3 & Z4).
    eexists. split; [reflexivity|]. split; [auto|]. split; [intros _; auto|].
    split; [discriminate|]. split; congruence.
  - intros d IH e IHe W n called last s NB PL SV CO. cbn in *.
    apply andb_true_iff in PL as [PL PF]. apply andb_true_iff in PL as [PL PE].
    specialize (IH W n false false s NB PL SV CO).
    destruct (py_chain W n d false false) as [[[[o p] vs] cs]|].
    2:{ destruct IH as (s1 & ->). eauto. }
    destruct IH as (s1 & -> & A & B & Q & C & D).
    assert (SL : match py_expr W e with
                 | Some (i, vs', cs') =>
                     exists s2, ev_expr W e s1 = (Ok i, s2) /\ coh s2 /\
                       lex s2 = lex s /\ stored s2 = stored s
                 | None => exists s2, ev_expr W e s1 = (Err AttributeError, s2)
                 end).
    { destruct (fresh d) eqn:FR.
      - rewrite (Q eq_refl) in A. specialize (IHe W s1 NB PE A B).
        destruct (py_expr W e) as [[[i vs'] cs']|]; [|exact IHe].
        destruct IHe as (s2 & EV2 & A2 & B2 & C2 & D2).
        exists s2. split; [exact EV2|]. split; [auto|]. split; congruence.
      - cbn in PF. destruct e as [c0|x|m c0]; [| |discriminate].
        + cbn. eauto 6.
        + cbn. destruct (env W x) as [i|]; eauto 6. }
    destruct (py_expr W e) as [[[i vs'] cs']|].
    2:{ destruct SL as (s2 & ->). eauto. }
    destruct SL as (s2 & -> & B2 & C2 & D2).
    destruct (fld W o (KSub i)) as [v0|] eqn:FV; [|eauto].
    assert (O : o <> 0) by (intros ->; rewrite NB in FV; discriminate).
    destruct (attrsub_calm W n o (name_of d) (KSub i) called s2 O) as (Z1 & Z2 & Z3 & Z4).
    eexists. split; [reflexivity|]. split; [auto|]. split; [intros _; auto|].
    split; [discriminate|]. split; congruence.
  - intros d IH a IHa W n called last s NB PL SV CO. cbn in *.
    apply andb_true_iff in PL as [PL PA].
    specialize (IH W n true false s NB PL SV CO).
    destruct (py_chain W n d true false) as [[[[f p] vs] cs]|].
    2:{ destruct IH as (s1 & ->). eauto. }
    destruct IH as (s1 & -> & A & B & Q & C & D).
    specialize (IHa W (before_call f s1) NB PA eq_refl ltac:(intros Z; now destruct Z)).
    destruct (py_args W a) as [[[l vs'] cs']|].
    2:{ destruct IHa as (s2 & ->). eauto. }
    destruct IHa as (s2 & -> & A2 & B2 & C2 & D2).
    destruct (callr W f l) as [v|]; [|eauto].
    unfold after_call. rewrite C2. cbn [lex before_call].
    eexists. split; [reflexivity|]. cbn. split; [auto|]. split; [exact B|].
    split; [auto|]. split; [auto|]. cbn in D2. congruence.
  - intros W s NB PL SV CO. cbn. eauto 8.
  - intros e IHe a IHa W s NB PL SV CO. cbn in *. apply andb_true_iff in PL as [PE PA].
    specialize (IHe W s NB PE SV CO). destruct (py_expr W e) as [[[o vs] cs]|].
    2:{ destruct IHe as (s1 & ->). eauto. }
    destruct IHe as (s1 & -> & A & B & C & D).
    specialize (IHa W s1 NB PA A B). destruct (py_args W a) as [[[l vs'] cs']|].
    2:{ destruct IHa as (s2 & ->). eauto. }
    destruct IHa as (s2 & -> & A2 & B2 & C2 & D2).
    exists s2. split; [auto|]. split; [auto|]. split; [auto|]. split; congruence.
Qed.

Lemma store_calm : forall W n o nm k s,
  storable W (n, (o, k)) ->
  saved (attrsub_store W n o nm k s) = None /\
  coh (attrsub_store W n o nm k s) /\
  stored (attrsub_store W n o nm k s) = (n, (o, k)) :: stored s.
Proof.
  intros W n o nm k s [O SK]. cbn in O, SK. unfold attrsub_store.
  apply Nat.eqb_neq in O. rewrite O.
  pose proof (sym_for_calm o nm s) as C. destruct (sym_for o nm s) as [so s1].
  destruct C as (C1 & C2 & C3).
  destruct (note_spec n o k so s1) as (_ & N2 & _ & _ & N5 & N6 & _ & N8 & _).
  rewrite SK. cbn. split; [congruence|]. split; [intros _; cbn; rewrite N8; discriminate|].
  congruence.
Qed.

Lemma target_calm : forall W t s d,
  none_bare W -> plain_target t = true -> saved s = None -> coh s ->
  py_target W t = Some d -> storable W d ->
  exists s', ev_target W t s = (Ok tt, s') /\ saved s' = None /\ coh s' /\
    stored s' = d :: stored s.
Proof.
  intros W t s d NB PL SV CO PY ST. destruct chain_calm as (QE & QC & _).
  destruct t as [n c k|n c e]; cbn in *.
  - pose proof (QC c W n false false s NB PL SV CO) as H.
    destruct (py_chain W n c false false) as [[[[o p] vs] cs]|]; [|discriminate].
    destruct H as (s1 & -> & A & B & _ & _ & D). injection PY as <-.
    destruct (store_calm W n o (name_of c) (KAttr k) s1 ST) as (Z1 & Z2 & Z3).
    eexists. split; [reflexivity|]. split; [auto|]. split; [auto|]. congruence.
  - apply andb_true_iff in PL as [PL PF]. apply andb_true_iff in PL as [PL PE].
    pose proof (QC c W n false false s NB PL SV CO) as H.
    destruct (py_chain W n c false false) as [[[[o p] vs] cs]|]; [|discriminate].
    destruct H as (s1 & -> & A & B & Q & _ & D).
    destruct (py_expr W e) as [[[i vs'] cs']|] eqn:PX; [|discriminate]. injection PY as <-.
    assert (SL : exists s2, ev_expr W e s1 = (Ok i, s2) /\ stored s2 = stored s1).
    { destruct (fresh c).
      - rewrite (Q eq_refl) in A. pose proof (QE e W s1 NB PE A B) as H. rewrite PX in H.
        destruct H as (s2 & H1 & _ & _ & _ & H2). eauto.
      - cbn in PF. destruct e as [c0|x|m c0]; [| |discriminate]; cbn in *.
        + injection PX as <- _ _. eauto.
        + destruct (env W x); [|discriminate]. injection PX as <- _ _. eauto. }
    destruct SL as (s2 & -> & D2).
    destruct (store_calm W n o (name_of c) (KSub i) s2 ST) as (Z1 & Z2 & Z3).
    eexists. split; [reflexivity|]. split; [auto|]. split; [auto|]. congruence.
Qed.

Definition goes (x : world * target) (d : nat * (nat * key)) : Prop :=
  none_bare (fst x) /\ plain_target (snd x) = true /\
  py_target (fst x) (snd x) = Some d /\ storable (fst x) d.

Lemma targets_calm : forall l ds s,
  saved s = None -> coh s -> Forall2 goes l ds ->
  exists s', ev_targets l s = (Ok tt, s') /\ saved s' = None /\ coh s' /\
    stored s' = rev ds ++ stored s.
Proof.
  intros l. induction l as [|[W t] l IH]; intros ds s SV CO F; inversion F; subst; cbn.
  - eauto.
  - destruct H1 as (A & B & C & D). cbn in *.
    destruct (target_calm W t s y A B SV CO C D) as (s1 & -> & Z1 & Z2 & Z3).
    destruct (IH l' s1 Z1 Z2 H3) as (s2 & -> & Y1 & Y2 & Y3).
    exists s2. split; [auto|]. split; [auto|]. split; [auto|].
    rewrite Y3, Z3, <- app_assoc. auto.
Qed.

Lemma slot_In : forall l n d,
  NoDup (map fst l) -> In (n, d) l -> forall r, slot n (l ++ r) = Some d.
Proof.
  intros l n d. induction l as [|[m e] l IH]; intros ND I r; [destruct I|].
  cbn in *. apply NoDup_cons_iff in ND as [NI ND]. destruct I as [E|I].
  - injection E as -> ->. rewrite Nat.eqb_refl. auto.
  - destruct (n =? m) eqn:E; [|now apply IH].
    apply Nat.eqb_eq in E as ->. exfalso. apply NI. now apply (in_map fst) in I.
Qed.

Lemma slook_In : forall l y v, slook l y = Some v -> In (y, v) l.
Proof.
  intros l y v. induction l as [|[z o] l IH]; cbn; [discriminate|].
  destruct (sym_eqb y z) eqn:E; [|auto]. apply sym_eqb_eq in E as ->.
  intros H. injection H as ->. now left.
Qed.

Lemma contains_spec : forall s p sub v, contains s p sub v = true <-> holds s p sub v.
Proof.
  intros s p sub v. unfold contains, holds, has_obj. rewrite existsb_exists. split.
  - intros ([[sc k] o] & I & E). cbn in E. destruct sc as [|q]; [discriminate|].
    apply andb_true_iff in E as [E E2]. apply andb_true_iff in E as [E0 E1].
    apply Nat.eqb_eq in E0 as ->. apply eqb_prop in E1.
    exists k. split; [auto|]. destruct (slook (syms s) (SNs p, k)); [|discriminate].
    apply Nat.eqb_eq in E2. congruence.
  - intros (k & E & L). exists ((SNs p, k), v). split; [now apply slook_In|].
    cbn. rewrite L, E, !Nat.eqb_refl, eqb_reflx. auto.
Qed.

Lemma earliest_spec : forall s l sub v,
  match earliest s l sub v with
  | Some p => exists a b, l = a ++ p :: b /\ holds s p sub v /\ forall q, In q b -> ~ holds s q sub v
  | None => forall q, In q l -> ~ holds s q sub v
  end.
Proof.
  intros s l sub v. induction l as [|p l IH]; cbn; [intros q []|].
  destruct (earliest s l sub v) as [q|].
  - destruct IH as (a & b & -> & H & N). exists (p :: a), b. auto.
  - destruct (contains s p sub v) eqn:C.
    + exists [], l. split; [auto|]. split; [now apply contains_spec|auto].
    + intros q [->|I]; [|auto]. rewrite <- contains_spec. congruence.
Qed.
