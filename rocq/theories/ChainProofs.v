(** Proofs about the worklist of called functions. *)
From Coq Require Import List Arith Bool Lia.
From Verif Require Import Base Loops ChainModel ChainSpec.
Import ListNotations.

(** ** Equality of items *)
Lemma rsym_eqb_eq a b : rsym_eqb a b = true <-> a = b.
Proof.
  unfold rsym_eqb. destruct a as [i r c d], b as [i' r' c' d']; cbn.
  rewrite !andb_true_iff, Nat.eqb_eq, !Bool.eqb_true_iff. split.
  - intros [[[-> ->] ->] ->]. reflexivity.
  - intros E; inversion E; auto.
Qed.

Lemma item_eqb_eq a b : item_eqb a b = true <-> a = b.
Proof.
  unfold item_eqb. destruct a as [a n], b as [b m]; cbn.
  rewrite andb_true_iff, Nat.eqb_eq, rsym_eqb_eq. split; [intros [-> ->]; auto | intros E; inversion E; auto].
Qed.

Lemma item_in_In x l : item_in x l = true <-> In x l.
Proof.
  unfold item_in. rewrite existsb_exists. split.
  - intros (y & I & E). apply item_eqb_eq in E. subst. exact I.
  - intros I. exists x. split; auto. now apply item_eqb_eq.
Qed.

Lemma item_eq_dec (a b : item) : {a = b} + {a <> b}.
Proof.
  destruct (item_eqb a b) eqn:E; [left; now apply item_eqb_eq | right].
  intros ->. assert (item_eqb b b = true) by now apply item_eqb_eq. congruence.
Qed.

(** ** What one item contributes *)
Definition lets (w : world) (b : ref) (r : rsym) : Prop :=
  killed b = true -> here w (id r) = true.

Lemma lets_bool w b r : killed b && negb (here w (id r)) = false <-> lets w b r.
Proof.
  unfold lets. destruct (killed b), (here w (id r)); cbn; split; auto; try discriminate.
  intros H. specialize (H eq_refl). discriminate.
Qed.

Definition unk (w : world) (b : ref) (p : list nat) : bool :=
  match root b with Some x => negb (killed b) && (memb x p || builtin w x) | None => false end.

Lemma follow_spec w c n b l : forall s d s' d',
  fold_left (follow w c n b) l (s, d) = (s', d') ->
  (forall x, In x (work s') <-> In x (work s) \/
     exists r, In r l /\ lets w b r /\ called w (id r) = true /\ x = (pass_on w c r, n)) /\
  (forall y, In y (live s') <-> In y (live s) \/
     exists r, In r l /\ lets w b r /\ is_anonymous w (id r) = false /\ dead r = false /\
       is_unsafe w (pass_on w c r) = false /\ y = pass_on w c r) /\
  unresolved s' = unresolved s /\ uses s' = uses s /\
  (d' = true <-> d = true \/ exists r, In r l /\ lets w b r).
Proof.
  induction l as [|r l IH]; intros s d s' d' E.
  - cbn in E. inversion E; subst. refine (conj _ (conj _ (conj eq_refl (conj eq_refl _)))).
    + intros x. split; auto. intros [H|(r & [] & _)]; auto.
    + intros x. split; auto. intros [H|(r & [] & _)]; auto.
    + split; auto. intros [H|(r & [] & _)]; auto.
  - cbn [fold_left] in E. unfold follow at 2 in E. cbn [fst] in E.
    destruct (killed b && negb (here w (id r))) eqn:K.
    + destruct (IH _ _ _ _ E) as (W & L & U & S & D).
      assert (NL : ~ lets w b r) by (rewrite <- lets_bool; congruence).
      refine (conj _ (conj _ (conj U (conj S _)))); intros; rewrite ?W, ?L, ?D.
      * split; (intros [H|(r' & I & Q)]; [now left | right; exists r']).
        -- split; [now right | exact Q].
        -- destruct I as [<-|I]; [|split; auto]. destruct Q as (Q & _). contradiction.
      * split; (intros [H|(r' & I & Q)]; [now left | right; exists r']).
        -- split; [now right | exact Q].
        -- destruct I as [<-|I]; [|split; auto]. destruct Q as (Q & _). contradiction.
      * split; (intros [H|(r' & I & Q)]; [now left | right; exists r']).
        -- split; [now right | exact Q].
        -- destruct I as [<-|I]; [|split; auto]. contradiction.
    + apply lets_bool in K. change (id (pass_on w c r)) with (id r) in E.
      destruct (IH _ _ _ _ E) as (W & L & U & S & D). clear IH E.
      refine (conj _ (conj _ (conj _ (conj _ _)))).
      * intros x. rewrite W. clear W L U S D.
        assert (Q : forall s0, In x (work (if is_anonymous w (id r) then s0 else
                      if is_live (pass_on w c r) && negb (is_unsafe w (pass_on w c r))
                      then {| work := work s0; live := live s0 ++ [pass_on w c r];
                              unresolved := unresolved s0; uses := uses s0 |} else s0))
                    <-> In x (work s0)).
        { intros s0. destruct (is_anonymous w (id r)); [tauto|].
          destruct (is_live (pass_on w c r) && negb (is_unsafe w (pass_on w c r))); cbn; tauto. }
        rewrite Q. clear Q. split.
        -- intros [H|(r' & I & H)].
           ++ destruct (called w (id r)) eqn:C; auto. cbn in H. destruct H as [<-|H]; auto.
              right. exists r. split; [now left | auto].
           ++ right. exists r'. split; [now right | auto].
        -- intros [H|(r' & [<-|I] & H)].
           ++ left. destruct (called w (id r)); auto. now right.
           ++ left. destruct H as (_ & C & ->). rewrite C. now left.
           ++ right. exists r'. auto.
      * intros y. rewrite L. clear W L U S D.
        assert (Q : In y (live (if is_anonymous w (id r) then
                      (if called w (id r) then {| work := (pass_on w c r, n) :: work s; live := live s;
                         unresolved := unresolved s; uses := uses s |} else s) else
                      if is_live (pass_on w c r) && negb (is_unsafe w (pass_on w c r))
                      then {| work := work (if called w (id r) then {| work := (pass_on w c r, n) :: work s; live := live s;
                         unresolved := unresolved s; uses := uses s |} else s);
                              live := live (if called w (id r) then {| work := (pass_on w c r, n) :: work s; live := live s;
                         unresolved := unresolved s; uses := uses s |} else s) ++ [pass_on w c r];
                              unresolved := unresolved (if called w (id r) then {| work := (pass_on w c r, n) :: work s; live := live s;
                         unresolved := unresolved s; uses := uses s |} else s);
                              uses := uses (if called w (id r) then {| work := (pass_on w c r, n) :: work s; live := live s;
                         unresolved := unresolved s; uses := uses s |} else s) |}
                      else (if called w (id r) then {| work := (pass_on w c r, n) :: work s; live := live s;
                         unresolved := unresolved s; uses := uses s |} else s)))
                    <-> In y (live s) \/ (is_anonymous w (id r) = false /\ dead r = false /\
                          is_unsafe w (pass_on w c r) = false /\ y = pass_on w c r)).
        { assert (LV : forall b : bool, live (if b then {| work := (pass_on w c r, n) :: work s; live := live s;
                         unresolved := unresolved s; uses := uses s |} else s) = live s)
            by (intros []; reflexivity).
          unfold is_live. change (dead (pass_on w c r)) with (dead r).
          destruct (is_anonymous w (id r)); [rewrite LV; intuition discriminate|].
          destruct (dead r); cbn [negb andb]; [rewrite LV; intuition discriminate|].
          destruct (is_unsafe w (pass_on w c r)); cbn [negb live]; rewrite LV;
            [intuition discriminate|]. rewrite in_app_iff. cbn [In]. intuition. }
        rewrite Q. clear Q. split.
        -- intros [[H|H]|(r' & I & H)]; auto.
           ++ right. exists r. split; [now left | auto].
           ++ right. exists r'. split; [now right | auto].
        -- intros [H|(r' & [<-|I] & H)]; auto.
           ++ left. right. tauto.
           ++ right. exists r'. auto.
      * rewrite U. destruct (is_anonymous w (id r)), (called w (id r)),
          (is_live (pass_on w c r) && negb (is_unsafe w (pass_on w c r))); reflexivity.
      * rewrite S. destruct (is_anonymous w (id r)), (called w (id r)),
          (is_live (pass_on w c r) && negb (is_unsafe w (pass_on w c r))); reflexivity.
      * rewrite D. split; auto. intros _. right. exists r. split; [now left | auto].
Qed.

Lemma resolved_in b r : In r (resolved b) <-> In (id r, reac r, casc r) (found b) /\ dead r = killed b.
Proof.
  unfold resolved. rewrite in_map_iff. split.
  - intros ([[i x] y] & <- & I). cbn. auto.
  - intros (I & D). exists (id r, reac r, casc r). split; auto. destruct r; cbn in *. now subst.
Qed.

Lemma through_in b i : In i (through b) <-> exists r, In r (resolved b) /\ id r = i.
Proof.
  unfold through. rewrite in_map_iff. split.
  - intros ([[j x] y] & <- & I). exists {| id := j; reac := x; casc := y; dead := killed b |}.
    rewrite resolved_in. cbn. auto.
  - intros (r & I & <-). apply resolved_in in I. exists (id r, reac r, casc r). tauto.
Qed.

Lemma last_snoc {A} (l : list A) x d : last (l ++ [x]) d = x.
Proof. induction l as [|a l IH]; auto. cbn. destruct (l ++ [x]) eqn:E; auto. destruct l; discriminate. Qed.

Lemma last_of_ends b i : (exists r, last_of (resolved b) = Some r /\ id r = i) <-> ends b i.
Proof.
  unfold last_of, ends, through, resolved. split.
  - intros (r & E & <-). destruct (found b) as [|p l] using rev_ind; [discriminate|].
    rewrite !map_app in *. cbn in *. rewrite last_snoc in E. destruct p as [[j x] y].
    inversion E; subst. cbn. eauto.
  - intros (l & E). destruct (found b) as [|[[j x] y] l' _] using rev_ind; [destruct l; discriminate|].
    rewrite !map_app in *. cbn in *. apply app_inj_tail in E. destruct E as [_ <-].
    rewrite last_snoc. eauto.
Qed.

(** Contributions of an item [x] with body [f]. *)
Definition pushes (w : world) (f : fn) (x y : item) : Prop :=
  exists b r, In b (refs f) /\ In r (resolved b) /\ lets w b r /\ called w (id r) = true /\
    y = (pass_on w (fst x) r, snd x).
Definition gives (w : world) (f : fn) (x : item) (y : rsym) : Prop :=
  exists b r, In b (refs f) /\ In r (resolved b) /\ lets w b r /\ is_anonymous w (id r) = false /\
    dead r = false /\ is_unsafe w (pass_on w (fst x) r) = false /\ y = pass_on w (fst x) r.
Definition lacks (w : world) (f : fn) (b : ref) : Prop :=
  In b (refs f) /\ killed b = false /\ found b = [] /\ unk w b (params f) = false.
Definition touches (upd : bool) (f : fn) (x : item) (u : nat * nat) : Prop :=
  upd = true /\ exists b, In b (refs f) /\ killed b = false /\ ends b (fst u) /\ snd u = snd x.

Lemma use_spec upd b n s :
  work (use upd b n s) = work s /\ live (use upd b n s) = live s /\
  unresolved (use upd b n s) = unresolved s /\
  forall u, In u (uses (use upd b n s)) <->
    In u (uses s) \/ (upd = true /\ killed b = false /\ ends b (fst u) /\ snd u = n).
Proof.
  unfold use. pose proof (last_of_ends b) as LE.
  destruct (last_of (resolved b)) as [r|] eqn:E.
  - assert (EI : forall i, ends b i <-> i = id r).
    { intros i. rewrite <- LE. split.
      - intros (r' & Q & <-). inversion Q; auto.
      - intros ->. eauto. }
    destruct (upd && negb (killed b)) eqn:K; cbn.
    + apply andb_true_iff in K. destruct K as [-> K]. apply negb_true_iff in K.
      refine (conj eq_refl (conj eq_refl (conj eq_refl _))). intros [i m]. cbn.
      rewrite in_app_iff, EI. cbn. split.
      * intros [H|[H|[]]]; auto. inversion H; subst. auto.
      * intros [H|(_ & _ & -> & ->)]; auto.
    + refine (conj eq_refl (conj eq_refl (conj eq_refl _))). intros u. split; auto.
      intros [H|(-> & K' & _)]; auto. rewrite K' in K. discriminate.
  - refine (conj eq_refl (conj eq_refl (conj eq_refl _))). intros u. split; auto.
    intros [H|(_ & _ & Q & _)]; auto. apply LE in Q. destruct Q as (r & Q & _). discriminate.
Qed.

Lemma body_ref_spec w upd f c n s b :
  let s' := body_ref w upd f c n s b in
  (forall x, In x (work s') <-> In x (work s) \/
     exists r, In r (resolved b) /\ lets w b r /\ called w (id r) = true /\ x = (pass_on w c r, n)) /\
  (forall y, In y (live s') <-> In y (live s) \/
     exists r, In r (resolved b) /\ lets w b r /\ is_anonymous w (id r) = false /\ dead r = false /\
       is_unsafe w (pass_on w c r) = false /\ y = pass_on w c r) /\
  (forall y, In y (unresolved s') <-> In y (unresolved s) \/
     (y = b /\ killed b = false /\ found b = [] /\ unk w b (params f) = false)) /\
  (forall u, In u (uses s') <-> In u (uses s) \/
     (upd = true /\ killed b = false /\ ends b (fst u) /\ snd u = n)).
Proof.
  cbv zeta. unfold body_ref. fold (unk w b (params f)).
  destruct (fold_left (follow w c n b) (resolved b) (s, unk w b (params f))) as [s1 d] eqn:E.
  destruct (follow_spec _ _ _ _ _ _ _ _ _ E) as (W & L & U & S & D).
  destruct (use_spec upd b n s1) as (UW & UL & UU & US).
  assert (DN : negb d && negb (killed b) = true <->
               killed b = false /\ found b = [] /\ unk w b (params f) = false).
  { rewrite andb_true_iff, !negb_true_iff. split.
    - intros [-> K]. refine (conj K (conj _ _)).
      + destruct (found b) as [|[[i x] y] l] eqn:F; auto. exfalso.
        assert (false = true); [|discriminate]. apply D. right.
        exists {| id := i; reac := x; casc := y; dead := killed b |}. split.
        * apply resolved_in. cbn. rewrite F. split; auto. now left.
        * unfold lets. congruence.
      + destruct (unk w b (params f)); auto. assert (false = true); [|discriminate]. apply D. auto.
    - intros (K & F & Q). split; auto. destruct d; auto. exfalso.
      destruct (proj1 D eq_refl) as [H|(r & I & _)]; [congruence|].
      apply resolved_in in I. rewrite F in I. destruct I as [[] _]. }
  set (s2 := use upd b n s1) in *.
  refine (conj _ (conj _ (conj _ _))).
  - intros x. rewrite <- W. destruct (negb d && negb (killed b)); cbn; rewrite UW; tauto.
  - intros x. rewrite <- L. destruct (negb d && negb (killed b)); cbn; rewrite UL; tauto.
  - intros y. rewrite <- U, <- UU. destruct (negb d && negb (killed b)) eqn:Q; cbn.
    + rewrite in_app_iff. cbn. apply proj1 in DN. specialize (DN eq_refl).
      split; [intros [H|[<-|[]]]; auto | intros [H|[-> _]]; auto].
    + split; auto. intros [H|[_ H]]; auto. apply DN in H. discriminate.
  - intros u. rewrite <- S, <- US. destruct (negb d && negb (killed b)); cbn; tauto.
Qed.

Lemma body_spec w upd f x l : forall s,
  let s' := fold_left (body_ref w upd f (fst x) (snd x)) l s in
  (forall y, In y (work s') <-> In y (work s) \/ exists b r, In b l /\ In r (resolved b) /\ lets w b r /\
     called w (id r) = true /\ y = (pass_on w (fst x) r, snd x)) /\
  (forall y, In y (live s') <-> In y (live s) \/ exists b r, In b l /\ In r (resolved b) /\ lets w b r /\
     is_anonymous w (id r) = false /\ dead r = false /\ is_unsafe w (pass_on w (fst x) r) = false /\
     y = pass_on w (fst x) r) /\
  (forall b, In b (unresolved s') <-> In b (unresolved s) \/ (In b l /\ killed b = false /\ found b = [] /\
     unk w b (params f) = false)) /\
  (forall u, In u (uses s') <-> In u (uses s) \/
     (upd = true /\ exists b, In b l /\ killed b = false /\ ends b (fst u) /\ snd u = snd x)).
Proof.
  induction l as [|b l IH]; intros s; cbn [fold_left].
  - refine (conj _ (conj _ (conj _ _))); intros y; split; auto.
    + intros [H|(b & r & [] & _)]; auto.
    + intros [H|(b & r & [] & _)]; auto.
    + intros [H|([] & _)]; auto.
    + intros [H|(_ & b & [] & _)]; auto.
  - cbv zeta. destruct (IH (body_ref w upd f (fst x) (snd x) s b)) as (W & L & U & S).
    destruct (body_ref_spec w upd f (fst x) (snd x) s b) as (W1 & L1 & U1 & S1).
    refine (conj _ (conj _ (conj _ _))); intros y.
    + rewrite W, W1. split.
      * intros [[H|(r & H)]|(b' & r & I & H)]; auto; right.
        -- exists b, r. split; [now left | tauto].
        -- exists b', r. split; [now right | tauto].
      * intros [H|(b' & r & [<-|I] & H)]; auto.
        -- left. right. exists r. tauto.
        -- right. exists b', r. tauto.
    + rewrite L, L1. split.
      * intros [[H|(r & H)]|(b' & r & I & H)]; auto; right.
        -- exists b, r. split; [now left | tauto].
        -- exists b', r. split; [now right | tauto].
      * intros [H|(b' & r & [<-|I] & H)]; auto.
        -- left. right. exists r. tauto.
        -- right. exists b', r. tauto.
    + rewrite U, U1. cbn [In]. split.
      * intros [[H|(-> & H)]|H]; auto; right; tauto.
      * intros [H|([<-|I] & H)]; auto; tauto.
    + rewrite S, S1. cbn [In]. split.
      * intros [[H|(-> & H)]|(-> & b' & I & H)]; auto; right; split; auto.
        -- exists b. tauto.
        -- exists b'. tauto.
      * intros [H|(-> & b' & [<-|I] & H)]; auto. right. split; auto. exists b'. tauto.
Qed.

(** ** The worklist *)

(** Items reached from those in [w0]. *)
Inductive reached (w : world) (w0 : list item) : item -> Prop :=
| re_start x : In x w0 -> reached w w0 x
| re_step x f y : reached w w0 x -> dget (defs w) (id (fst x)) = Some f -> pushes w f x y ->
    reached w w0 y.

Record inv (w : world) (upd : bool) (s0 : st) (seen : list item) (s : st) : Prop := {
  i_seen : forall x, In x seen -> reached w (work s0) x /\ dget (defs w) (id (fst x)) <> None;
  i_work : forall x, In x (work s) -> reached w (work s0) x;
  i_start : forall x, In x (work s0) -> In x seen \/ In x (work s) \/ dget (defs w) (id (fst x)) = None;
  i_step : forall x f y, In x seen -> dget (defs w) (id (fst x)) = Some f -> pushes w f x y ->
    In y seen \/ In y (work s) \/ dget (defs w) (id (fst y)) = None;
  i_live : forall y, In y (live s) <-> In y (live s0) \/
    exists x f, In x seen /\ dget (defs w) (id (fst x)) = Some f /\ gives w f x y;
  i_unres : forall y, In y (unresolved s) <-> In y (unresolved s0) \/
    exists x f, In x seen /\ dget (defs w) (id (fst x)) = Some f /\ lacks w f y;
  i_uses : forall y, In y (uses s) <-> In y (uses s0) \/
    exists x f, In x seen /\ dget (defs w) (id (fst x)) = Some f /\ touches upd f x y }.

Lemma inv_start w upd s0 : inv w upd s0 [] s0.
Proof.
  constructor.
  - intros x [].
  - intros x I. now apply re_start.
  - auto.
  - intros x f y [].
  - intros y. split; auto. intros [H|(x & f & [] & _)]; auto.
  - intros y. split; auto. intros [H|(x & f & [] & _)]; auto.
  - intros y. split; auto. intros [H|(x & f & [] & _)]; auto.
Qed.

Definition pop (s : st) (rest : list item) : st :=
  {| work := rest; live := live s; unresolved := unresolved s; uses := uses s |}.

Lemma inv_drop w upd s0 seen s x rest : inv w upd s0 seen s -> work s = x :: rest ->
  In x seen \/ dget (defs w) (id (fst x)) = None -> inv w upd s0 seen (pop s rest).
Proof.
  intros [I1 I2 I3 I4 I5 I6 I7] W H. rewrite W in *. constructor; cbn [work live unresolved uses pop]; auto.
  - intros y J. apply I2. now right.
  - intros y J. destruct (I3 y J) as [Q|[[<-|Q]|Q]]; auto. tauto.
  - intros y f z H1 H2 H3. destruct (I4 y f z H1 H2 H3) as [Q|[[<-|Q]|Q]]; auto. tauto.
Qed.

Lemma inv_visit w upd s0 seen s x rest f : inv w upd s0 seen s -> work s = x :: rest ->
  dget (defs w) (id (fst x)) = Some f ->
  inv w upd s0 (x :: seen) (fold_left (body_ref w upd f (fst x) (snd x)) (refs f) (pop s rest)).
Proof.
  intros [J1 J2 J3 J4 J5 J6 J7] W F. rewrite W in *.
  destruct (body_spec w upd f x (refs f) (pop s rest)) as (BW & BL & BU & BS).
  assert (RX : reached w (work s0) x) by (apply J2; now left).
  constructor.
  - intros y [<-|H]; auto. split; auto. congruence.
  - intros y H. apply BW in H. destruct H as [H|H]; [apply J2; now right|].
    apply (re_step w (work s0) x f); auto.
  - intros y H. destruct (J3 y H) as [J|[[<-|J]|J]]; auto; [left; now right | left; now left|].
    right; left. apply BW. now left.
  - intros y g z [<-|H1] H2 H3.
    + rewrite F in H2. inversion H2; subst g. right. left. apply BW. right. exact H3.
    + destruct (J4 y g z H1 H2 H3) as [J|[[<-|J]|J]]; auto; [left; now right | left; now left|].
      right; left. apply BW. now left.
  - intros y. rewrite BL. cbn [live pop]. rewrite J5. split.
    + intros [[H|(z & g & H1 & H2)]|H]; auto; right.
      * exists z, g. split; [now right | auto].
      * exists x, f. split; [now left | auto].
    + intros [H|(z & g & [<-|H1] & H2 & H3)]; auto.
      * rewrite F in H2. inversion H2; subst g. right. exact H3.
      * left. right. exists z, g. auto.
  - intros y. rewrite BU. cbn [unresolved pop]. rewrite J6. split.
    + intros [[H|(z & g & H1 & H2)]|H]; auto; right.
      * exists z, g. split; [now right | auto].
      * exists x, f. split; [now left | auto].
    + intros [H|(z & g & [<-|H1] & H2 & H3)]; auto.
      * rewrite F in H2. inversion H2; subst g. right. exact H3.
      * left. right. exists z, g. auto.
  - intros y. rewrite BS. cbn [uses pop]. rewrite J7. split.
    + intros [[H|(z & g & H1 & H2)]|H]; auto; right.
      * exists z, g. split; [now right | auto].
      * exists x, f. split; [now left | auto].
    + intros [H|(z & g & [<-|H1] & H2 & H3)]; auto.
      * rewrite F in H2. inversion H2; subst g. right. exact H3.
      * left. right. exists z, g. auto.
Qed.

Lemma chase_inv w upd s0 fuel : forall seen s seen' s',
  inv w upd s0 seen s -> chase fuel w upd seen s = Ok (seen', s') ->
  inv w upd s0 seen' s' /\ work s' = [].
Proof.
  induction fuel as [|k IH]; intros seen s seen' s' I E; [discriminate|].
  cbn [chase] in E. destruct (work s) as [|x rest] eqn:W.
  - inversion E; subst. auto.
  - fold (pop s rest) in E.
    destruct (item_in x seen) eqn:S; [|destruct (dget (defs w) (id (fst x))) as [f|] eqn:F].
    + apply item_in_In in S. apply IH in E; auto. eapply inv_drop; eauto.
    + apply IH in E; auto. eapply inv_visit; eauto.
    + apply IH in E; auto. eapply inv_drop; eauto.
Qed.

(** At the end, the items seen are the functions reached. *)
Lemma chase_seen w upd s0 fuel seen s : chase fuel w upd [] s0 = Ok (seen, s) ->
  inv w upd s0 seen s /\
  forall x, In x seen <-> reached w (work s0) x /\ dget (defs w) (id (fst x)) <> None.
Proof.
  intros E. destruct (chase_inv w upd s0 fuel [] s0 seen s (inv_start w upd s0) E) as (I & W).
  split; auto. intros x. split; [apply (i_seen _ _ _ _ _ I)|]. intros (R & D).
  revert D. induction R as [x H|x f y R IH F P]; intros D.
  - destruct (i_start _ _ _ _ _ I x H) as [J|[J|J]]; auto; [|contradiction].
    rewrite W in J. destruct J.
  - assert (S : In x seen) by (apply IH; congruence).
    destruct (i_step _ _ _ _ _ I x f y S F P) as [J|[J|J]]; auto; [|contradiction].
    rewrite W in J. destruct J.
Qed.

(** ** Termination *)

Definition flags (i : nat) : list rsym :=
  flat_map (fun r => flat_map (fun c => map (fun d => {| id := i; reac := r; casc := c; dead := d |})
    [true; false]) [true; false]) [true; false].

Lemma in_flags r : In r (flags (id r)).
Proof. destruct r as [i [] [] []]; cbn; auto 10. Qed.

Definition all_items (w : world) (s : st) : list item :=
  flat_map (fun n => flat_map (fun i => map (fun r => (r, n)) (flags i))
    (map (fun x => id (fst x)) (work s) ++
     flat_map (fun p : nat * fn => flat_map through (refs (snd p))) (defs w)))
    (map snd (work s)).

Lemma reached_ctr w w0 x : reached w w0 x -> In (snd x) (map snd w0).
Proof.
  induction 1 as [x I|x f y R IH F (b & r & _ & _ & _ & _ & ->)]; auto. now apply in_map.
Qed.

Lemma reached_id w w0 x : reached w w0 x ->
  In (id (fst x)) (map (fun x => id (fst x)) w0 ++
     flat_map (fun p : nat * fn => flat_map through (refs (snd p))) (defs w)).
Proof.
  intros [y I|y f z R F (b & r & B & I & _ & _ & ->)]; apply in_app_iff.
  - left. change (id (fst y)) with ((fun x : item => id (fst x)) y). now apply in_map.
  - right. apply in_flat_map. exists (id (fst y), f). split; [now apply dget_In|]. cbn.
    apply in_flat_map. exists b. split; auto. apply through_in. exists r. auto.
Qed.

Lemma reached_items w s x : reached w (work s) x -> In x (all_items w s).
Proof.
  intros R. unfold all_items. apply in_flat_map. exists (snd x). split; [now apply (reached_ctr w)|].
  apply in_flat_map. exists (id (fst x)). split; [now apply (reached_id w)|].
  apply in_map_iff. exists (fst x). split; [now destruct x | apply in_flags].
Qed.

Definition left_over (V seen : list item) : nat :=
  length (filter (fun x => negb (item_in x seen)) V).

Lemma left_over_lt V x seen : In x V -> ~ In x seen -> left_over V (x :: seen) < left_over V seen.
Proof.
  intros I N. unfold left_over.
  assert (C : forall y, item_in y (x :: seen) = item_eqb y x || item_in y seen) by reflexivity.
  assert (G : forall V, length (filter (fun y => negb (item_in y (x :: seen))) V) <=
                        length (filter (fun y => negb (item_in y seen)) V)).
  { clear -C. induction V as [|y V IH]; auto. cbn [filter]. rewrite C.
    destruct (item_eqb y x), (item_in y seen); cbn [orb negb length]; lia. }
  induction V as [|y V IH]; [destruct I|]. cbn [filter]. rewrite C.
  destruct (item_eqb y x) eqn:E; cbn [orb negb].
  - apply item_eqb_eq in E. subst y. destruct (item_in x seen) eqn:Q.
    + exfalso. apply N. now apply item_in_In.
    + cbn [negb length]. specialize (G V). lia.
  - destruct I as [<-|I]; [rewrite (proj2 (item_eqb_eq y y) eq_refl) in E; discriminate|].
    specialize (IH I). destruct (item_in y seen); cbn [negb length]; lia.
Qed.

Lemma chase_total w upd s0 : forall k m seen s,
  inv w upd s0 seen s -> left_over (all_items w s0) seen <= k -> length (work s) <= m ->
  exists n r, forall fuel, n <= fuel -> chase fuel w upd seen s = Ok r.
Proof.
  induction k as [k IHk] using lt_wf_ind. induction m as [|m IHm]; intros seen s I K M.
  - exists 1, (seen, s). intros fuel L. destruct fuel; [lia|]. cbn.
    destruct (work s); auto. cbn in M. lia.
  - destruct (work s) as [|x rest] eqn:W.
    + exists 1, (seen, s). intros fuel L. destruct fuel; [lia|]. cbn. now rewrite W.
    + destruct (item_in x seen) eqn:S; [|destruct (dget (defs w) (id (fst x))) as [f|] eqn:F].
      * apply item_in_In in S. destruct (IHm seen (pop s rest)) as (n & r & H); auto.
        { eapply inv_drop; eauto. }
        { cbn in *. lia. }
        exists (Datatypes.S n), r. intros fuel L. destruct fuel; [lia|]. cbn [chase]. rewrite W.
        rewrite (proj2 (item_in_In x seen) S). apply H. lia.
      * pose proof (inv_visit w upd s0 seen s x rest f I W F) as I2.
        set (s2 := fold_left (body_ref w upd f (fst x) (snd x)) (refs f) (pop s rest)) in *.
        assert (LT : left_over (all_items w s0) (x :: seen) < left_over (all_items w s0) seen).
        { apply left_over_lt.
          - apply reached_items, (i_work _ _ _ _ _ I). rewrite W. now left.
          - intros H. apply item_in_In in H. congruence. }
        destruct (IHk (left_over (all_items w s0) (x :: seen)) ltac:(lia) (length (work s2))
                    (x :: seen) s2 I2 (le_n _) (le_n _)) as (n & r & H).
        exists (Datatypes.S n), r. intros fuel L. destruct fuel; [lia|]. cbn [chase]. rewrite W, S, F.
        apply H. lia.
      * destruct (IHm seen (pop s rest)) as (n & r & H); auto.
        { eapply inv_drop; eauto. }
        { cbn in *. lia. }
        exists (Datatypes.S n), r. intros fuel L. destruct fuel; [lia|]. cbn [chase]. rewrite W, S, F.
        apply H. lia.
Qed.

(** ** The references in the cell *)
Definition st0 : st := {| work := []; live := []; unresolved := []; uses := [] |}.

Lemma own_spec w uns used b l : forall s d u s' d' u',
  fold_left (own w uns used b) l (s, d, u) = (s', d', u') ->
  (forall x, In x (work s') <-> In x (work s) \/
     exists r, In r l /\ lets w (fst b) r /\ called w (id r) = true /\ x = (r, snd b)) /\
  (forall y, In y (live s') <-> In y (live s) \/
     (In y l /\ lets w (fst b) y /\ dead y = false /\ (uns = true \/ is_unsafe w y = false))) /\
  unresolved s' = unresolved s /\ uses s' = uses s /\
  (d' = true <-> d = true \/ exists r, In r l /\ lets w (fst b) r) /\
  (u' = true <-> u = true /\ forall r, In r l -> used (id r) = false).
Proof.
  induction l as [|r l IH]; intros s d u s' d' u' E.
  - cbn in E. inversion E; subst. refine (conj _ (conj _ (conj eq_refl (conj eq_refl (conj _ _))))).
    + intros x. split; auto. intros [H|(r & [] & _)]; auto.
    + intros x. split; auto. intros [H|([] & _)]; auto.
    + split; auto. intros [H|(r & [] & _)]; auto.
    + split; [intros H; split; auto; intros r [] | tauto].
  - cbn [fold_left] in E. unfold own at 2 in E.
    assert (UN : forall u', (u' = true <-> u && negb (used (id r)) = true /\
                   (forall r', In r' l -> used (id r') = false)) ->
                 (u' = true <-> u = true /\ forall r', In r' (r :: l) -> used (id r') = false)).
    { intros v ->. rewrite andb_true_iff, negb_true_iff. split.
      - intros [[A B] C]. split; auto. intros r' [<-|I]; auto.
      - intros [A B]. refine (conj (conj A _) _); [apply B; now left | intros; apply B; now right]. }
    destruct (killed (fst b) && negb (here w (id r))) eqn:K.
    + destruct (IH _ _ _ _ _ _ E) as (W & L & U & S & D & V).
      assert (NL : ~ lets w (fst b) r) by (rewrite <- lets_bool; congruence).
      refine (conj _ (conj _ (conj U (conj S (conj _ (UN _ V)))))); intros; rewrite ?W, ?L, ?D.
      * split; (intros [H|(r' & I & Q)]; [now left | right; exists r']).
        -- split; [now right | exact Q].
        -- destruct I as [<-|I]; [|split; auto]. destruct Q as (Q & _). contradiction.
      * split; (intros [H|(I & Q)]; [now left | right]).
        -- split; [now right | exact Q].
        -- destruct I as [<-|I]; [|split; auto]. destruct Q as (Q & _). contradiction.
      * split; (intros [H|(r' & I & Q)]; [now left | right; exists r']).
        -- split; [now right | exact Q].
        -- destruct I as [<-|I]; [|split; auto]. contradiction.
    + apply lets_bool in K.
      destruct (IH _ _ _ _ _ _ E) as (W & L & U & S & D & V). clear IH E.
      refine (conj _ (conj _ (conj _ (conj _ (conj _ (UN _ V)))))).
      * intros x. rewrite W. clear W L U S D V UN.
        set (s1 := if called w (id r) then {| work := (r, snd b) :: work s; live := live s;
                     unresolved := unresolved s; uses := uses s |} else s).
        assert (Q : In x (work s1) <-> In x (work s) \/ (called w (id r) = true /\ x = (r, snd b))).
        { unfold s1. destruct (called w (id r)); cbn; intuition; discriminate. }
        transitivity (In x (work s1) \/ exists r0, In r0 l /\ lets w (fst b) r0 /\
           called w (id r0) = true /\ x = (r0, snd b)).
        { destruct (is_live r && (uns || negb (is_unsafe w r))); cbn [work]; tauto. }
        rewrite Q. split.
        -- intros [[H|H]|(r' & I & H)]; auto; right.
           ++ exists r. split; [now left | tauto].
           ++ exists r'. split; [now right | auto].
        -- intros [H|(r' & [<-|I] & H)]; auto; [left; right; tauto | right; exists r'; auto].
      * intros y. rewrite L. clear W L U S D V UN.
        set (s1 := if called w (id r) then {| work := (r, snd b) :: work s; live := live s;
                     unresolved := unresolved s; uses := uses s |} else s).
        assert (Q : live s1 = live s) by (unfold s1; destruct (called w (id r)); reflexivity).
        assert (B : is_live r && (uns || negb (is_unsafe w r)) = true <->
                    dead r = false /\ (uns = true \/ is_unsafe w r = false)).
        { unfold is_live. now rewrite andb_true_iff, negb_true_iff, orb_true_iff, negb_true_iff. }
        destruct (is_live r && (uns || negb (is_unsafe w r))); cbn [live].
        -- rewrite in_app_iff, Q. cbn [In]. destruct (proj1 B eq_refl) as (B1 & B2). split.
           ++ intros [[H|[<-|[]]]|H]; auto; right; tauto.
           ++ intros [H|([<-|I] & H)]; auto.
        -- rewrite Q. cbn [In]. split.
           ++ intros [H|H]; auto. right. tauto.
           ++ intros [H|([<-|I] & H)]; auto. exfalso. destruct H as (_ & H). apply B in H. discriminate.
      * rewrite U. destruct (called w (id r)), (is_live r && (uns || negb (is_unsafe w r))); reflexivity.
      * rewrite S. destruct (called w (id r)), (is_live r && (uns || negb (is_unsafe w r))); reflexivity.
      * rewrite D. split; auto. intros _. right. exists r. split; [now left | auto].
Qed.

Definition base (w : world) (b : ref) : bool :=
  match root b with Some x => builtin w x | None => false end.

Lemma own_refs_spec w uns upd used l : forall s,
  let s' := fold_left (own_ref w uns upd used) l s in
  (forall x, In x (work s') <-> In x (work s) \/ exists b r, In (b, snd x) l /\ In r (resolved b) /\
     lets w b r /\ called w (id r) = true /\ fst x = r) /\
  (forall y, In y (live s') <-> In y (live s) \/ exists b n, In (b, n) l /\ In y (resolved b) /\
     lets w b y /\ dead y = false /\ (uns = true \/ is_unsafe w y = false)) /\
  (forall b, In b (unresolved s') <-> In b (unresolved s) \/ ((exists n, In (b, n) l) /\ killed b = false /\
     found b = [] /\ base w b = false)) /\
  (forall u, In u (uses s') <-> In u (uses s) \/ (upd = true /\ exists b, In (b, snd u) l /\
     killed b = false /\ ends b (fst u) /\ forall i, In i (through b) -> used i = false)).
Proof.
  induction l as [|[b n] l IH]; intros s; cbn [fold_left].
  - cbv zeta. refine (conj _ (conj _ (conj _ _))); intros y; split; auto.
    + intros [H|(b & r & [] & _)]; auto.
    + intros [H|(b & r & [] & _)]; auto.
    + intros [H|((m & []) & _)]; auto.
    + intros [H|(_ & b & [] & _)]; auto.
  - cbv zeta. destruct (IH (own_ref w uns upd used s (b, n))) as (W & L & U & S). clear IH.
    unfold own_ref in *. cbn [fst snd] in *. fold (base w b) in *.
    destruct (fold_left (own w uns used (b, n)) (resolved b) (s, base w b, upd)) as [[s1 d] u] eqn:E.
    destruct (own_spec _ _ _ _ _ _ _ _ _ _ _ E) as (W1 & L1 & U1 & S1 & D1 & V1). cbn [fst snd] in *.
    destruct (use_spec u b n s1) as (W2 & L2 & U2 & S2). set (s2 := use u b n s1) in *.
    assert (DN : negb d && negb (killed b) = true <->
                 killed b = false /\ found b = [] /\ base w b = false).
    { rewrite andb_true_iff, !negb_true_iff. split.
      - intros [-> K]. refine (conj K (conj _ _)).
        + destruct (found b) as [|[[i x] y] l'] eqn:F; auto. exfalso.
          assert (false = true); [|discriminate]. apply D1. right.
          exists {| id := i; reac := x; casc := y; dead := killed b |}. split.
          * apply resolved_in. cbn. rewrite F. split; auto. now left.
          * unfold lets. congruence.
        + destruct (base w b); auto. assert (false = true); [|discriminate]. apply D1. auto.
      - intros (K & F & Q). split; auto. destruct d; auto. exfalso.
        destruct (proj1 D1 eq_refl) as [H|(r & I & _)]; [congruence|].
        apply resolved_in in I. rewrite F in I. destruct I as [[] _]. }
    assert (VU : u = true <-> upd = true /\ forall i, In i (through b) -> used i = false).
    { rewrite V1. split; intros [A B]; split; auto.
      - intros i I. apply through_in in I. destruct I as (r & I & <-). auto.
      - intros r I. apply B, through_in. eauto. }
    set (s3 := if negb d && negb (killed b) then
                 {| work := work s2; live := live s2; unresolved := unresolved s2 ++ [b]; uses := uses s2 |}
               else s2) in *.
    assert (W3 : work s3 = work s1) by (unfold s3; destruct (negb d && negb (killed b)); exact W2).
    assert (L3 : live s3 = live s1) by (unfold s3; destruct (negb d && negb (killed b)); exact L2).
    assert (S3 : uses s3 = uses s2) by (unfold s3; destruct (negb d && negb (killed b)); reflexivity).
    assert (U3 : forall y, In y (unresolved s3) <-> In y (unresolved s) \/
                   (y = b /\ killed b = false /\ found b = [] /\ base w b = false)).
    { intros y. unfold s3. rewrite <- U1, <- U2.
      destruct (negb d && negb (killed b)); cbn [unresolved].
      - rewrite in_app_iff. cbn [In]. apply proj1 in DN. specialize (DN eq_refl).
        split; [intros [H|[<-|[]]]; auto | intros [H|[-> _]]; auto].
      - split; auto. intros [H|[_ H]]; auto. apply DN in H. discriminate. }
    clearbody s3. clear DN E.
    refine (conj _ (conj _ (conj _ _))).
    + intros [x m]. cbn [fst snd] in *. rewrite W, W3, W1. clear. split.
      * intros [[H|(r & I1 & I2 & I3 & Q)]|(b' & r & I & H)]; auto; right.
        -- inversion Q; subst. exists b, r. split; [now left | auto].
        -- exists b', r. split; [now right | tauto].
      * intros [H|(b' & r & [I|I] & I1 & I2 & I3 & <-)]; auto.
        -- inversion I; subst. left. right. exists x. auto.
        -- right. exists b', x. auto.
    + intros y. rewrite L, L3, L1. clear. split.
      * intros [[H|H]|(b' & m & I & H)]; auto; right.
        -- exists b, n. split; [now left | tauto].
        -- exists b', m. split; [now right | tauto].
      * intros [H|(b' & m & [I|I] & H)]; auto.
        -- inversion I; subst. tauto.
        -- right. exists b', m. auto.
    + intros y. rewrite U, U3. clear. split.
      * intros [[H|(-> & H)]|((m & I) & H)]; auto; right; split; auto.
        -- exists n. now left.
        -- exists m. now right.
      * intros [H|((m & [I|I]) & H)]; auto.
        -- inversion I; subst. tauto.
        -- right. split; eauto.
    + intros [i m]. cbn [fst snd] in *. rewrite S, S3, S2, S1. cbn [fst snd]. split.
      * intros [[H|(-> & H1 & H2 & ->)]|(-> & b' & I & H)]; auto; right.
        -- destruct (proj1 VU eq_refl) as (-> & Q). split; auto. exists b. split; [now left | auto].
        -- split; auto. exists b'. split; [now right | auto].
      * intros [H|(-> & b' & [I|I] & H1 & H2 & H3)]; auto.
        -- inversion I; subst. left. right. refine (conj _ (conj H1 (conj H2 eq_refl))).
           apply VU. auto.
        -- right. split; auto. exists b'. auto.
Qed.

(** ** Runs *)
Section Runs.
  Variables (w : world) (uns upd : bool) (used : nat -> bool) (l : list cell_ref).
  Let s0 := fold_left (own_ref w uns upd used) l st0.

  Lemma start_in x : In x (work s0) <-> exists b, In (b, snd x) l /\ In (fst x) (resolved b) /\
    lets w b (fst x) /\ called w (id (fst x)) = true.
  Proof.
    destruct (own_refs_spec w uns upd used l st0) as (W & _). fold s0 in W. rewrite W. split.
    - intros [[]|(b & r & H1 & H2 & H3 & H4 & H5)]. subst r. exists b. auto.
    - intros (b & H1 & H2 & H3 & H4). right. exists b, (fst x). auto.
  Qed.

  Lemma reached_runs x : reached w (work s0) x -> runs w l (snd x) (id (fst x)).
  Proof.
    induction 1 as [x I|x f y R IH F (b & r & B & I & LE & C & ->)].
    - apply start_in in I. destruct I as (b & H1 & H2 & H3 & H4). apply (runs_cell w l _ b); auto.
      apply through_in. eauto.
    - cbn. apply (runs_body w l _ (id (fst x)) f b); auto. apply through_in. eauto.
  Qed.

  Hypothesis LC : locals_current w l.

  Lemma cell_lets b n r : In (b, n) l -> In r (resolved b) -> called w (id r) = true -> lets w b r.
  Proof.
    intros B I C K. apply (proj1 LC b); auto; [exists n; auto|]. apply through_in. eauto.
  Qed.

  Lemma body_lets n i f b r : runs w l n i -> dget (defs w) i = Some f -> In b (refs f) ->
    In r (resolved b) -> called w (id r) = true -> lets w b r.
  Proof.
    intros R F B I C K. apply (proj2 LC f b); auto; [exists n, i; auto|]. apply through_in. eauto.
  Qed.

  Lemma reached_step c n f b r : reached w (work s0) (c, n) -> dget (defs w) (id c) = Some f ->
    In b (refs f) -> In r (resolved b) -> called w (id r) = true ->
    reached w (work s0) (pass_on w c r, n).
  Proof.
    intros R F B I C. apply (re_step w (work s0) (c, n) f); auto. exists b, r.
    refine (conj B (conj I (conj _ (conj C eq_refl)))).
    apply (body_lets n (id c) f); auto. apply (reached_runs (c, n) R).
  Qed.

  Lemma runs_reached n i : runs w l n i -> exists r, reached w (work s0) (r, n) /\ id r = i.
  Proof.
    induction 1 as [b i B I C|i f b j R (c & IH & <-) F B I C].
    - apply through_in in I. destruct I as (r & I & <-). exists r. split; auto.
      apply re_start, start_in. exists b. cbn. refine (conj B (conj I (conj _ C))).
      apply (cell_lets b n); auto.
    - apply through_in in I. destruct I as (r & I & <-). exists (pass_on w c r). split; auto.
      apply (reached_step c n f b); auto.
  Qed.

  Lemma casc_reached i : cascades w l i ->
    exists r n, reached w (work s0) (r, n) /\ id r = i /\ is_cascading_reactive w r = true.
  Proof.
    induction 1 as [b i r c (n & B) I C Q|f b i r c (n & k & R & F & B) I C Q|i f b j _ (c & n & R & <- & Q) F B I C].
    - set (x := {| id := i; reac := r; casc := c; dead := killed b |}).
      assert (IX : In x (resolved b)) by (apply resolved_in; auto).
      exists x, n. refine (conj _ (conj eq_refl _)).
      + apply re_start, start_in. exists b. refine (conj B (conj IX (conj _ C))).
        apply (cell_lets b n); auto.
      + unfold is_cascading_reactive, is_live. cbn. destruct Q as [->|[-> ->]]; auto.
        now rewrite orb_true_r.
    - set (x := {| id := i; reac := r; casc := c; dead := killed b |}).
      assert (IX : In x (resolved b)) by (apply resolved_in; auto).
      destruct (runs_reached n k R) as (y & RY & <-).
      exists (pass_on w y x), n. refine (conj _ (conj eq_refl _)).
      + apply (reached_step y n f b); auto.
      + unfold is_cascading_reactive, is_live. cbn. destruct Q as [->|[-> ->]]; auto.
        now rewrite orb_true_r.
    - apply through_in in I. destruct I as (r & I & <-). exists (pass_on w c r), n.
      refine (conj _ (conj eq_refl _)); [apply (reached_step c n f b); auto|].
      unfold is_cascading_reactive at 1. cbn. rewrite Q. now rewrite orb_true_r.
  Qed.

  Lemma hot_reached i : hot w l i ->
    exists r n, reached w (work s0) (r, n) /\ id r = i /\ is_reactive w r = true.
  Proof.
    induction 1 as [i NB Q|b i r c (n & B) I C NB Q|f b i r c (n & k & R & F & B) I C NB Q
                   |i f b j _ (c & n & R & <- & Q) F B I C NB NL].
    - destruct (casc_reached i Q) as (r & n & R & <- & E). exists r, n. refine (conj R (conj eq_refl _)).
      unfold is_reactive. rewrite NB, E. now rewrite orb_true_r.
    - set (x := {| id := i; reac := r; casc := c; dead := killed b |}).
      assert (IX : In x (resolved b)) by (apply resolved_in; auto).
      exists x, n. refine (conj _ (conj eq_refl _)).
      + apply re_start, start_in. exists b. refine (conj B (conj IX (conj _ C))).
        apply (cell_lets b n); auto.
      + unfold is_reactive, is_live. cbn. rewrite NB. destruct Q as [[-> ->]|[-> ->]]; auto.
        now rewrite orb_true_r.
    - set (x := {| id := i; reac := r; casc := c; dead := killed b |}).
      assert (IX : In x (resolved b)) by (apply resolved_in; auto).
      destruct (runs_reached n k R) as (y & RY & <-).
      exists (pass_on w y x), n. refine (conj _ (conj eq_refl _)).
      + apply (reached_step y n f b); auto.
      + unfold is_reactive, is_live. cbn. rewrite NB. destruct Q as [[-> ->]|[-> ->]]; auto.
        now rewrite orb_true_r.
    - apply through_in in I. destruct I as (r & I & <-). exists (pass_on w c r), n.
      refine (conj _ (conj eq_refl _)); [apply (reached_step c n f b); auto|].
      unfold is_reactive at 1. cbn. rewrite NB, Q, NL. now rewrite orb_true_r.
  Qed.
End Runs.

Section Flags.
  Variables (w : world) (uns upd : bool) (used : nat -> bool) (l : list cell_ref).
  Let s0 := fold_left (own_ref w uns upd used) l st0.

  Lemma reached_casc x : reached w (work s0) x -> is_cascading_reactive w (fst x) = true ->
    cascades w l (id (fst x)).
  Proof.
    intros R. assert (RR := reached_runs w uns upd used l). fold s0 in RR.
    induction R as [x I|x f y R IH F (b & r & B & I & LE & C & ->)].
    - apply start_in in I. destruct I as (b & H1 & H2 & H3 & H4). intros E.
      apply resolved_in in H2. destruct H2 as (H2 & H5).
      apply (c_cell w l b _ (reac (fst x)) (casc (fst x))); auto; [eexists; eauto|].
      unfold is_cascading_reactive, is_live in E. rewrite H5 in E. unfold casc_itself.
      apply orb_true_iff in E. rewrite andb_true_iff, negb_true_iff in E. tauto.
    - cbn. intros E. unfold is_cascading_reactive in E at 1. cbn in E.
      destruct (is_cascading_reactive w (fst x)) eqn:Q.
      + apply (c_chain w l (id (fst x)) f b); auto. apply through_in. eauto.
      + pose proof (RR x R) as RX. apply resolved_in in I. destruct I as (I & D).
        apply (c_body w l f b _ (reac r) (casc r)); auto.
        { exists (snd x), (id (fst x)). auto. }
        unfold is_live in E. cbn in E. rewrite D in E. unfold casc_itself.
        rewrite !orb_true_iff, andb_true_iff, negb_true_iff in E. intuition; discriminate.
  Qed.

  Lemma reached_hot x : reached w (work s0) x -> is_reactive w (fst x) = true ->
    hot w l (id (fst x)).
  Proof.
    intros R. assert (RR := reached_runs w uns upd used l). fold s0 in RR.
    assert (RC : forall y, reached w (work s0) y -> is_blocking w (id (fst y)) = false ->
                   is_cascading_reactive w (fst y) = true -> hot w l (id (fst y))).
    { intros y RY NB E. apply h_casc; auto. now apply reached_casc. }
    induction R as [x I|x f y R IH F (b & r & B & I & LE & C & ->)].
    - assert (RX : reached w (work s0) x) by now apply re_start.
      apply start_in in I. destruct I as (b & H1 & H2 & H3 & H4). intros E.
      unfold is_reactive in E. destruct (is_blocking w (id (fst x))) eqn:NB; [discriminate|].
      destruct (is_cascading_reactive w (fst x)) eqn:Q; [apply RC; auto|].
      apply resolved_in in H2. destruct H2 as (H2 & H5).
      apply (h_cell w l b _ (reac (fst x)) (casc (fst x))); auto; [eexists; eauto|].
      unfold is_live in E. rewrite H5 in E. unfold hot_itself.
      rewrite !orb_true_iff, !andb_true_iff, !negb_true_iff in E. intuition; discriminate.
    - assert (RX : reached w (work s0) (pass_on w (fst x) r, snd x)).
      { apply (re_step w (work s0) x f); auto. exists b, r. auto. }
      intros E. cbn [fst] in *. change (id (pass_on w (fst x) r)) with (id r).
      unfold is_reactive in E at 1. cbn [id pass_on] in E.
      destruct (is_blocking w (id r)) eqn:NB; [discriminate|].
      fold (pass_on w (fst x) r) in E.
      destruct (is_cascading_reactive w (pass_on w (fst x) r)) eqn:Q.
      { specialize (RC _ RX). cbn in RC. auto. }
      destruct (is_reactive w (fst x)) eqn:H.
      + destruct (is_lhs_ref w (id r)) eqn:NL.
        * pose proof (RR x R) as RX'. apply resolved_in in I. destruct I as (I & D).
          apply (h_body w l f b _ (reac r) (casc r)); auto; [exists (snd x), (id (fst x)); auto|].
          cbn in E. rewrite andb_false_r in E. unfold is_live in E. cbn in E.
          rewrite D in E. apply andb_true_iff in E. rewrite negb_true_iff in E. now right.
        * apply (h_chain w l (id (fst x)) f b); auto. apply through_in. eauto.
      + pose proof (RR x R) as RX'. apply resolved_in in I. destruct I as (I & D).
        apply (h_body w l f b _ (reac r) (casc r)); auto; [exists (snd x), (id (fst x)); auto|].
        unfold is_live in E. cbn in E. rewrite D in E.
        rewrite !orb_true_iff, !andb_true_iff, !orb_true_iff, !negb_true_iff in E.
        unfold hot_itself. rewrite H in E. intuition; discriminate.
  Qed.
End Flags.

Lemma safe_ok w r : safe w (id r) -> is_unsafe w r = false.
Proof.
  unfold safe, is_unsafe. destruct (next_called w (id r)); auto. now intros ->.
Qed.
