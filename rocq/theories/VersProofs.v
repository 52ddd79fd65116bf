(** Proofs about timestamps, versions and uses of symbols. *)
From Coq Require Import List Arith Bool ZArith Lia.
From Verif Require Import Base Loops TimestampModel TimestampProofs VersModel VersSpec.
Import ListNotations.
Local Open Scope nat_scope.

(** * The shared recursion *)
Definition trace_ok (next : nat -> list nat) (sn roots : list nat) (tr : list (bool * nat))
    (sn' : list nat) : Prop :=
  (forall x, In x sn' <-> In x sn \/ In (true, x) tr) /\
  (forall x, In (true, x) tr -> ~ In x sn) /\
  NoDup (map snd (filter fst tr)) /\
  (forall b x, In (b, x) tr -> exists r, In r roots /\ reach (fun a y => In y (next a)) r x) /\
  (forall r, In r roots -> exists b, In (b, r) tr) /\
  (forall x y, In (true, x) tr -> In y (next x) -> exists b, In (b, y) tr) /\
  (forall x, In (false, x) tr -> In x sn \/ In (true, x) tr).

Lemma In_fresh x (tr : list (bool * nat)) : In x (map snd (filter fst tr)) <-> In (true, x) tr.
Proof.
  rewrite in_map_iff. split.
  - intros ([b y] & E & I). cbn in E. subst. apply filter_In in I. destruct I as [I B]. cbn in B.
    now subst.
  - intros I. exists (true, x). split; auto. apply filter_In. auto.
Qed.

Lemma NoDup_app_intro {A} (l1 l2 : list A) :
  NoDup l1 -> NoDup l2 -> (forall x, In x l1 -> ~ In x l2) -> NoDup (l1 ++ l2).
Proof.
  induction l1 as [|a l IH]; cbn; auto. intros N1 N2 D. inversion N1; subst. constructor.
  - rewrite in_app_iff. intros [I|I]; [auto|]. exact (D a (or_introl eq_refl) I).
  - apply IH; auto.
Qed.

Lemma trace_app next sn r1 t1 sn1 r2 t2 sn2 :
  trace_ok next sn r1 t1 sn1 -> trace_ok next sn1 r2 t2 sn2 ->
  trace_ok next sn (r1 ++ r2) (t1 ++ t2) sn2.
Proof.
  intros (A1 & B1 & C1 & D1 & E1 & F1 & G1) (A2 & B2 & C2 & D2 & E2 & F2 & G2).
  repeat apply conj.
  - intros x. rewrite A2, A1, in_app_iff. tauto.
  - intros x. rewrite in_app_iff. intros [I|I]; auto. intros J. apply (B2 x I). apply A1. auto.
  - rewrite filter_app, map_app. apply NoDup_app_intro; auto. intros x I J.
    apply In_fresh in I. apply In_fresh in J. apply (B2 x J). apply A1. auto.
  - intros b x. rewrite in_app_iff. intros [I|I].
    + destruct (D1 b x I) as (r & R & Q). exists r. rewrite in_app_iff. auto.
    + destruct (D2 b x I) as (r & R & Q). exists r. rewrite in_app_iff. auto.
  - intros r. rewrite in_app_iff. intros [I|I].
    + destruct (E1 r I) as (b & Q). exists b. rewrite in_app_iff. auto.
    + destruct (E2 r I) as (b & Q). exists b. rewrite in_app_iff. auto.
  - intros x y. rewrite in_app_iff. intros [I|I] J.
    + destruct (F1 x y I J) as (b & Q). exists b. rewrite in_app_iff. auto.
    + destruct (F2 x y I J) as (b & Q). exists b. rewrite in_app_iff. auto.
  - intros x. rewrite !in_app_iff. intros [I|I].
    + destruct (G1 x I); auto.
    + destruct (G2 x I) as [J|J]; auto. apply A1 in J. tauto.
Qed.

Lemma trace_root next sn s tr sn' :
  ~ In s sn -> trace_ok next (s :: sn) (next s) tr sn' -> trace_ok next sn [s] ((true, s) :: tr) sn'.
Proof.
  intros N (A & B & C & D & E & F & G). repeat apply conj.
  - intros x. rewrite A. cbn [In]. split.
    + intros [[J|J]|J]; subst; auto.
    + intros [J|[J|J]]; auto. injection J as <-. auto.
  - intros x [J|J]; [injection J as <-; auto|]. intros K. apply (B x J). right. auto.
  - cbn [filter fst map snd]. constructor; auto. intros J. apply In_fresh in J. apply (B s J). left.
    auto.
  - intros b x [J|J].
    + injection J as <- <-. exists s. split; [left; auto|]. apply reach_refl.
    + destruct (D b x J) as (r & R & Q). exists s. split; [left; auto|].
      eapply reach_step; [|exact Q]. exact R.
  - intros r [<-|[]]. exists true. left. auto.
  - intros x y [J|J] K.
    + injection J as <-. destruct (E y K) as (b & Q). exists b. right. auto.
    + destruct (F x y J K) as (b & Q). exists b. right. auto.
  - intros x [J|J]; [discriminate J|]. destruct (G x J) as [[K|K]|K].
    + subst. right. left. auto.
    + auto.
    + right. right. auto.
Qed.

Lemma trace_nil next sn : trace_ok next sn [] [] sn.
Proof.
  repeat apply conj; cbn; try tauto.
  - constructor.
Qed.

Lemma trace_seen next sn s : In s sn -> trace_ok next sn [s] [(false, s)] sn.
Proof.
  intros I. repeat apply conj.
  - intros x. cbn. split; auto. intros [J|[J|[]]]; auto. discriminate J.
  - intros x [J|[]]. discriminate J.
  - cbn. constructor.
  - intros b x [J|[]]. injection J as <- <-. exists s. split; [left; auto|apply reach_refl].
  - intros r [<-|[]]. exists false. left. auto.
  - intros x y [J|[]]. discriminate J.
  - intros x [J|[]]. injection J as <-. auto.
Qed.

Lemma unvisited_cons V c x : In x V -> ~ In x c -> unvisited V (x :: c) < unvisited V c.
Proof.
  intros I N. apply (unvisited_lt (fun _ => []) V c (x :: c) x); auto; [intros y Hy; right; exact Hy|left; auto].
Qed.

Section Visit.
  Context {A : Type}.
  Variables (fresh old : nat -> A -> A) (next : nat -> list nat).

  Definition act (a : A) (c : bool * nat) : A := if fst c then fresh (snd c) a else old (snd c) a.

  Lemma visit_spec f : forall s p p', visit fresh old next f p s = Ok p' ->
    exists tr, trace_ok next (fst p) [s] tr (fst p') /\ snd p' = fold_left act tr (snd p).
  Proof.
    induction f as [|f IH]; intros s p p'; cbn [visit]; destruct (memb s (fst p)) eqn:M.
    1,3: intros E; injection E as <-; cbn [fst snd]; exists [(false, s)];
         split; [apply trace_seen; now apply memb_In|reflexivity].
    - discriminate.
    - intros E. apply memb_nIn in M.
      assert (Q : forall l q q', rfold (visit fresh old next f) l q = Ok q' ->
                exists tr, trace_ok next (fst q) l tr (fst q') /\ snd q' = fold_left act tr (snd q)).
      { induction l as [|r l IHl]; intros q q'; cbn [rfold].
        - intros [= <-]. exists []. split; [apply trace_nil|reflexivity].
        - rewrite rbind_Ok. intros (q1 & E1 & E2).
          destruct (IH _ _ _ E1) as (t1 & T1 & F1). destruct (IHl _ _ E2) as (t2 & T2 & F2).
          exists (t1 ++ t2). split.
          + change (r :: l) with ([r] ++ l). eapply trace_app; eauto.
          + rewrite fold_left_app, <- F1. exact F2. }
      destruct (Q _ _ _ E) as (tr & T & F). cbn [fst snd] in *.
      exists ((true, s) :: tr). split; [apply trace_root; auto|]. exact F.
  Qed.

  Lemma visits_spec f l : forall p p', rfold (visit fresh old next f) l p = Ok p' ->
    exists tr, trace_ok next (fst p) l tr (fst p') /\ snd p' = fold_left act tr (snd p).
  Proof.
    induction l as [|r l IHl]; intros q q'; cbn [rfold].
    - intros [= <-]. exists []. split; [apply trace_nil|reflexivity].
    - rewrite rbind_Ok. intros (q1 & E1 & E2).
      destruct (visit_spec _ _ _ _ E1) as (t1 & T1 & F1). destruct (IHl _ _ E2) as (t2 & T2 & F2).
      exists (t1 ++ t2). split.
      + change (r :: l) with ([r] ++ l). eapply trace_app; eauto.
      + rewrite fold_left_app, <- F1. exact F2.
  Qed.

  Lemma visit_total V f : forall s p,
    (forall v, In v V -> incl (next v) V) -> In s V -> unvisited V (fst p) <= f ->
    exists p', visit fresh old next f p s = Ok p'.
  Proof.
    induction f as [|f IH]; intros s p CL I L; cbn [visit]; destruct (memb s (fst p)) eqn:M; eauto.
    - exfalso. apply memb_nIn in M.
      assert (unvisited V (s :: fst p) < unvisited V (fst p)); [|lia].
      now apply unvisited_cons.
    - apply memb_nIn in M.
      assert (L1 : unvisited V (s :: fst p) <= f).
      { assert (unvisited V (s :: fst p) < unvisited V (fst p)); [|lia].
        now apply unvisited_cons. }
      assert (Q : forall l q, incl l V -> unvisited V (fst q) <= f ->
                exists q', rfold (visit fresh old next f) l q = Ok q').
      { induction l as [|r l IHl]; intros q Il Lq; cbn [rfold]; eauto.
        destruct (IH r q CL (Il r (or_introl eq_refl)) Lq) as (q1 & E1). rewrite E1. cbn [rbind].
        apply IHl; [intros y Hy; apply Il; right; auto|].
        destruct (visit_spec _ _ _ _ E1) as (tr & (T & _) & _).
        pose proof (unvisited_mono V (fst q) (fst q1)) as X.
        assert (incl (fst q) (fst q1)) as J by (intros y Hy; apply T; auto). specialize (X J). lia. }
      apply Q; auto.
  Qed.

  Lemma visits_total V f l : forall p,
    (forall v, In v V -> incl (next v) V) -> incl l V -> unvisited V (fst p) <= f ->
    exists p', rfold (visit fresh old next f) l p = Ok p'.
  Proof.
    induction l as [|r l IHl]; intros q CL Il Lq; cbn [rfold]; eauto.
    destruct (visit_total V f r q CL (Il r (or_introl eq_refl)) Lq) as (q1 & E1). rewrite E1.
    cbn [rbind]. apply IHl; auto; [intros y Hy; apply Il; right; auto|].
    destruct (visit_spec _ _ _ _ E1) as (tr & (T & _) & _).
    pose proof (unvisited_mono V (fst q) (fst q1)) as X.
    assert (incl (fst q) (fst q1)) as J by (intros y Hy; apply T; auto). specialize (X J). lia.
  Qed.
End Visit.

(** From a start with nothing seen, exactly what can be reached is entered. *)
Lemma trace_reach next s tr sn' : trace_ok next [] [s] tr sn' ->
  forall x, In (true, x) tr <-> reach (fun a y => In y (next a)) s x.
Proof.
  intros (A & B & C & D & E & F & G) x. split.
  - intros I. destruct (D true x I) as (r & [<-|[]] & R). exact R.
  - assert (T : forall b y, In (b, y) tr -> In (true, y) tr).
    { intros [|] y I; auto. destruct (G y I) as [[]|J]; auto. }
    assert (S0 : In (true, s) tr).
    { destruct (E s (or_introl eq_refl)) as (b & J). eauto. }
    intros R. revert S0. clear - T F R. induction R as [a|a b c Hab R IH]; auto.
    intros S0. apply IH. destruct (F a b S0 Hab) as (b0 & J). eauto.
Qed.

Lemma trace_any next s tr sn' : trace_ok next [] [s] tr sn' ->
  forall x, (exists b, In (b, x) tr) <-> reach (fun a y => In y (next a)) s x.
Proof.
  intros T x. rewrite <- (trace_reach _ _ _ _ T x). split; eauto.
  intros ([|] & I); auto. destruct T as (_ & _ & _ & _ & _ & _ & G).
  destruct (G x I) as [[]|J]; auto.
Qed.

(** * What a refresh does *)
Lemma fold_fresh {A} (fresh : nat -> A -> A) tr : forall a,
  fold_left (act fresh (fun _ x => x)) tr a =
  fold_left (fun y x => fresh x y) (map snd (filter fst tr)) a.
Proof.
  induction tr as [|[[|] x] tr IH]; intros a; cbn [fold_left filter map fst snd]; auto.
Qed.

Lemma set_get {A} (f : nat -> A) k v x : set f k v x = if x =? k then v else f x.
Proof. reflexivity. Qed.

Lemma memb_cons x a l : memb x (a :: l) = (x =? a) || memb x l.
Proof. reflexivity. Qed.

Lemma refresh_many H now xs : NoDup xs -> forall S0,
  let S1 := fold_left (fun y x => refresh_one H now x y) xs S0 in
  (forall x, own S1 x = if memb x xs then now else own S0 x) /\
  (forall x, upd S1 x = if memb x xs then own S0 x :: upd S0 x else upd S0 x) /\
  snap S1 = snap S0 /\ used S1 = used S0 /\ live S1 = live S0 /\ deps S1 = deps S0 /\
  (forall n, ((forall x, In x xs -> inside H x <> Some n) /\ mx S1 n = mx S0 n) \/
             ((exists x, In x xs /\ inside H x = Some n) /\ mx S1 n = ts_max (mx S0 n) now)).
Proof.
  induction 1 as [|a xs N ND IH]; intros S0.
  { cbn. repeat apply conj; auto. }
  cbn [fold_left]. specialize (IH (refresh_one H now a S0)).
  set (S1 := fold_left _ xs (refresh_one H now a S0)) in *. cbn zeta in *.
  destruct IH as (I1 & I2 & I3 & I4 & I5 & I6 & I7).
  repeat apply conj; auto.
  - intros x. rewrite I1. rewrite ?memb_cons; cbn [refresh_one own]. rewrite set_get.
    destruct (Nat.eqb_spec x a); cbn [orb]; [destruct (memb x xs)|]; auto.
  - intros x. rewrite I2. rewrite ?memb_cons; cbn [refresh_one own upd]. rewrite !set_get.
    destruct (Nat.eqb_spec x a) as [->|Ne]; cbn [orb]; auto.
    destruct (memb a xs) eqn:M; auto. apply memb_In in M. contradiction.
  - intros n. destruct (I7 n) as [(P & Q)|((x & Ix & Hx) & Q)]; rewrite Q; cbn [refresh_one mx].
    + destruct (inside H a) as [m|] eqn:Ia.
      * rewrite set_get. destruct (Nat.eqb_spec n m) as [->|Ne].
        -- right. split; auto. exists a. split; auto. left. auto.
        -- left. split; auto. intros x [<-|J]; auto. congruence.
      * left. split; auto. intros x [<-|J]; auto. congruence.
    + right. split; [exists x; split; auto; right; auto|].
      destruct (inside H a) as [m|] eqn:Ia; auto. rewrite set_get.
      destruct (Nat.eqb_spec n m) as [->|Ne]; auto. unfold ts_max.
      destruct (ts_ltb (mx S0 m) now) eqn:L; [now rewrite ts_ltb_irrefl|]. now rewrite L.
Qed.

Lemma snap_many xs : NoDup xs -> forall S0,
  let S1 := fold_left (fun y x => snap_one x y) xs S0 in
  own S1 = own S0 /\ upd S1 = upd S0 /\ mx S1 = mx S0 /\
  used S1 = used S0 /\ live S1 = live S0 /\ deps S1 = deps S0 /\
  (forall x, snap S1 x = if memb x xs then snap S0 x ++ [own S0 x] else snap S0 x).
Proof.
  induction 1 as [|a xs N ND IH]; intros S0.
  { cbn. repeat apply conj; auto. }
  cbn [fold_left]. specialize (IH (snap_one a S0)).
  set (S1 := fold_left _ xs (snap_one a S0)) in *. cbn zeta in *.
  destruct IH as (I1 & I2 & I3 & I4 & I5 & I6 & I7).
  repeat apply conj; auto.
  intros x. rewrite I7. rewrite ?memb_cons; cbn [snap_one own snap]. rewrite !set_get.
  destruct (Nat.eqb_spec x a) as [->|Ne]; cbn [orb]; auto.
  destruct (memb a xs) eqn:M; auto. apply memb_In in M. contradiction.
Qed.

Lemma memb_equiv x l l' : (In x l <-> In x l') -> memb x l = memb x l'.
Proof.
  intros E. destruct (memb x l) eqn:M, (memb x l') eqn:M'; auto.
  - apply memb_In, E, memb_In in M. congruence.
  - apply memb_In, E, memb_In in M'. congruence.
Qed.

Lemma snapshots_effect H S0 s S1 : take_snapshots H S0 s = Ok S1 ->
  exists M, (forall x, In x M <-> reach (fun a b => In b (wholes H a)) s x) /\
    own S1 = own S0 /\ upd S1 = upd S0 /\ mx S1 = mx S0 /\
    used S1 = used S0 /\ live S1 = live S0 /\ deps S1 = deps S0 /\
    (forall x, snap S1 x = if memb x M then snap S0 x ++ [own S0 x] else snap S0 x).
Proof.
  unfold take_snapshots. rewrite rmap_Ok. intros ((sn & S2) & E & <-). cbn [snd].
  destruct (visit_spec _ _ _ _ _ _ _ E) as (tr & T & F). cbn [fst snd] in *.
  rewrite fold_fresh in F. exists (map snd (filter fst tr)). split.
  - intros x. rewrite In_fresh. exact (trace_reach _ _ _ _ T x).
  - rewrite F. apply snap_many. destruct T as (_ & _ & N & _). exact N.
Qed.

(** The effect of a refresh: what is written ([W]) and what gets a snapshot ([M]). *)
Lemma refresh_effect H S0 s take descend now S1 : refresh H S0 s take descend now = Ok S1 ->
  exists W M,
    (forall x, In x W <-> writes (Refresh H s take descend now) x now) /\
    (forall x, In x M <-> take = true /\ (ts_ltb (own S0 s) now = true \/ snap S0 s = []) /\
                          reach (fun a b => In b (wholes H a)) s x) /\
    (forall x, own S1 x = if memb x W then now else own S0 x) /\
    (forall x, upd S1 x = if memb x W then own S0 x :: upd S0 x else upd S0 x) /\
    (forall x, snap S1 x = if memb x M then snap S0 x ++ [if x =? s then now else own S0 x]
                           else snap S0 x) /\
    (forall n, ((forall x, In x W -> inside H x <> Some n) /\ mx S1 n = mx S0 n) \/
               ((exists x, In x W /\ inside H x = Some n) /\ mx S1 n = ts_max (mx S0 n) now)) /\
    used S1 = used S0 /\ live S1 = live S0 /\ deps S1 = deps S0.
Proof.
  unfold refresh. rewrite rbind_Ok. intros (S2 & E1 & E2).
  set (R0 := refresh_one H now s S0) in *.
  assert (Q1 : exists M,
    (forall x, In x M <-> take = true /\ (ts_ltb (own S0 s) now = true \/ snap S0 s = []) /\
                          reach (fun a b => In b (wholes H a)) s x) /\
    own S2 = own R0 /\ upd S2 = upd R0 /\ mx S2 = mx R0 /\
    used S2 = used R0 /\ live S2 = live R0 /\ deps S2 = deps R0 /\
    (forall x, snap S2 x = if memb x M then snap R0 x ++ [own R0 x] else snap R0 x)).
  { destruct (take && (ts_ltb (own S0 s) now || is_nil (snap S0 s))) eqn:C.
    - apply andb_true_iff in C. destruct C as [C1 C2]. apply orb_true_iff in C2.
      rewrite is_nil_true in C2.
      destruct (snapshots_effect _ _ _ _ E1) as (M & HM & HE). exists M. split; [|exact HE].
      intros x. rewrite HM. tauto.
    - injection E1 as <-. exists []. repeat apply conj; auto. intros x. split; [intros []|].
      intros (-> & C2 & _). rewrite <- is_nil_true, <- orb_true_iff in C2. rewrite C2 in C.
      discriminate C. }
  destruct Q1 as (M & HM & A1 & A2 & A3 & A4 & A5 & A6 & A7).
  assert (Q2 : exists xs, NoDup xs /\ ~ In s xs /\
    (forall x, In x (s :: xs) <-> writes (Refresh H s take descend now) x now) /\
    S1 = fold_left (fun y x => refresh_one H now x y) xs S2).
  { destruct descend.
    - rewrite rmap_Ok in E2. destruct E2 as ((sn & S3) & E2 & <-). cbn [snd].
      destruct (visits_spec _ _ _ _ _ _ _ E2) as (tr & T & F). cbn [fst snd] in *.
      rewrite fold_fresh in F. exists (map snd (filter fst tr)).
      pose proof T as T0. destruct T as (_ & N1 & N2 & _). repeat apply conj; auto.
      + rewrite In_fresh. intros I. apply (N1 s I). left. auto.
      + intros x. cbn [In]. rewrite In_fresh.
        destruct T0 as (B1 & B2 & B3 & B4 & B5 & B6 & B7).
        assert (BT : forall b y, In (b, y) tr -> y = s \/ In (true, y) tr).
        { intros [|] y J; auto. destruct (B7 y J) as [[K|[]]|K]; auto. }
        cbn [writes]. split.
        * intros [<-|J]; [auto|]. split; auto. right. split; auto.
          destruct (B4 true x J) as (r & Hr & P).
          eapply reach_step; [split; [left; reflexivity|exact Hr]|].
          eapply reach_mono; [|exact P]. intros a b Hab. cbn in Hab.
          destruct (is_class H a) eqn:Ca; [destruct Hab|]. auto.
        * intros (_ & [->|(_ & P)]); auto.
          assert (K : forall a, reach (fun a b => (a = s \/ is_class H a = false) /\
                                   In b (own_parts H a)) a x ->
                      s = a \/ In (true, a) tr -> s = x \/ In (true, x) tr).
          { clear - B2 B5 B6 BT. intros a P. induction P as [a|a b c (Hc & Hab) P IH]; auto.
            intros D. apply IH.
            destruct (Nat.eq_dec a s) as [->|Ne].
            - destruct (B5 b Hab) as (b0 & J). destruct (BT _ _ J); auto.
            - destruct D as [D|D]; [congruence|]. destruct Hc as [Hc|Hc]; [congruence|].
              destruct (B6 a b D) as (b0 & J); [now rewrite Hc|]. destruct (BT _ _ J); auto. }
          exact (K s P (or_introl eq_refl)).
    - injection E2 as <-. exists []. repeat apply conj; auto; [constructor|].
      intros x. cbn [In writes]. intuition congruence. }
  destruct Q2 as (xs & ND & Ns & HW & ->).
  destruct (refresh_many H now xs ND S2) as (I1 & I2 & I3 & I4 & I5 & I6 & I7).
  set (S1 := fold_left _ xs S2) in *.
  exists (s :: xs), M. repeat apply conj; auto.
  - intros x. rewrite I1, A1. unfold R0. rewrite ?memb_cons; cbn [refresh_one own]. rewrite set_get.
    destruct (Nat.eqb_spec x s); cbn [orb]; auto. destruct (memb x xs); auto.
  - intros x. rewrite I2, A1, A2. unfold R0. rewrite ?memb_cons; cbn [refresh_one own upd]. rewrite !set_get.
    destruct (Nat.eqb_spec x s) as [->|Ne]; cbn [orb]; auto.
    destruct (memb s xs) eqn:Ms; auto. apply memb_In in Ms. contradiction.
  - intros x. rewrite I3, A7. unfold R0. cbn [refresh_one own snap]. rewrite set_get. reflexivity.
  - intros n. destruct (I7 n) as [(P & Q)|((x & Ix & Hx) & Q)]; rewrite Q, A3; unfold R0;
      cbn [refresh_one mx].
    + destruct (inside H s) as [m|] eqn:Ia.
      * rewrite set_get. destruct (Nat.eqb_spec n m) as [->|Ne].
        -- right. split; auto. exists s. split; auto. left. auto.
        -- left. split; auto. intros x [<-|J]; auto. congruence.
      * left. split; auto. intros x [<-|J]; auto. congruence.
    + right. split; [exists x; split; auto; right; auto|].
      destruct (inside H s) as [m|] eqn:Ia; auto. rewrite set_get.
      destruct (Nat.eqb_spec n m) as [->|Ne]; auto. unfold ts_max.
      destruct (ts_ltb (mx S0 m) now) eqn:L; [now rewrite ts_ltb_irrefl|]. now rewrite L.
  - rewrite I4, A4. reflexivity.
  - rewrite I5, A5. reflexivity.
  - rewrite I6, A6. reflexivity.
Qed.

(** * What a use leaves alone *)
Definition same_stamps (S0 S1 : state) : Prop :=
  own S1 = own S0 /\ upd S1 = upd S0 /\ snap S1 = snap S0 /\ mx S1 = mx S0.

Lemma same_refl S0 : same_stamps S0 S0.
Proof. repeat apply conj; reflexivity. Qed.

Lemma same_trans S0 S1 S2 : same_stamps S0 S1 -> same_stamps S1 S2 -> same_stamps S0 S2.
Proof. intros (A & B & C & D) (A' & B' & C' & D'). repeat apply conj; congruence. Qed.

Lemma use_one_same H vis st bl at_ s S0 S1 :
  use_one H vis st bl at_ s S0 = Ok S1 -> same_stamps S0 S1.
Proof.
  unfold use_one. destruct bl; [intros [= <-]; apply same_refl|].
  rewrite rbind_Ok. intros (i & _ & E). rewrite rmap_Ok in E. destruct E as (l & _ & <-).
  repeat apply conj; reflexivity.
Qed.

Lemma use_same H vis st bl ex at_ S0 s S1 :
  use H vis st bl ex at_ S0 s = Ok S1 -> same_stamps S0 S1.
Proof.
  unfold use. rewrite rbind_Ok. intros (S2 & E1 & E2). apply use_one_same in E1.
  destruct ex; [injection E2 as <-; auto|].
  rewrite rbind_Ok in E2. destruct E2 as (l & _ & E2).
  eapply same_trans; [exact E1|].
  eapply (rfold_inv _ (same_stamps S2)); [apply same_refl| |exact E2].
  intros a t t' _ St E. eapply same_trans; [exact St|]. eapply use_one_same. exact E.
Qed.

(** * Histories *)
Lemma run_snoc born h e : run born (h ++ [e]) = rbind (run born h) (fun S0 => step S0 e).
Proof.
  unfold run. rewrite rfold_app. destruct (rfold step h (state0 born)) as [S0|]; cbn; auto.
  destruct (step S0 e); auto.
Qed.

Lemma written_snoc h e s t : written (h ++ [e]) s t <-> written h s t \/ writes e s t.
Proof.
  unfold written. split.
  - intros (x & I & Wx). apply in_app_iff in I. destruct I as [I|[<-|[]]]; eauto.
  - intros [(x & I & Wx)|Wx]; [exists x|exists e]; rewrite in_app_iff; cbn; auto.
Qed.

Lemma last_write_snoc h e s t :
  last_write (h ++ [e]) s t <->
  writes e s t \/ ((forall t', ~ writes e s t') /\ last_write h s t).
Proof.
  split.
  - intros (h1 & x & h2 & E & Wx & N). destruct h2 as [|y h2 _] using rev_ind.
    + apply app_inj_tail in E. destruct E as [_ ->]. auto.
    + replace (h1 ++ x :: h2 ++ [y]) with ((h1 ++ x :: h2) ++ [y]) in E
        by (now rewrite <- app_assoc).
      apply app_inj_tail in E. destruct E as [-> ->]. right. split.
      * intros t'. apply N. rewrite in_app_iff. right. left. auto.
      * exists h1, x, h2. repeat apply conj; auto. intros e' t' I. apply N. rewrite in_app_iff. auto.
  - intros [Wx|(N & h1 & x & h2 & -> & Wx & N2)].
    + exists h, e, []. repeat apply conj; auto.
    + exists h1, x, (h2 ++ [e]). rewrite <- app_assoc. repeat apply conj; auto.
      intros e' t'. rewrite in_app_iff. intros [I|[<-|[]]]; auto.
Qed.

Lemma writes_fun e s t t' : writes e s t -> writes e s t' -> t = t'.
Proof. destruct e; cbn; try contradiction. intros [-> _] [-> _]. reflexivity. Qed.

Lemma last_write_fun h s t t' : last_write h s t -> last_write h s t' -> t = t'.
Proof.
  revert t t'. induction h as [|e h IH] using rev_ind; intros t t'.
  - intros (h1 & x & h2 & E & _). destruct h1; discriminate E.
  - rewrite !last_write_snoc. intros [A|(A & B)] [C|(C & D)].
    + eapply writes_fun; eauto.
    + now apply C in A.
    + now apply A in C.
    + auto.
Qed.

Lemma last_write_written h s t : last_write h s t -> written h s t.
Proof.
  intros (h1 & x & h2 & -> & Wx & _). exists x. rewrite in_app_iff. cbn. auto.
Qed.

Lemma stamp_fun born h s t t' : stamp born h s t -> stamp born h s t' -> t = t'.
Proof.
  intros [A|(A & ->)] [B|(B & ->)]; auto.
  - eapply last_write_fun; eauto.
  - apply last_write_written in A. now apply B in A.
  - apply last_write_written in B. now apply A in B.
Qed.

(** Effect of one step on the stamps. *)
Lemma step_effect S0 e S1 : step S0 e = Ok S1 ->
  forall s,
    ((exists t, writes e s t /\ own S1 s = t /\ upd S1 s = own S0 s :: upd S0 s) \/
     ((forall t, ~ writes e s t) /\ own S1 s = own S0 s /\ upd S1 s = upd S0 s)).
Proof.
  destruct e as [n now|H r take descend now|H vis st bl ex at_ r]; cbn [step]; intros E s.
  - injection E as <-. right. cbn. auto.
  - destruct (refresh_effect _ _ _ _ _ _ _ E) as (W & M & HW & _ & A & B & _).
    rewrite (A s), (B s). destruct (memb s W) eqn:Ms.
    + apply memb_In in Ms. left. exists now. repeat apply conj; auto. now apply HW.
    + apply memb_nIn in Ms. right. repeat apply conj; auto.
      intros t Wt. apply Ms, HW. pose proof Wt as W0. cbn [writes] in W0. destruct W0 as [-> _]. auto.
  - destruct (use_same _ _ _ _ _ _ _ _ _ E) as (A & B & _). right. rewrite A, B. cbn. auto.
Qed.

Lemma own_stamp born h : forall S0, run born h = Ok S0 -> forall s, stamp born h s (own S0 s).
Proof.
  induction h as [|e h IH] using rev_ind; intros S0.
  - cbn. intros [= <-] s. right. cbn. split; auto. intros t (x & [] & _).
  - rewrite run_snoc, rbind_Ok. intros (S1 & E1 & E2) s.
    destruct (step_effect _ _ _ E2 s) as [(t & Wt & -> & _)|(N & -> & _)].
    + left. apply last_write_snoc. auto.
    + destruct (IH _ E1 s) as [L|(N2 & E)].
      * left. apply last_write_snoc. auto.
      * right. split; auto. intros t. rewrite written_snoc. intros [J|J]; [apply (N2 t J)|apply (N t J)].
Qed.

Lemma upd_written born h : forall S0, run born h = Ok S0 -> forall s t,
  In t (upd S0 s) \/ t = own S0 s <-> t = born s \/ written h s t.
Proof.
  induction h as [|e h IH] using rev_ind; intros S0.
  - cbn. intros [= <-] s t. cbn. split; [tauto|]. intros [->|(x & [] & _)]; auto.
  - rewrite run_snoc, rbind_Ok. intros (S1 & E1 & E2) s t. specialize (IH _ E1 s).
    rewrite written_snoc.
    destruct (step_effect _ _ _ E2 s) as [(t' & Wt & -> & ->)|(N & -> & ->)].
    + cbn [In]. split.
      * intros [[<-|J]| ->]; [| |tauto].
        -- destruct (proj1 (IH (own S1 s)) (or_intror eq_refl)); auto.
        -- destruct (proj1 (IH t) (or_introl J)); auto.
      * intros [J|[J|J]]; [| |right; eapply writes_fun; eauto].
        -- destruct (proj2 (IH t) (or_introl J)) as [K|K]; [auto|subst; auto].
        -- destruct (proj2 (IH t) (or_intror J)) as [K|K]; [auto|subst; auto].
    + rewrite IH. split; [tauto|]. intros [J|[J|J]]; auto. now apply N in J.
Qed.

(** * Time *)
Lemma writes_wtime e s t : writes e s t -> wtime e = Some t.
Proof. destruct e; cbn; try contradiction. intros [-> _]. reflexivity. Qed.

Lemma stirs_wtime e n t : stirs e n t -> wtime e = Some t.
Proof.
  destruct e; cbn; try contradiction.
  - intros [_ ->]. reflexivity.
  - intros (q & [-> _] & _). reflexivity.
Qed.

Lemma ordered_snoc born h e : ordered born (h ++ [e]) ->
  ordered born h /\
  (forall e1 t1 t2, In e1 h -> wtime e1 = Some t1 -> wtime e = Some t2 -> ts_leb t1 t2 = true) /\
  (forall t, wtime e = Some t -> ts_is_initialized t = true) /\
  (forall s t, writes e s t -> ts_leb (born s) t = true).
Proof.
  intros (A & B & C & D). repeat apply conj; auto.
  - intros h1 e1 h2 e2 h3 t1 t2 E. subst h. eapply (A h1 e1 h2 e2 (h3 ++ [e])).
    rewrite <- !app_assoc. cbn. rewrite <- app_assoc. reflexivity.
  - intros x t I. apply B. rewrite in_app_iff. auto.
  - intros s t Wt. apply C. rewrite written_snoc. auto.
  - intros e1 t1 t2 I. apply in_split in I. destruct I as (h1 & h2 & ->).
    eapply (A h1 e1 h2 e []). rewrite <- app_assoc. reflexivity.
  - intros t. apply B. rewrite in_app_iff. cbn. auto.
  - intros s t Wt. apply C. rewrite written_snoc. auto.
Qed.

Lemma own_le born h e S0 s t : run born h = Ok S0 -> ordered born (h ++ [e]) -> writes e s t ->
  ts_leb (own S0 s) t = true.
Proof.
  intros R O Wt. destruct (ordered_snoc _ _ _ O) as (_ & L & _ & B).
  destruct (own_stamp _ _ _ R s) as [St|(_ & E)].
  - apply last_write_written in St. destruct St as (x & I & Wx).
    eapply L; eauto using writes_wtime.
  - rewrite E. auto.
Qed.

Lemma uninit_le t : ts_is_initialized t = true -> ts_leb ts_uninit t = true.
Proof.
  unfold ts_is_initialized. rewrite andb_true_iff, !Z.ltb_lt. intros [A B]. apply ts_leb_le.
  left. exact A.
Qed.

Lemma ordered_snoc_all born h e : ordered born (h ++ [e]) -> ordered born h.
Proof. intros O. apply (ordered_snoc _ _ _ O). Qed.

(** Stamps are never older than an earlier write. *)
Lemma own_max born h : forall S0, run born h = Ok S0 -> ordered born h ->
  forall s t, t = born s \/ written h s t -> ts_leb t (own S0 s) = true.
Proof.
  induction h as [|e h IH] using rev_ind; intros S0.
  - cbn. intros [= <-] _ s t [->|(x & [] & _)]. apply ts_leb_refl.
  - rewrite run_snoc, rbind_Ok. intros (S1 & E1 & E2) O s t Ht.
    specialize (IH _ E1 (ordered_snoc_all _ _ _ O) s). rewrite written_snoc in Ht.
    destruct (step_effect _ _ _ E2 s) as [(t' & Wt & E & _)|(N & E & _)]; rewrite E.
    + destruct Ht as [Ht|[Ht|Ht]].
      * eapply ts_leb_trans; [apply (IH t); auto|]. eapply own_le; eauto.
      * eapply ts_leb_trans; [apply (IH t); auto|]. eapply own_le; eauto.
      * rewrite (writes_fun _ _ _ _ Ht Wt). apply ts_leb_refl.
    + destruct Ht as [Ht|[Ht|Ht]]; [auto|auto|]. now apply N in Ht.
Qed.

Lemma own_init born h S0 s : run born h = Ok S0 -> ordered born h ->
  own S0 s = ts_uninit \/ ts_is_initialized (own S0 s) = true.
Proof.
  intros R (_ & B & _ & D). destruct (own_stamp _ _ _ R s) as [L|(_ & ->)]; auto.
  apply last_write_written in L. destruct L as (x & I & Wx). right.
  eapply B; [exact I|]. eapply writes_wtime. exact Wx.
Qed.

Lemma written_init born h s t : ordered born h -> written h s t -> ts_is_initialized t = true.
Proof.
  intros (_ & B & _) (x & I & Wx). eapply B; [exact I|]. eapply writes_wtime. exact Wx.
Qed.

(** * Namespaces *)
Lemma mx_stirred born h : forall S0, run born h = Ok S0 -> ordered born h -> forall n,
  (mx S0 n = ts_uninit \/ exists e, In e h /\ stirs e n (mx S0 n)) /\
  (forall e t, In e h -> stirs e n t -> ts_leb t (mx S0 n) = true).
Proof.
  induction h as [|e h IH] using rev_ind; intros S0.
  - cbn. intros [= <-] _ n. split; [auto|contradiction].
  - rewrite run_snoc, rbind_Ok. intros (S1 & E1 & E2) O n.
    destruct (IH _ E1 (ordered_snoc_all _ _ _ O) n) as (I1 & I2).
    destruct (ordered_snoc _ _ _ O) as (O0 & L & In0 & _).
    assert (Lx : forall now, wtime e = Some now -> ts_leb (mx S1 n) now = true).
    { intros now Hn. destruct I1 as [->|(x & Ix & Sx)]; [apply uninit_le; auto|].
      eapply L; eauto using stirs_wtime. }
    assert (Keep : mx S0 n = mx S1 n -> (forall t, ~ stirs e n t) ->
      (mx S0 n = ts_uninit \/ exists x, In x (h ++ [e]) /\ stirs x n (mx S0 n)) /\
      (forall x t, In x (h ++ [e]) -> stirs x n t -> ts_leb t (mx S0 n) = true)).
    { intros -> N. split.
      - destruct I1 as [I1|(x & Ix & Sx)]; auto. right. exists x. rewrite in_app_iff. auto.
      - intros x t. rewrite in_app_iff. intros [J|[<-|[]]] K; eauto. now apply N in K. }
    assert (New : forall now, wtime e = Some now -> mx S0 n = now -> stirs e n now ->
      (mx S0 n = ts_uninit \/ exists x, In x (h ++ [e]) /\ stirs x n (mx S0 n)) /\
      (forall x t, In x (h ++ [e]) -> stirs x n t -> ts_leb t (mx S0 n) = true)).
    { intros now Hn -> Se. split.
      - right. exists e. rewrite in_app_iff. cbn. auto.
      - intros x t. rewrite in_app_iff. intros [J|[<-|[]]] K.
        + eapply L; eauto using stirs_wtime.
        + apply stirs_wtime in K. assert (t = now) by congruence. subst. apply ts_leb_refl. }
    destruct e as [m now|H r take descend now|H vis st bl ex at_ r]; cbn [step] in E2.
    + injection E2 as <-. cbn [mx] in *. rewrite set_get in *.
      destruct (Nat.eqb_spec n m) as [->|Ne].
      * apply (New now); cbn; auto.
      * apply Keep; auto. intros t [? _]. congruence.
    + destruct (refresh_effect _ _ _ _ _ _ _ E2) as (W & M & HW & _ & _ & _ & _ & Hm & _).
      destruct (Hm n) as [(N & E)|((q & Iq & Hq) & E)].
      * apply Keep; auto. intros t (q & Wq & Hq). apply (N q); auto. apply HW.
        pose proof Wq as W0. destruct W0 as [-> _]. exact Wq.
      * apply (New now); cbn [wtime]; auto.
        -- rewrite E. unfold ts_max. specialize (Lx now eq_refl).
           destruct (ts_ltb (mx S1 n) now) eqn:Lt; auto. apply ts_ltb_ge in Lt.
           now apply ts_leb_antisym.
        -- exists q. split; auto. now apply HW.
    + destruct (use_same _ _ _ _ _ _ _ _ _ E2) as (_ & _ & _ & Em). apply Keep; [now rewrite Em|].
      intros t [].
Qed.

(** * Snapshots *)
From Coq Require Import Sorted.
Notation leT := (fun a b => ts_leb a b = true).

Lemma sorted_snoc l a : StronglySorted leT l -> (forall x, In x l -> ts_leb x a = true) ->
  StronglySorted leT (l ++ [a]).
Proof.
  induction 1 as [|b l SS IH F]; intros A; cbn.
  - constructor; constructor.
  - constructor; [apply IH; intros x Ix; apply A; right; auto|].
    apply Forall_app. split; auto. constructor; [|constructor]. apply A. left. auto.
Qed.

Lemma snap_facts born h : forall S0, run born h = Ok S0 -> ordered born h -> forall s,
  (forall x, In x (snap S0 s) -> x = born s \/ written h s x) /\
  StronglySorted leT (snap S0 s).
Proof.
  induction h as [|e h IH] using rev_ind; intros S0.
  - cbn. intros [= <-] _ s. split; [intros x []|constructor].
  - rewrite run_snoc, rbind_Ok. intros (S1 & E1 & E2) O s.
    destruct (IH _ E1 (ordered_snoc_all _ _ _ O) s) as (I1 & I2).
    assert (Keep : snap S0 s = snap S1 s ->
      (forall x, In x (snap S0 s) -> x = born s \/ written (h ++ [e]) s x) /\
      StronglySorted leT (snap S0 s)).
    { intros ->. split; auto. intros x Ix. rewrite written_snoc. destruct (I1 x Ix); auto. }
    destruct e as [m now|H r take descend now|H vis st bl ex at_ r]; cbn [step] in E2.
    + injection E2 as <-. now apply Keep.
    + destruct (refresh_effect _ _ _ _ _ _ _ E2) as (W & M & HW & _ & A & _ & Hs & _).
      rewrite (Hs s) in *. destruct (memb s M) eqn:Mm; [|now apply Keep].
      pose proof (own_max _ _ _ E1 (ordered_snoc_all _ _ _ O) s) as Mx.
      assert (Hv : stamp born h s (own S1 s)) by (eapply own_stamp; eauto).
      destruct (Nat.eqb_spec s r) as [->|Ne].
      * assert (Wr : writes (Refresh H r take descend now) r now) by (cbn; auto).
        split.
        -- intros x. rewrite in_app_iff, written_snoc. intros [J|[<-|[]]]; auto.
           destruct (I1 x J); auto.
        -- apply sorted_snoc; auto. intros x Ix. eapply ts_leb_trans; [apply Mx; auto|].
           eapply own_le; eauto.
      * split.
        -- intros x. rewrite in_app_iff, written_snoc. intros [J|[<-|[]]]; auto.
           ++ destruct (I1 x J); auto.
           ++ destruct Hv as [Hv|(_ & Hv)]; auto. apply last_write_written in Hv. auto.
        -- apply sorted_snoc; auto.
    + destruct (use_same _ _ _ _ _ _ _ _ _ E2) as (_ & _ & Es & _). apply Keep. now rewrite Es.
Qed.

Lemma plain_snoc h e s : plain (h ++ [e]) s ->
  plain h s /\ forall t, writes e s t -> exists H d, e = Refresh H s true d t.
Proof.
  intros P. split.
  - intros x t I. apply P. rewrite in_app_iff. auto.
  - intros t. apply P. rewrite in_app_iff. cbn. auto.
Qed.

(** Every write that takes a snapshot is in the snapshots. *)
Lemma snap_complete born h : forall S0, run born h = Ok S0 -> ordered born h -> forall s,
  plain h s -> forall t, written h s t -> In t (snap S0 s).
Proof.
  induction h as [|e h IH] using rev_ind; intros S0.
  - cbn. intros [= <-] _ s _ t (x & [] & _).
  - rewrite run_snoc, rbind_Ok. intros (S1 & E1 & E2) O s P t.
    destruct (plain_snoc _ _ _ P) as (P0 & P1).
    specialize (IH _ E1 (ordered_snoc_all _ _ _ O) s P0).
    destruct (snap_facts _ _ _ E1 (ordered_snoc_all _ _ _ O) s) as (I1 & _).
    rewrite written_snoc.
    assert (Grow : forall x, In x (snap S1 s) -> In x (snap S0 s)).
    { intros x Ix.
      destruct e as [m now|H r take descend now|H vis st bl ex at_ r]; cbn [step] in E2.
      - injection E2 as <-. auto.
      - destruct (refresh_effect _ _ _ _ _ _ _ E2) as (W & M & _ & _ & _ & _ & Hs & _).
        rewrite (Hs s). destruct (memb s M); auto. rewrite in_app_iff. auto.
      - destruct (use_same _ _ _ _ _ _ _ _ _ E2) as (_ & _ & Es & _). now rewrite Es. }
    intros [Wt|Wt]; [auto|]. pose proof (own_le _ _ _ _ _ _ E1 O Wt) as Le.
    destruct (P1 t Wt) as (H & d & ->).
    cbn [step] in E2.
    destruct (refresh_effect _ _ _ _ _ _ _ E2) as (W & M & _ & HM & _ & _ & Hs & _).
    destruct (memb s M) eqn:Mm.
    + rewrite (Hs s), Mm, Nat.eqb_refl, in_app_iff. right. left. auto.
    + apply memb_nIn in Mm. rewrite HM in Mm.
      assert (Nl : ts_ltb (own S1 s) t = false).
      { destruct (ts_ltb (own S1 s) t) eqn:Lt; auto. exfalso. apply Mm. auto using reach_refl. }
      apply ts_ltb_ge in Nl. pose proof (ts_leb_antisym _ _ Le Nl) as Eq.
      apply Grow. destruct (own_stamp _ _ _ E1 s) as [St|(N & St)].
      * apply last_write_written in St. rewrite <- Eq. auto.
      * destruct (snap S1 s) as [|x l] eqn:Es; [exfalso; apply Mm; auto using reach_refl|].
        destruct (I1 x (or_introl eq_refl)) as [J|J]; [|now apply N in J].
        left. congruence.
Qed.

Lemma times_snoc h e s : times (h ++ [e]) s =
  match e with
  | Refresh _ r _ _ now =>
      if r =? s then if in_dec ts_dec now (times h s) then times h s else times h s ++ [now]
      else times h s
  | _ => times h s
  end.
Proof. unfold times. rewrite fold_left_app. reflexivity. Qed.

Lemma snap_times born h : forall S0, run born h = Ok S0 -> ordered born h -> forall s,
  plain h s -> alone h s -> snap S0 s = times h s.
Proof.
  induction h as [|e h IH] using rev_ind; intros S0.
  - cbn. intros [= <-] _ s _ _. reflexivity.
  - intros R O s P Al. pose proof R as R0. rewrite run_snoc, rbind_Ok in R.
    destruct R as (S1 & E1 & E2).
    destruct (plain_snoc _ _ _ P) as (P0 & P1).
    assert (A0 : alone h s).
    { intros H r d now I. apply (Al H r d now). rewrite in_app_iff. auto. }
    specialize (IH _ E1 (ordered_snoc_all _ _ _ O) s P0 A0).
    rewrite times_snoc, <- IH.
    destruct e as [m now|H r take descend now|H vis st bl ex at_ r]; cbn [step] in E2.
    + injection E2 as <-. auto.
    + destruct (refresh_effect _ _ _ _ _ _ _ E2) as (W & M & _ & HM & _ & _ & Hs & _).
      destruct (Nat.eqb_spec r s) as [->|Ne].
      * assert (Ws : writes (Refresh H s take descend now) s now) by (cbn; auto).
        pose proof (own_le _ _ _ _ _ _ E1 O Ws) as Le.
        destruct (P1 now Ws) as (H' & d' & Ee). injection Ee as _ Et _.
        rewrite (Hs s), Nat.eqb_refl. destruct (memb s M) eqn:Mm.
        -- apply memb_In, HM in Mm. destruct Mm as (_ & C & _).
           destruct (in_dec ts_dec now (snap S1 s)) as [J|J]; auto. exfalso.
           destruct C as [C|C]; [|rewrite C in J; destruct J].
           destruct (snap_facts _ _ _ E1 (ordered_snoc_all _ _ _ O) s) as (I1 & _).
           pose proof (own_max _ _ _ E1 (ordered_snoc_all _ _ _ O) s now (I1 _ J)) as Mx.
           apply ts_ltb_ge in Mx. congruence.
        -- destruct (in_dec ts_dec now (snap S1 s)) as [J|J]; auto. exfalso. apply J.
           assert (K : In now (snap S0 s)).
           { eapply snap_complete; eauto. apply written_snoc. auto. }
           now rewrite (Hs s), Mm in K.
      * rewrite (Hs s). destruct (memb s M) eqn:Mm; auto. exfalso.
        apply memb_In, HM in Mm. destruct Mm as (-> & _ & Re). apply Ne.
        eapply (Al H r descend now); auto. rewrite in_app_iff. right. left. auto.
    + destruct (use_same _ _ _ _ _ _ _ _ _ E2) as (_ & _ & Es & _). now rewrite Es.
Qed.

(** * What is shown *)
Lemma init_own H S0 f seen s : ts_is_initialized (own S0 s) = true ->
  init_ts H S0 f seen s = Ok (own S0 s).
Proof. intros E. destruct f; cbn; now rewrite E. Qed.

Lemma init_shown born h H S0 : run born h = Ok S0 -> forall f seen s t,
  init_ts H S0 f seen s = Ok t -> shown born h H s t.
Proof.
  intros R. induction f as [|f IH]; intros seen s t; cbn [init_ts];
    destruct (ts_is_initialized (own S0 s)) eqn:I; try discriminate.
  1,2: intros [= <-]; apply shown_own; eapply own_stamp; eauto.
  destruct (find _ (wholes H s)) as [q|] eqn:Fd.
  - intros E. apply find_some in Fd. destruct Fd as [Fd _].
    eapply shown_whole; eauto. eapply own_stamp; eauto.
  - intros [= <-]. apply shown_own. eapply own_stamp; eauto.
Qed.

Lemma shown_stamp born h H s t u : shown born h H s t -> stamp born h s u ->
  ts_is_initialized u = true -> t = u.
Proof.
  intros [x y St|x y q v St I _ _] Su Iu.
  - eapply stamp_fun; eauto.
  - rewrite (stamp_fun _ _ _ _ _ St Su) in I. congruence.
Qed.

Lemma collect_spec H S0 ub s l : collect H S0 ub s = Ok l ->
  (forall t, In t l <-> exists p lp, part H s p /\ own_stamps H S0 ub p = Ok lp /\ In t lp) /\
  (forall p, part H s p -> exists lp, own_stamps H S0 ub p = Ok lp).
Proof.
  unfold collect. rewrite rbind_Ok. intros ((sn & r) & E & E'). cbn [snd] in E'. subst r.
  destruct (visit_spec _ _ _ _ _ _ _ E) as (tr & T & F). cbn [fst snd] in *.
  pose proof (trace_any _ _ _ _ T) as R.
  set (add := fun (t : nat) (a : res (list ts)) =>
                rbind a (fun l => rmap (fun l' => l ++ l') (own_stamps H S0 ub t))) in *.
  assert (G : forall tr l0 l1, Ok l1 = fold_left (act add add) tr (Ok l0) ->
            (forall t, In t l1 <-> In t l0 \/
               exists b p lp, In (b, p) tr /\ own_stamps H S0 ub p = Ok lp /\ In t lp) /\
            (forall b p, In (b, p) tr -> exists lp, own_stamps H S0 ub p = Ok lp)).
  { clear. induction tr as [|[b p] tr IH]; intros l0 l1; cbn [fold_left].
    - intros [= ->]. split; [|intros b p []]. intros t. split; auto.
      intros [J|(b & p & lp & [] & _)]; auto.
    - replace (act add add (Ok l0) (b, p)) with (add p (Ok l0)) by (destruct b; reflexivity).
      unfold add at 3. cbn [rbind]. destruct (own_stamps H S0 ub p) as [lp|e] eqn:Ep; cbn [rmap].
      + intros E. destruct (IH _ _ E) as (I1 & I2). split.
        * intros t. rewrite I1, in_app_iff. split.
          -- intros [[J|J]|(b' & p' & lp' & J & K)]; auto.
             ++ right. exists b, p, lp. split; [left; auto|auto].
             ++ right. exists b', p', lp'. split; [right; auto|auto].
          -- intros [J|(b' & p' & lp' & [J|J] & K1 & K2)]; auto.
             ++ injection J as <- <-. rewrite Ep in K1. injection K1 as <-. auto.
             ++ right. exists b', p', lp'. auto.
        * intros b' p' [J|J]; [injection J as <- <-; eauto|eauto].
      + intros E. exfalso. clear - E. revert E.
        assert (X : forall tt, fold_left (act add add) tt (Err e) = Err e).
        { induction tt as [|[[|] x] tt IHt]; [reflexivity|exact IHt|exact IHt]. }
        rewrite X. discriminate. }
  destruct (G _ _ _ F) as (G1 & G2). split.
  - intros t. rewrite G1. split.
    + intros [[]|(b & p & lp & J & K)]. exists p, lp. split; auto. apply R. eauto.
    + intros (p & lp & J & K). right. apply R in J. destruct J as (b & J). exists b, p, lp. auto.
  - intros p J. apply R in J. destruct J as (b & J). eauto.
Qed.

Lemma deep_facts born h H S0 s t : run born h = Ok S0 -> ordered born h -> deep H S0 s = Ok t ->
  exists a, shallow H S0 s = Ok a /\
    (t = a \/ exists n e, ns_of H s = Some n /\ In e h /\ stirs e n t) /\
    ts_leb a t = true /\
    (is_module H s = false -> forall n e u, ns_of H s = Some n -> In e h -> stirs e n u ->
       ts_leb u t = true).
Proof.
  intros R O. unfold deep. rewrite rmap_Ok. intros (a & Ea & <-). exists a.
  destruct (is_module H s); [split; auto; split; auto; split; [apply ts_leb_refl|discriminate]|].
  destruct (ns_of H s) as [n|] eqn:En.
  - destruct (mx_stirred _ _ _ R O n) as (I1 & I2). unfold ts_max.
    split; auto. destruct (ts_ltb a (mx S0 n)) eqn:L.
    + repeat apply conj.
      * destruct I1 as [I1|(e & Ie & Se)]; [|right; exists n, e; auto].
        left. exfalso. rewrite I1 in L. apply ts_ltb_lt in L. cbn in L.
        assert (Ia : forall f sn x b, init_ts H S0 f sn x = Ok b ->
                       ts_leb ts_uninit b = true).
        { clear - R O. induction f as [|f IH]; intros sn x b; cbn [init_ts].
          - destruct (ts_is_initialized (own S0 x)) eqn:I; [|discriminate].
            intros [= <-]. now apply uninit_le.
          - destruct (ts_is_initialized (own S0 x)) eqn:I.
            + intros [= <-]. now apply uninit_le.
            + destruct (find _ _); [apply IH|]. intros [= <-].
              destruct (own_init _ _ _ x R O) as [E|E]; [rewrite E; reflexivity|congruence]. }
        specialize (Ia _ _ _ _ Ea). apply ts_leb_le in Ia. cbn in Ia. lia.
      * apply ts_leb_le. apply ts_ltb_lt in L. lia.
      * intros _ n' e u [= <-]. apply I2.
    + apply ts_ltb_ge in L. repeat apply conj; auto; [apply ts_leb_refl|].
      intros _ n' e u [= <-] Ie Se. eapply ts_leb_trans; [eapply I2; eauto|exact L].
  - split; auto. split; auto. split; [apply ts_leb_refl|]. discriminate.
Qed.

Lemma py_index_spec l k t : py_index l k = Ok t <-> at_index l k t.
Proof.
  unfold py_index, at_index. set (n := Z.of_nat (length l)). cbn zeta.
  assert (X : forall i t, nth_error l i = Some t -> i < length l).
  { intros i t0 E. apply nth_error_Some. congruence. }
  destruct (Z.ltb_spec k 0).
  - destruct (Z.ltb_spec (n + k) 0).
    + split; [discriminate|]. intros (i & E & [K|(K & K')]); lia.
    + rewrite of_option_Ok. split.
      * intros E. exists (Z.to_nat (n + k)). split; auto. right. unfold n in *. lia.
      * intros (i & E & [K|(K & K')]); [lia|]. rewrite <- E. f_equal. unfold n in *. lia.
  - destruct (Z.ltb_spec k 0); [lia|]. rewrite of_option_Ok. split.
    + intros E. exists (Z.to_nat k). split; auto. left. lia.
    + intros (i & E & [K|(K & K')]); [|lia]. rewrite <- E. f_equal. lia.
Qed.

Lemma py_index_err l k e : py_index l k = Err e -> e = IndexError.
Proof.
  unfold py_index. cbn zeta. destruct (_ <? 0)%Z; [now intros [= <-]|].
  rewrite of_option_Err. tauto.
Qed.

Lemma sorted_split l1 : forall (a : ts) l2, StronglySorted leT (l1 ++ a :: l2) ->
  (forall x, In x l1 -> ts_leb x a = true) /\ (forall x, In x l2 -> ts_leb a x = true).
Proof.
  induction l1 as [|b l1 IH]; cbn; intros a l2 SS; inversion SS as [|? ? S1 F]; subst.
  - split; [intros x []|]. now apply Forall_forall.
  - destruct (IH _ _ S1) as (A & B). split; auto. intros x [<-|J]; auto.
    rewrite Forall_forall in F. apply F. rewrite in_app_iff. right. left. auto.
Qed.

Lemma find_last l u : StronglySorted leT l ->
  match find (fun t => ts_leb t u) (rev l) with
  | Some t => In t l /\ ts_leb t u = true /\
              (forall x, In x l -> ts_leb x u = true -> ts_leb x t = true)
  | None => forall x, In x l -> ts_leb x u = false
  end.
Proof.
  induction l as [|a l IH] using rev_ind; cbn.
  - intros _ x [].
  - intros SS. rewrite rev_app_distr. cbn [rev app find].
    destruct (sorted_split l a [] SS) as (A & _).
    assert (S1 : StronglySorted leT l).
    { clear - SS. induction l as [|b l IH]; [constructor|]. inversion SS as [|? ? S1 F]; subst.
      constructor; auto. rewrite Forall_forall in *. intros x Ix. apply F.
      rewrite in_app_iff. auto. }
    destruct (ts_leb a u) eqn:L.
    + repeat apply conj; auto.
      * rewrite in_app_iff. right. left. auto.
      * intros x. rewrite in_app_iff. intros [J|[<-|[]]] _; auto. apply ts_leb_refl.
    + specialize (IH S1). destruct (find _ (rev l)) as [t|].
      * destruct IH as (I1 & I2 & I3). repeat apply conj; auto; [rewrite in_app_iff; auto|].
        intros x. rewrite in_app_iff. intros [J|[<-|[]]] Lx; auto. congruence.
      * intros x. rewrite in_app_iff. intros [J|[<-|[]]]; auto.
Qed.

(** The last snapshot of something that was written. *)
Lemma last_snap born h S0 s t : run born h = Ok S0 -> ordered born h -> plain h s ->
  written h s t -> exists u, py_index (snap S0 s) (-1) = Ok u /\ (cell_num u =? -1)%Z = false.
Proof.
  intros R O P Wt. pose proof (snap_complete _ _ _ R O s P t Wt) as I.
  destruct (snap_facts _ _ _ R O s) as (_ & SS).
  pose proof (written_init _ _ _ _ O Wt) as It.
  destruct (snap S0 s) as [|u l _] using rev_ind; [destruct I|].
  exists u. split.
  - apply py_index_spec. exists (length l). split.
    + rewrite nth_error_app2, Nat.sub_diag; auto.
    + right. rewrite app_length. cbn [length]. lia.
  - apply in_app_iff in I. destruct (sorted_split l u [] SS) as (A & _).
    assert (L : ts_leb t u = true) by (destruct I as [I|[<-|[]]]; [auto|apply ts_leb_refl]).
    apply ts_leb_le in L. unfold ts_is_initialized in It.
    apply andb_true_iff in It. destruct It as [It _]. apply Z.ltb_lt in It. cbn in It.
    apply Z.eqb_neq. lia.
Qed.

(** * Uses *)
Notation geT := (fun a b => ts_leb b a = true).

Lemma In_insert x t l : In x (insert t l) <-> x = t \/ In x l.
Proof.
  induction l as [|a l IH]; cbn [insert].
  - cbn. split; intros [J|[]]; auto.
  - destruct (ts_leb a t); cbn [In]; [|rewrite IH]; intuition.
Qed.

Lemma In_sort x l : In x (sort_desc l) <-> In x l.
Proof.
  unfold sort_desc. induction l as [|a l IH]; cbn [fold_right In]; [tauto|].
  rewrite In_insert, IH. intuition.
Qed.

Lemma insert_sorted t l : StronglySorted geT l -> StronglySorted geT (insert t l).
Proof.
  induction 1 as [|a l SS IH F]; cbn [insert]; [constructor; constructor|].
  rewrite Forall_forall in F. destruct (ts_leb a t) eqn:L.
  - constructor; [constructor; auto; now apply Forall_forall|]. apply Forall_forall.
    intros x [<-|J]; auto. eapply ts_leb_trans; [apply F; auto|exact L].
  - constructor; auto. apply Forall_forall. intros x Ix. apply In_insert in Ix.
    destruct Ix as [->|Ix]; auto. destruct (ts_leb_total a t); congruence.
Qed.

Lemma sort_sorted l : StronglySorted geT (sort_desc l).
Proof.
  unfold sort_desc. induction l as [|a l IH]; cbn [fold_right]; [constructor|].
  now apply insert_sorted.
Qed.

Notation mk st at_ u p := {| d_static := st; d_used := at_; d_upd := u; d_sym := p |}.

Lemma loop_dynamic vis at_ p l : StronglySorted geT l ->
  let top u := In u l /\ ts_is_initialized u = true /\
               (forall v, In v l -> ts_is_initialized v = true -> ts_leb v u = true) /\
               ts_ltb u at_ = true in
  (forall d, In d (fst (use_loop vis false at_ p l)) <-> exists u, top u /\ d = mk false at_ u p) /\
  (snd (use_loop vis false at_ p l) = true <-> exists u, top u).
Proof.
  induction 1 as [|a l SS IH F]; cbn [use_loop fst snd].
  { cbn. split; [intros d; split; [intros []|intros (u & ([] & _) & _)]|].
    split; [discriminate|]. intros (u & [] & _). }
  rewrite Forall_forall in F. cbn zeta in *.
  destruct (ts_is_initialized a) eqn:Ia; cbn [negb].
  - assert (Top : forall u, (In u (a :: l) /\ ts_is_initialized u = true /\
        (forall v, In v (a :: l) -> ts_is_initialized v = true -> ts_leb v u = true) /\
        ts_ltb u at_ = true) <-> u = a /\ ts_ltb a at_ = true).
    { intros u. split.
      - intros ([<-|Iu] & _ & Mx & L); auto.
        assert (u = a) by (apply ts_leb_antisym; [auto|apply Mx; [left; auto|auto]]).
        subst. auto.
      - intros (-> & L). repeat apply conj; auto; [left; auto|].
        intros v [<-|Iv] _; [apply ts_leb_refl|auto]. }
    destruct (ts_ltb a at_) eqn:L; cbn [fst snd].
    + split.
      * intros d. split.
        -- intros [<-|[]]. exists a. split; auto. now apply Top.
        -- intros (u & T & ->). apply Top in T. destruct T as [-> _]. left. auto.
      * split; auto. intros _. exists a. now apply Top.
    + split.
      * intros d. split; [intros []|]. intros (u & T & _). apply Top in T. destruct T. discriminate.
      * split; [discriminate|]. intros (u & T). apply Top in T. destruct T. discriminate.
  - assert (Top : forall u, (In u (a :: l) /\ ts_is_initialized u = true /\
        (forall v, In v (a :: l) -> ts_is_initialized v = true -> ts_leb v u = true) /\
        ts_ltb u at_ = true) <-> (In u l /\ ts_is_initialized u = true /\
        (forall v, In v l -> ts_is_initialized v = true -> ts_leb v u = true) /\
        ts_ltb u at_ = true)).
    { intros u. split.
      - intros ([<-|Iu] & Ii & Mx & L); [congruence|]. repeat apply conj; auto.
        intros v Iv. apply Mx. right. auto.
      - intros (Iu & Ii & Mx & L). repeat apply conj; auto; [right; auto|].
        intros v [<-|Iv] Iv'; [congruence|auto]. }
    destruct IH as (I1 & I2). split.
    + intros d. rewrite I1. split; intros (u & T & E); exists u; split; auto; now apply Top.
    + rewrite I2. split; intros (u & T); exists u; now apply Top.
Qed.

Lemma loop_static vis at_ p l : StronglySorted geT l ->
  (forall d, In d (fst (use_loop vis true at_ p l)) <->
     exists u, In u l /\ ts_is_initialized u = true /\
       (forall v, In v l -> ts_is_initialized v = true -> ts_ltb u v = true -> vis v = false) /\
       d = mk true at_ u p) /\
  (snd (use_loop vis true at_ p l) = true <->
     exists u, In u l /\ ts_is_initialized u = true /\ vis u = true).
Proof.
  induction 1 as [|a l SS IH F]; cbn [use_loop fst snd].
  { cbn. split; [intros d; split; [intros []|intros (u & [] & _)]|].
    split; [discriminate|]. intros (u & [] & _). }
  rewrite Forall_forall in F. destruct IH as (I1 & I2).
  destruct (ts_is_initialized a) eqn:Ia; cbn [negb].
  - destruct (vis a) eqn:Va; cbn [fst snd].
    + split.
      * intros d. split.
        -- intros [<-|[]]. exists a. repeat apply conj; auto; [left; auto|].
           intros v [<-|Iv] _ L; [now rewrite ts_ltb_irrefl in L|]. apply F in Iv.
           apply ts_ltb_ge in Iv. congruence.
        -- intros (u & [<-|Iu] & Ii & Nv & ->); [left; auto|].
           destruct (ts_ltb u a) eqn:L.
           ++ rewrite (Nv a (or_introl eq_refl) Ia L) in Va. discriminate.
           ++ apply ts_ltb_ge in L. left. rewrite (ts_leb_antisym _ _ L (F _ Iu)). auto.
      * split; auto. intros _. exists a. split; [left; auto|auto].
    + split.
      * intros d. cbn [In]. rewrite I1. split.
        -- intros [<-|(u & Iu & Ii & Nv & ->)].
           ++ exists a. repeat apply conj; auto.
              intros v [<-|Iv] _ L; auto. apply F in Iv. apply ts_ltb_ge in Iv. congruence.
           ++ exists u. repeat apply conj; auto. intros v [<-|Iv]; auto.
        -- intros (u & [<-|Iu] & Ii & Nv & ->); [left; auto|]. right.
           exists u. repeat apply conj; auto.
      * rewrite I2. split.
        -- intros (u & Iu & K). exists u. split; [right; auto|auto].
        -- intros (u & [<-|Iu] & Ii & Vu); [congruence|]. eauto.
  - split.
    + intros d. rewrite I1. split.
      * intros (u & Iu & Ii & Nv & ->). exists u. repeat apply conj; auto; [right; auto|].
        intros v [<-|Iv] Ivi; [congruence|auto].
      * intros (u & [<-|Iu] & Ii & Nv & ->); [congruence|].
        exists u. repeat apply conj; auto. intros v Iv. apply Nv. right. auto.
    + rewrite I2. split.
      * intros (u & Iu & K). exists u. split; [right; auto|auto].
      * intros (u & [<-|Iu] & Ii & Vu); [congruence|]. eauto.
Qed.

Lemma init_same H S0 S1 : own S1 = own S0 -> forall f sn s,
  init_ts H S1 f sn s = init_ts H S0 f sn s.
Proof.
  intros E. induction f as [|f IH]; intros sn s; cbn [init_ts]; rewrite E; auto.
  destruct (ts_is_initialized (own S0 s)); auto. destruct (find _ _); auto.
Qed.

Lemma shallow_same H S0 S1 s : same_stamps S0 S1 -> shallow H S1 s = shallow H S0 s.
Proof. intros (E & _). unfold shallow. now apply init_same. Qed.

Lemma updates_same H S0 S1 s : same_stamps S0 S1 -> updates H S1 s = updates H S0 s.
Proof.
  intros Sm. unfold updates. rewrite (shallow_same H S0 S1 s Sm). destruct Sm as (_ & E & _).
  now rewrite E.
Qed.

Definition dict_of (st : bool) (S0 : state) : nat -> ts -> option ts :=
  if st then live S0 else used S0.

Lemma use_one_effect H vis st at_ p S0 S1 : use_one H vis st false at_ p S0 = Ok S1 ->
  exists i l, shallow H S0 p = Ok i /\ updates H S0 p = Ok l /\
    deps S1 = deps S0 ++ fst (use_loop vis st at_ p (sort_desc l)) /\
    dict_of (negb st) S1 = dict_of (negb st) S0 /\
    forall q t, dict_of st S1 q t =
      if (q =? p) && (snd (use_loop vis st at_ p (sort_desc l)) && ts_is_initialized at_) &&
         ts_eqb t at_ then Some i else dict_of st S0 q t.
Proof.
  unfold use_one. rewrite rbind_Ok. intros (i & Ei & E). rewrite rmap_Ok in E.
  destruct E as (l & El & <-). exists i, l. repeat apply conj; auto.
  - destruct st; reflexivity.
  - intros q t. set (b := snd _ && _).
    destruct st; cbn [dict_of live used]; fold b; destruct b; cbn [andb];
      rewrite ?andb_true_r, ?andb_false_r; auto; rewrite set_get;
      destruct (Nat.eqb_spec q p) as [->|]; cbn [andb]; auto.
Qed.

Lemma use_many H vis st at_ l : forall S0 S1,
  rfold (fun S2 t => use_one H vis st false at_ t S2) l S0 = Ok S1 ->
  same_stamps S0 S1 /\
  (forall p, In p l -> exists i lp, shallow H S0 p = Ok i /\ updates H S0 p = Ok lp) /\
  (exists nw, deps S1 = deps S0 ++ nw /\
     forall d, In d nw <-> exists p lp, In p l /\ updates H S0 p = Ok lp /\
                             In d (fst (use_loop vis st at_ p (sort_desc lp)))) /\
  dict_of (negb st) S1 = dict_of (negb st) S0 /\
  (forall p t, ~ In p l -> dict_of st S1 p t = dict_of st S0 p t) /\
  (forall p t i lp, In p l -> shallow H S0 p = Ok i -> updates H S0 p = Ok lp ->
     dict_of st S1 p t =
       if snd (use_loop vis st at_ p (sort_desc lp)) && ts_is_initialized at_ && ts_eqb t at_
       then Some i else dict_of st S0 p t).
Proof.
  induction l as [|q l IH]; intros S0 S1; cbn [rfold].
  - intros [= <-]. repeat apply conj; auto; try apply same_refl; try (now intros p []).
    exists []. split; [now rewrite app_nil_r|]. intros d. split; [intros []|].
      intros (p & lp & [] & _).
  - rewrite rbind_Ok. intros (S2 & E1 & E2). pose proof (use_one_same _ _ _ _ _ _ _ _ E1) as Sm.
    destruct (use_one_effect _ _ _ _ _ _ _ E1) as (i & lq & Ei & El & Ed & Ef & Eg).
    destruct (IH _ _ E2) as (Sm2 & I1 & (nw & Hn & I2) & I3 & I4 & I5).
    assert (Sh : forall p, shallow H S2 p = shallow H S0 p) by (intros p; now apply shallow_same).
    assert (Up : forall p, updates H S2 p = updates H S0 p) by (intros p; now apply updates_same).
    split; [eapply same_trans; eauto|]. split.
    { intros p [<-|Ip]; [eauto|]. destruct (I1 p Ip) as (i' & lp & A & B).
      rewrite Sh in A. rewrite Up in B. eauto. }
    split.
    { eexists. split; [rewrite Hn, Ed, <- app_assoc; reflexivity|]. intros d.
      rewrite in_app_iff, I2. split.
      - intros [J|(p & lp & Ip & Hp & J)]; [exists q, lq|exists p, lp]; cbn [In].
        + auto.
        + rewrite Up in Hp. auto.
      - intros (p & lp & [<-|Ip] & Hp & J).
        + rewrite El in Hp. injection Hp as <-. auto.
        + right. exists p, lp. rewrite Up. auto. }
    split; [congruence|]. split.
    { intros p t N. rewrite I4 by (intros J; apply N; right; auto). rewrite Eg.
      destruct (Nat.eqb_spec p q) as [->|]; [exfalso; apply N; left; auto|]. reflexivity. }
    intros p t i' lp Ip Hi Hl.
    assert (Dq : dict_of st S2 p t =
      if (p =? q) && (snd (use_loop vis st at_ p (sort_desc lp)) && ts_is_initialized at_) &&
         ts_eqb t at_ then Some i' else dict_of st S0 p t).
    { rewrite Eg. destruct (Nat.eqb_spec p q) as [->|]; cbn [andb]; auto.
      rewrite Ei in Hi. rewrite El in Hl. injection Hi as <-. injection Hl as <-. reflexivity. }
    destruct (in_dec Nat.eq_dec p l) as [J|J].
    + rewrite (I5 p t i' lp J) by (rewrite ?Sh, ?Up; auto). rewrite Dq.
      destruct (snd (use_loop vis st at_ p (sort_desc lp)) && ts_is_initialized at_);
        cbn [andb]; rewrite ?andb_false_r; auto.
      destruct (ts_eqb t at_); rewrite ?andb_false_r; auto.
    + rewrite (I4 p t J), Dq. destruct Ip as [<-|Ip]; [|contradiction].
      rewrite Nat.eqb_refl. reflexivity.
Qed.

Lemma all_parts_spec H s l : all_parts H s = Ok l ->
  forall p, p = s \/ In p l <-> part H s p.
Proof.
  unfold all_parts. rewrite rmap_Ok. intros ((sn & l') & E & <-). cbn [snd].
  destruct (visits_spec _ _ _ _ _ _ _ E) as (tr & T & F). cbn [fst snd] in *.
  assert (G : forall tr l0, fold_left (act (fun t l => l ++ [t]) (fun t l => l ++ [t])) tr l0 =
                            l0 ++ map snd tr).
  { clear. induction tr as [|[b x] tr IH]; intros l0; cbn [fold_left map]; [now rewrite app_nil_r|].
    rewrite IH. destruct b; cbn [act fst snd]; rewrite <- app_assoc; reflexivity. }
  rewrite G in F. cbn [app] in F. subst l'.
  apply trace_root in T; [|intros []]. intros p. unfold part. rewrite <- (trace_any _ _ _ _ T p).
  rewrite in_map_iff. split.
  - intros [->|([b x] & <- & I)]; [exists true; left; auto|exists b; right; auto].
  - intros (b & [J|J]); [injection J as _ ->; auto|]. right. exists (b, p). auto.
Qed.

Lemma use_split H vis st ex at_ S0 s S1 : use H vis st false ex at_ S0 s = Ok S1 ->
  exists l, (forall p, In p l <-> asked H ex s p) /\
    rfold (fun S2 t => use_one H vis st false at_ t S2) l S0 = Ok S1.
Proof.
  unfold use. rewrite rbind_Ok. intros (S2 & E1 & E2). unfold asked. destruct ex.
  - exists [s]. cbn [rfold]. rewrite E1. cbn [rbind]. split; auto.
    intros p. cbn. intuition congruence.
  - rewrite rbind_Ok in E2. destruct E2 as (l & El & E2). exists (s :: l). cbn [rfold].
    rewrite E1. cbn [rbind]. split; auto. intros p. rewrite <- (all_parts_spec _ _ _ El p).
    cbn [In]. intuition.
Qed.

Lemma use_blocked H vis st ex at_ S0 s S1 : use H vis st true ex at_ S0 s = Ok S1 -> S1 = S0.
Proof.
  unfold use. cbn [use_one rbind]. destruct ex; [now intros [= <-]|].
  rewrite rbind_Ok. intros (l & _ & E). revert E. induction l as [|q l IH]; cbn [rfold].
  - now intros [= <-].
  - cbn [use_one rbind]. exact IH.
Qed.

(** What the updates of a symbol are, in terms of the history. *)
Lemma updates_written born h H S0 s l u : run born h = Ok S0 -> last_write h s u ->
  ordered born h -> updates H S0 s = Ok l ->
  shallow H S0 s = Ok u /\
  (forall t, In t l <-> t = born s \/ written h s t) /\
  (forall t, In t l -> ts_leb t u = true).
Proof.
  intros R L O. unfold updates. rewrite rmap_Ok. intros (i & Ei & <-).
  assert (Eo : own S0 s = u).
  { eapply stamp_fun; [eapply own_stamp; eauto|left; exact L]. }
  assert (Iu : ts_is_initialized u = true).
  { eapply written_init; eauto. eapply last_write_written; eauto. }
  assert (i = u) as ->.
  { unfold shallow in Ei. rewrite init_own in Ei by (now rewrite Eo). congruence. }
  rewrite Iu. split; auto.
  assert (Q : forall t, In t (u :: upd S0 s) <-> t = born s \/ written h s t).
  { intros t. rewrite <- (upd_written _ _ _ R s t), Eo. cbn [In]. intuition congruence. }
  split; auto. intros t Ht. apply Q in Ht. rewrite <- Eo. eapply own_max; eauto.
Qed.

Lemma updates_unwritten born h H S0 s l : run born h = Ok S0 -> ordered born h ->
  updates H S0 s = Ok l -> forall t, In t l -> ts_is_initialized t = true ->
  (forall v, In v l -> ts_is_initialized v = true -> ts_leb v t = true) ->
  shallow H S0 s = Ok t.
Proof.
  intros R O. unfold updates. rewrite rmap_Ok. intros (i & Ei & <-) t Ht It Mx.
  destruct (own_init _ _ _ s R O) as [Eo|Io].
  - assert (Un : forall v, In v (upd S0 s) -> v = ts_uninit).
    { intros v Iv. pose proof (proj1 (upd_written _ _ _ R s v) (or_introl Iv)) as V.
      pose proof (own_max _ _ _ R O s v V) as Lv. rewrite Eo in Lv.
      destruct V as [->|V].
      - destruct O as (_ & _ & _ & D). destruct (D s) as [E|E]; auto.
        pose proof (uninit_le _ E). now apply ts_leb_antisym.
      - apply (written_init _ _ _ _ O) in V. pose proof (uninit_le _ V).
        now apply ts_leb_antisym. }
    destruct (ts_is_initialized i) eqn:Ii.
    + destruct Ht as [<-|Ht]; auto. apply Un in Ht. subst. discriminate.
    + apply Un in Ht. subst. discriminate.
  - unfold shallow in Ei. rewrite init_own in Ei by auto. injection Ei as <-. rewrite Io in *.
    unfold shallow. rewrite init_own by auto. f_equal. apply ts_leb_antisym.
    + apply Mx; [left; auto|auto].
    + eapply own_max; eauto. apply (upd_written _ _ _ R s t). cbn [In] in Ht. intuition.
Qed.

(** * Nothing gets stuck *)
Lemma unvisited_len V c : unvisited V c <= length V.
Proof.
  unfold unvisited. induction V as [|v V IH]; cbn; auto. destruct (memb v c); cbn; lia.
Qed.

Lemma init_total H S0 : finite H -> forall f seen s, In s (syms H) -> ~ In s seen ->
  unvisited (syms H) seen <= f -> exists t, init_ts H S0 f seen s = Ok t.
Proof.
  intros Fi. induction f as [|f IH]; intros seen s I N L; cbn [init_ts];
    destruct (ts_is_initialized (own S0 s)); eauto.
  - pose proof (unvisited_cons _ _ _ I N). lia.
  - destruct (find _ (wholes H s)) as [q|] eqn:Fd; eauto.
    apply find_some in Fd. destruct Fd as [Iq Nq]. apply IH.
    + destruct (Fi s I) as (_ & Wi). auto.
    + apply negb_true_iff, memb_nIn in Nq. exact Nq.
    + pose proof (unvisited_cons _ _ _ I N). lia.
Qed.

Lemma shallow_total H S0 s : finite H -> In s (syms H) -> exists t, shallow H S0 s = Ok t.
Proof.
  intros Fi I. apply init_total; auto. unfold fuel_of.
  pose proof (unvisited_len (syms H) []). lia.
Qed.

Lemma deep_total H S0 s : finite H -> In s (syms H) -> exists t, deep H S0 s = Ok t.
Proof.
  intros Fi I. unfold deep. destruct (shallow_total H S0 s Fi I) as (t & E). rewrite E. cbn. eauto.
Qed.

Lemma part_known H s p : finite H -> In s (syms H) -> part H s p -> In p (syms H).
Proof.
  intros Fi I P. induction P as [a|a b c Hab P IH]; auto. apply IH. destruct (Fi a I) as (Pi & _). auto.
Qed.

Lemma collect_total H S0 ub s : finite H -> In s (syms H) -> exists l, collect H S0 ub s = Ok l.
Proof.
  intros Fi I. unfold collect.
  set (add := fun (t : nat) (a : res (list ts)) =>
                rbind a (fun l => rmap (fun l' => l ++ l') (own_stamps H S0 ub t))).
  destruct (visit_total add add (parts H) (syms H) (fuel_of H) s ([], Ok [])) as ((sn & r) & E); auto.
  { intros v Iv. apply (Fi v Iv). }
  { unfold fuel_of. pose proof (unvisited_len (syms H) (fst (@nil nat, @Ok (list ts) []))). lia. }
  rewrite E. cbn [rbind snd].
  destruct (visit_spec _ _ _ _ _ _ _ E) as (tr & T & F). cbn [fst snd] in *.
  pose proof (trace_any _ _ _ _ T) as R.
  assert (Ky : forall b p, In (b, p) tr -> exists lp, own_stamps H S0 ub p = Ok lp).
  { intros b p J. assert (Ip : In p (syms H)).
    { apply (part_known H s p Fi I). apply R. eauto. }
    unfold own_stamps. destruct ub as [u|].
    - destruct (find _ _); eauto.
    - destruct (shallow_total H S0 p Fi Ip) as (a & ->). destruct (deep_total H S0 p Fi Ip) as (b' & ->).
      cbn. eauto. }
  rewrite F. clear - Ky. revert Ky. generalize (@nil ts). induction tr as [|[b p] tr IH];
    intros l0 Ky; cbn [fold_left]; eauto.
  destruct (Ky b p (or_introl eq_refl)) as (lp & Ep).
  replace (act add add (Ok l0) (b, p)) with (@Ok (list ts) (l0 ++ lp)).
  - apply IH. intros b' p' J. apply (Ky b'). right. auto.
  - destruct b; cbn [act fst snd]; unfold add; rewrite Ep; reflexivity.
Qed.

Lemma own_parts_incl H s : incl (own_parts H s) (parts H s).
Proof.
  unfold own_parts, parts. destruct (ns_of H s); intros x Ix; auto. apply in_app_iff. auto.
Qed.

Lemma refresh_total H S0 s take descend now : finite H -> In s (syms H) ->
  exists S1, refresh H S0 s take descend now = Ok S1.
Proof.
  intros Fi I. unfold refresh.
  assert (Q : forall b, exists S2, (if b : bool then take_snapshots H (refresh_one H now s S0) s
                                    else Ok (refresh_one H now s S0)) = Ok S2).
  { intros [|]; eauto. unfold take_snapshots.
    destruct (visit_total snap_one (fun _ a => a) (wholes H) (syms H) (fuel_of H) s
                ([], refresh_one H now s S0)) as (p & E); auto.
    - intros v Iv. apply (Fi v Iv).
    - unfold fuel_of. cbn [fst]. pose proof (unvisited_len (syms H) []). lia.
    - rewrite E. cbn. eauto. }
  match goal with |- context [if ?b then take_snapshots _ _ _ else _] => destruct (Q b) as (S2 & ->) end.
  cbn [rbind]. destruct descend; eauto.
  match goal with |- context [rfold ?f ?l ?p] =>
    destruct (visits_total (refresh_one H now) (fun _ a => a)
      (fun t => if is_class H t then [] else own_parts H t) (syms H) (fuel_of H) l p) as (q & E) end.
  - intros v Iv. destruct (is_class H v); [intros x []|].
    intros x Ix. apply (proj1 (Fi v Iv)). now apply own_parts_incl.
  - intros x Ix. apply (proj1 (Fi s I)). now apply own_parts_incl.
  - unfold fuel_of. cbn [fst]. pose proof (unvisited_len (syms H) [s]). lia.
  - rewrite E. cbn. eauto.
Qed.

Lemma use_one_total H vis st bl at_ s S0 : finite H -> In s (syms H) ->
  exists S1, use_one H vis st bl at_ s S0 = Ok S1.
Proof.
  intros Fi I. unfold use_one. destruct bl; eauto. unfold updates.
  destruct (shallow_total H S0 s Fi I) as (t & ->). cbn. eauto.
Qed.

Lemma use_total H vis st bl ex at_ s S0 : finite H -> In s (syms H) ->
  exists S1, use H vis st bl ex at_ S0 s = Ok S1.
Proof.
  intros Fi I. unfold use. destruct (use_one_total H vis st bl at_ s S0 Fi I) as (S1 & ->).
  cbn [rbind]. destruct ex; eauto.
  assert (Q : exists l, all_parts H s = Ok l).
  { unfold all_parts.
    match goal with |- context [rfold ?f ?l ?p] =>
      destruct (visits_total (fun z zs => zs ++ [z]) (fun z zs => zs ++ [z])
        (parts H) (syms H) (fuel_of H) l p) as (q & E) end.
    - intros v Iv. apply (Fi v Iv).
    - apply (Fi s I).
    - unfold fuel_of. cbn [fst]. pose proof (unvisited_len (syms H) [s]). lia.
    - rewrite E. cbn. eauto. }
  destruct Q as (l & El). rewrite El. cbn [rbind].
  assert (Kl : forall p, In p l -> In p (syms H)).
  { intros p Ip. apply (part_known H s p Fi I). apply (all_parts_spec _ _ _ El). auto. }
  clear El. revert S1. induction l as [|q l IH]; intros S1; cbn [rfold]; eauto.
  destruct (use_one_total H vis st bl at_ q S1 Fi (Kl q (or_introl eq_refl))) as (S2 & ->).
  cbn [rbind]. apply IH. intros p Ip. apply Kl. right. auto.
Qed.

Lemma run_total born h : Forall known h -> exists S0, run born h = Ok S0.
Proof.
  unfold run. generalize (state0 born). induction h as [|e h IH]; intros S0 Fk; cbn [rfold]; eauto.
  inversion Fk as [|? ? K Fk']; subst.
  assert (Q : exists S1, step S0 e = Ok S1).
  { destruct e; cbn [step known] in *; eauto; destruct K as [Fi I].
    - now apply refresh_total.
    - now apply use_total. }
  destruct Q as (S1 & ->). cbn [rbind]. auto.
Qed.

Lemma version_total H S0 defined s k : finite H -> In s (syms H) ->
  (exists l, for_version H S0 defined s k = Ok l) \/
  (for_version H S0 defined s k = Err IndexError /\ snap S0 s <> [] /\
   forall t, ~ at_index (snap S0 s) k t).
Proof.
  intros Fi I. unfold for_version. destruct (is_nil (snap S0 s)) eqn:N.
  - destruct (deep_total H S0 s Fi I) as (t & ->). cbn. eauto.
  - apply is_nil_false in N. destruct (py_index (snap S0 s) k) as [t|e] eqn:E; cbn [rbind].
    + left. destruct (cell_num t =? -1)%Z; eauto.
      match goal with |- context [collect H S0 ?ub s] =>
        destruct (collect_total H S0 ub s Fi I) as (l & ->) end. cbn. eauto.
    + right. pose proof (py_index_err _ _ _ E). subst e. split; auto. split; auto.
      intros t A. apply py_index_spec in A. congruence.
Qed.

(** * Queries look at the stamps only *)
Lemma visit_ext {A} (f g : nat -> A -> A) next n : (forall t a, f t a = g t a) -> forall s p,
  visit f f next n p s = visit g g next n p s.
Proof.
  intros E. induction n as [|n IH]; intros s p; cbn [visit];
    destruct (memb s (fst p)); rewrite ?E; auto. apply rfold_ext. intros q t _. apply IH.
Qed.

Lemma version_same H S0 S1 defined s k : same_stamps S0 S1 ->
  for_version H S1 defined s k = for_version H S0 defined s k.
Proof.
  intros Sm. pose proof (fun x => shallow_same H S0 S1 x Sm) as Sh.
  destruct Sm as (Eo & Eu & Es & Em).
  assert (De : forall x, deep H S1 x = deep H S0 x).
  { intros x. unfold deep. rewrite Sh. destruct (shallow H S0 x); cbn; auto. now rewrite Em. }
  assert (Os : forall ub x, own_stamps H S1 ub x = own_stamps H S0 ub x).
  { intros [u|] x; cbn [own_stamps]; [now rewrite Es|]. now rewrite Sh, De. }
  assert (Co : forall ub x, collect H S1 ub x = collect H S0 ub x).
  { intros ub x. unfold collect. erewrite visit_ext; [reflexivity|]. intros t a. cbn.
    destruct a; cbn; auto. now rewrite Os. }
  unfold for_version. rewrite Es, De. destruct (is_nil (snap S0 s)); auto.
  destruct (py_index (snap S0 s) k) as [t|]; cbn [rbind]; auto.
  destruct (cell_num t =? -1)%Z; auto. now rewrite Co.
Qed.

Lemma collect_leaf H S0 ub s : ns_of H s = None -> collect H S0 ub s = own_stamps H S0 ub s.
Proof.
  intros N. unfold collect, fuel_of. cbn [visit memb existsb fst snd].
  assert (Ep : parts H s = []) by (unfold parts; now rewrite N).
  rewrite Ep. cbn [rfold rbind snd].
  destruct (own_stamps H S0 ub s); reflexivity.
Qed.

Lemma times_written h s t : In t (times h s) -> written h s t.
Proof.
  induction h as [|e h IH] using rev_ind; [intros []|]. rewrite times_snoc, written_snoc.
  destruct e as [m now|H r take descend now|H vis st bl ex at_ r]; auto.
  destruct (Nat.eqb_spec r s) as [->|]; auto.
  destruct (in_dec ts_dec now (times h s)); auto. rewrite in_app_iff. intros [J|[<-|[]]]; auto.
  right. cbn. auto.
Qed.

Lemma snap_nonempty born h S0 s t : run born h = Ok S0 -> ordered born h -> plain h s ->
  written h s t -> is_nil (snap S0 s) = false.
Proof.
  intros R O P Wt. apply is_nil_false. intros E.
  pose proof (snap_complete _ _ _ R O s P t Wt) as J. now rewrite E in J.
Qed.

Lemma initialized_cell t : ts_is_initialized t = true -> (cell_num t =? -1)%Z = false.
Proof.
  unfold ts_is_initialized. rewrite andb_true_iff, !Z.ltb_lt. cbn. intros [A _].
  apply Z.eqb_neq. lia.
Qed.

Lemma initialized_neq t : ts_is_initialized t = true -> negb (ts_eqb t ts_uninit) = true.
Proof.
  intros I. apply negb_true_iff. destruct (ts_eqb t ts_uninit) eqn:E; auto.
  apply ts_eqb_eq in E. subst. discriminate.
Qed.

Lemma at_last l t : at_index l (-1) t -> StronglySorted leT l -> forall x, In x l -> ts_leb x t = true.
Proof.
  intros (i & E & [K|(_ & K)]) SS x Ix; [lia|].
  destruct (nth_error_split l i E) as (l1 & l2 & -> & Li).
  rewrite app_length in K. cbn [length] in K. assert (length l2 = 0) as L2 by lia.
  destruct l2; [|discriminate]. destruct (sorted_split _ _ _ SS) as (A & _).
  apply in_app_iff in Ix. destruct Ix as [Ix|[<-|[]]]; [auto|apply ts_leb_refl].
Qed.

Lemma at_index_In l k t : at_index l k t -> In t l.
Proof. intros (i & E & _). eapply nth_error_In; eauto. Qed.

Lemma plain_version born h S0 H s defined k t : run born h = Ok S0 -> ordered born h ->
  plain h s -> alone h s -> ns_of H s = None -> at_index (times h s) k t ->
  exists l, for_version H S0 defined s k = Ok l /\ forall x, In x l <-> x = t.
Proof.
  intros R O P Al N A.
  pose proof (snap_times _ _ _ R O s P Al) as Es. rewrite <- Es in A.
  pose proof (at_index_In _ _ _ A) as It.
  assert (Wt : written h s t) by (apply times_written; congruence).
  pose proof (written_init _ _ _ _ O Wt) as Ii.
  destruct (snap_facts _ _ _ R O s) as (I1 & SS).
  unfold for_version. rewrite (snap_nonempty _ _ _ _ _ R O P Wt).
  rewrite (proj2 (py_index_spec _ _ _) A). cbn [rbind]. rewrite (initialized_cell _ Ii).
  rewrite (collect_leaf _ _ _ _ N).
  destruct (Z.eqb_spec k (-1)) as [->|Nk]; cbn [own_stamps].
  - assert (Eo : own S0 s = t).
    { pose proof (own_stamp _ _ _ R s) as [St|(Nw & _)]; [|now apply Nw in Wt].
      apply last_write_written in St. apply ts_leb_antisym.
      - eapply at_last; eauto. eapply snap_complete; eauto.
      - eapply own_max; eauto. }
    assert (Sh : shallow H S0 s = Ok t) by (unfold shallow; rewrite init_own; congruence).
    unfold deep. rewrite Sh. cbn [rbind rmap]. rewrite N.
    eexists. split; [reflexivity|].
    assert (X : (if is_module H s then t else t) = t) by (destruct (is_module H s); auto).
    rewrite X. cbn [filter]. rewrite (initialized_neq _ Ii). cbn. intuition.
  - pose proof (find_last _ t SS) as Fl. destruct (find _ _) as [t'|].
    + destruct Fl as (_ & F2 & F3).
      assert (t' = t) as -> by (apply ts_leb_antisym; auto using ts_leb_refl).
      rewrite Ii. eexists. split; [reflexivity|]. cbn [filter]. rewrite (initialized_neq _ Ii).
      cbn. intuition.
    + specialize (Fl t It). rewrite ts_leb_refl in Fl. discriminate.
Qed.
