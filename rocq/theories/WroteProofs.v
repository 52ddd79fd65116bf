(** Proofs about recorded writes. *)
From Coq Require Import List Arith Bool Lia.
From Verif Require Import Base WroteModel WroteSpec.
Import ListNotations.

Lemma In_discard : forall y z l, In z (discard y l) <-> In z l /\ z <> y.
Proof.
  intros y z l. unfold discard. rewrite filter_In, negb_true_iff, Nat.eqb_neq. tauto.
Qed.

Lemma same_eq : forall a b, same a b = true <-> a = b.
Proof.
  intros [a|] [b|]; cbn; rewrite ?Nat.eqb_eq; split; congruence.
Qed.

(** ** Disjointness *)
Definition apart (c : cell) : Prop :=
  forall y, In y (stat c) -> ~ In y (dyn c) /\ ~ In y (pending c).

Lemma apart_round : forall w s b c y, apart c -> apart (round w s b c y).
Proof.
  intros w s b c y A. unfold round. destruct (same _ _); [|exact A].
  destruct (b && negb (memb y (dyn c)))%bool eqn:E.
  - apply andb_true_iff in E as [_ E]. apply negb_true_iff in E.
    intros z Z. cbn in *. apply In_sadd in Z. rewrite In_discard. destruct Z as [ -> |Z].
    + split; [|tauto]. intros D. apply memb_In in D. congruence.
    + destruct (A z Z). tauto.
  - intros z Z. cbn in *. apply In_discard in Z as [Z NE]. destruct (A z Z). split; [auto|].
    rewrite In_sadd. tauto.
Qed.

Lemma apart_fold : forall w s b l c, apart c -> apart (fold_left (round w s b) l c).
Proof.
  intros w s b l. induction l as [|y l IH]; intros c A; cbn; [auto|].
  apply IH, apart_round, A.
Qed.

Lemma apart_run : forall f es c c', apart c -> run f c es = Ok c' -> apart c'.
Proof.
  intros f es. induction es as [|e es IH]; cbn; intros c c' A R; [now injection R as <-|].
  destruct e as [w s b|]; cbn in R.
  - unfold write in R. destruct (gen f w s []) as [[l q]|]; [|discriminate].
    eapply IH; [|exact R]. now apply apart_fold.
  - eapply IH; [|exact R]. intros y Y. cbn in *. destruct (A y Y). rewrite In_supd. tauto.
Qed.

(** ** What is below *)
Lemma gen_none : forall f w s seen, space w s = None -> forall r, gen f w s seen = Ok r -> r = ([], seen).
Proof. intros [|f] w s seen E r; cbn; [discriminate|]. rewrite E. congruence. Qed.

Lemma gen_direct : forall f w s n l seen,
  space w s = Some n -> gen f w s [] = Ok (l, seen) ->
  forall y, In y (below w n) -> In y l.
Proof.
  intros [|f] w s n l seen E G y I; cbn in G; [discriminate|]. rewrite E in G.
  revert l seen G. generalize [s] as sn. cbn in I.
  induction (below w n) as [|z r IH]; intros sn l seen G; [destruct I|].
  destruct (gen f w z sn) as [[a s1]|]; [|discriminate].
  match type of G with match ?X with _ => _ end = _ => destruct X as [[b s2]|] eqn:Q; [|discriminate] end.
  injection G as <- <-. destruct I as [ -> |I]; [now left|].
  right. apply in_or_app. right. eapply IH; eauto.
Qed.

(** ** Soundness *)
Lemma sound_fold : forall w s b l c y,
  (In y (stat (fold_left (round w s b) l c)) ->
     In y (stat c) \/ (b = true /\ In y l /\ inside w y = space w s)) /\
  (In y (dyn (fold_left (round w s b) l c)) -> In y (dyn c)) /\
  (In y (pending (fold_left (round w s b) l c)) -> In y (pending c) \/ y = s).
Proof.
  intros w s b l. induction l as [|z l IH]; intros c y; cbn; [tauto|].
  destruct (IH (round w s b c z) y) as (A & B & C).
  assert (R : (In y (stat (round w s b c z)) -> In y (stat c) \/ (b = true /\ z = y /\ inside w y = space w s)) /\
              (In y (dyn (round w s b c z)) -> In y (dyn c)) /\
              (In y (pending (round w s b c z)) -> In y (pending c) \/ y = s)).
  { unfold round. destruct (same (inside w z) (space w s)) eqn:Q; [|tauto].
    apply same_eq in Q. destruct (b && negb (memb z (dyn c)))%bool eqn:E; cbn.
    - apply andb_true_iff in E as [E _]. rewrite In_sadd, In_discard. repeat split; try tauto.
      intros [ -> |H]; auto.
    - rewrite In_sadd, In_discard. repeat split; tauto. }
  destruct R as (R1 & R2 & R3). repeat split.
  - intros H. destruct (A H) as [H1|(H1 & H2 & H3)]; [|tauto].
    destruct (R1 H1) as [H4|(H4 & -> & H6)]; tauto.
  - tauto.
  - intros H. destruct (C H) as [H1|H1]; tauto.
Qed.

Lemma round_dyn : forall w s b l c, dyn (fold_left (round w s b) l c) = dyn c.
Proof.
  intros w s b l. induction l as [|z l IH]; intros c; cbn; [auto|].
  rewrite IH. unfold round. destruct (same _ _); [|auto]. destruct (_ && _)%bool; auto.
Qed.

Lemma sound_run : forall f es c c' y,
  run f c es = Ok c' ->
  (In y (stat c') -> In y (stat c) \/ written es y \/ element es y) /\
  (In y (dyn c') \/ In y (pending c') -> In y (dyn c) \/ In y (pending c) \/ written es y).
Proof.
  intros f es. induction es as [|e es IH]; cbn; intros c c' y R.
  - injection R as <-. tauto.
  - assert (UP : forall z, written es z -> written (e :: es) z)
      by (intros z (w & b & I); exists w, b; now right).
    assert (UE : element es y -> element (e :: es) y)
      by (intros (w & s & n & I & J); exists w, s, n; split; [now right|auto]).
    destruct e as [w s b|]; cbn in R.
    + unfold write in R. destruct (gen f w s []) as [[l q]|] eqn:G; [|discriminate].
      destruct (IH _ _ y R) as (A & B).
      destruct (sound_fold w s b (s :: l) c y) as (P & Q & Z).
      change (fold_left (round w s b) l (round w s b c s)) with (fold_left (round w s b) (s :: l) c) in *.
      assert (WS : written (Write w s b :: es) s) by (exists w, b; now left).
      split.
      * intros H. destruct (A H) as [H1|[H1|H1]]; [|auto|auto].
        destruct (P H1) as [H2|(-> & H2 & H3)]; [auto|].
        destruct H2 as [ -> |H2]; [auto|]. right.
        destruct (space w s) as [n|] eqn:SN.
        -- right. exists w, s, n. split; [now left|auto].
        -- apply (gen_none f w s [] SN) in G. injection G as -> _. destruct H2.
      * intros H. destruct (B H) as [H1|[H1|H1]]; [auto| |auto].
        destruct (Z H1) as [H2| -> ]; auto.
    + destruct (IH _ _ y R) as (A & B). cbn in *. rewrite In_supd in B. split.
      * intros H. destruct (A H) as [H1|[H1|H1]]; auto.
      * intros H. destruct (B H) as [[H1|H1]|[[]|H1]]; auto.
Qed.

(** ** Plain variables *)
Lemma round_other : forall w s b c z y,
  inside w y = None -> y <> s -> space w y = None ->
  (space w s = None -> z = s) ->
  (In y (stat (round w s b c z)) <-> In y (stat c)) /\
  (In y (pending (round w s b c z)) <-> In y (pending c)).
Proof.
  intros w s b c z y IY NE SY ZS. unfold round.
  destruct (same (inside w z) (space w s)) eqn:Q; [|tauto]. apply same_eq in Q.
  destruct (b && negb (memb z (dyn c)))%bool; cbn.
  - rewrite In_sadd, In_discard.
    assert (y <> z). { intros ->. rewrite IY in Q. symmetry in Q. apply ZS in Q. congruence. }
    tauto.
  - rewrite In_sadd, In_discard. tauto.
Qed.

Lemma fold_other : forall w s b l c y,
  inside w y = None -> y <> s -> space w y = None ->
  (space w s = None -> forall z, In z l -> z = s) ->
  (In y (stat (fold_left (round w s b) l c)) <-> In y (stat c)) /\
  (In y (pending (fold_left (round w s b) l c)) <-> In y (pending c)).
Proof.
  intros w s b l. induction l as [|z l IH]; intros c y IY NE SY ZS; cbn; [tauto|].
  destruct (IH (round w s b c z) y IY NE SY) as (A & B); [intros E u U; apply ZS; [auto|now right]|].
  destruct (round_other w s b c z y IY NE SY) as (A1 & B1); [intros E; apply ZS; [auto|now left]|].
  tauto.
Qed.

Lemma write_self : forall f w y b c c',
  space w y = None -> inside w y = None -> write f w y b c = Ok c' ->
  dyn c' = dyn c /\
  (In y (stat c') <-> b = true /\ ~ In y (dyn c)) /\
  (In y (pending c') <-> ~ (b = true /\ ~ In y (dyn c))).
Proof.
  intros f w y b c c' SY IY W. unfold write in W.
  destruct (gen f w y []) as [[l q]|] eqn:G; [|discriminate].
  apply (gen_none f w y [] SY) in G. injection G as -> _. cbn in W. injection W as <-.
  unfold round. rewrite IY, SY. cbn [same].
  destruct (memb y (dyn c)) eqn:M.
  - apply memb_In in M. rewrite andb_false_r. cbn. rewrite In_discard, In_sadd. tauto.
  - assert (N : ~ In y (dyn c)) by (rewrite <- memb_In; congruence).
    destruct b; cbn; rewrite In_discard, In_sadd; [tauto|].
    split; [auto|]. split; split; try tauto; try (intros [H _]; discriminate).
    intros _ [H _]. discriminate.
Qed.

(** What holds of a plain variable on the way: [d]: it was moving in a statement
    that is over; [l]: its last write in the present one; [k]: it was written. *)
Record on_way (y : nat) (d : Prop) (l : option bool) (k : Prop) (c : cell) : Prop := {
  w_dyn : In y (dyn c) <-> d;
  w_pend : In y (pending c) <-> l <> None /\ (l = Some false \/ d);
  w_stat : In y (stat c) <-> k /\ ~ d /\ l <> Some false
}.

Lemma way_run : forall f y es c c' (d : Prop) l (k : Prop),
  (l <> None -> k) -> (d \/ ~ d) ->
  plain es y -> on_way y d l k c -> run f c (es ++ [Done]) = Ok c' ->
  (In y (dyn c') <-> d \/ moving y l es) /\
  (In y (stat c') <-> (k \/ written es y) /\ ~ (d \/ moving y l es)) /\ pending c' = [].
Proof.
  intros f y es. induction es as [|e es IH]; intros c c' d l k LK DD PL [WD WP WS] R.
  - cbn in R. injection R as <-. cbn. rewrite In_supd, WD, WP, WS.
    assert (NW : ~ written [] y) by (intros (w & b & [])).
    assert (DL : l = Some false \/ l <> Some false) by (destruct l as [[]|]; auto; right; discriminate).
    split; [|split; [|auto]].
    + split; [tauto|]. intros [H|H]; [auto|]. right. split; [congruence|auto].
    + tauto.
  - assert (PL' : plain es y) by (intros w s b I; apply (PL w s b); now right).
    destruct e as [w s b|]; cbn in R.
    + destruct (write f w s b c) as [c1|] eqn:W; [|discriminate].
      destruct (PL w s b (or_introl eq_refl)) as (SY & IY).
      destruct (Nat.eq_dec s y) as [ -> |NE].
      * destruct (write_self f w y b c c1 SY IY W) as (D1 & S1 & P1).
        assert (ND : In y (dyn c) <-> d) by exact WD.
        destruct (IH c1 c' d (Some b) True (fun _ => I) DD PL') as (A & B & C); [|exact R|].
        { constructor.
          - now rewrite D1.
          - rewrite P1, ND. destruct b.
            + split; [|].
              * intros H. split; [discriminate|]. right. destruct DD as [H0|H0]; [auto|]. exfalso. apply H. auto.
              * intros [_ [H|H]]; [discriminate|]. tauto.
            + split; [intros _; split; [discriminate|auto]|intros _ [H _]; discriminate].
          - rewrite S1, ND. destruct b.
            + split; [intros [_ H]; split; [auto|]; split; [auto|discriminate]|tauto].
            + split; [intros [H _]; discriminate|intros (_ & _ & H); now destruct H]. }
        cbn [moving]. rewrite Nat.eqb_refl. split; [exact A|]. split; [|exact C].
        rewrite B. assert (written (Write w y b :: es) y) by (exists w, b; now left). tauto.
      * unfold write in W. destruct (gen f w s []) as [[ls q]|] eqn:G; [|discriminate].
        injection W as <-.
        assert (ZS : space w s = None -> forall z, In z (s :: ls) -> z = s).
        { intros E z [ -> |Z]; [auto|]. apply (gen_none f w s [] E) in G. injection G as -> _. destruct Z. }
        destruct (fold_other w s b (s :: ls) c y IY (fun H => NE (eq_sym H)) SY ZS) as (A1 & B1).
        destruct (IH (fold_left (round w s b) (s :: ls) c) c' d l k LK DD PL') as (A & B & C); [|exact R|].
        { constructor.
          - rewrite round_dyn. exact WD.
          - rewrite B1. exact WP.
          - rewrite A1. exact WS. }
        cbn [moving]. apply Nat.eqb_neq in NE. rewrite NE. apply Nat.eqb_neq in NE.
        split; [exact A|]. split; [|exact C]. rewrite B.
        assert (E : written (Write w s b :: es) y <-> written es y).
        { split; [|intros (w0 & b0 & I0); exists w0, b0; now right].
          intros (w0 & b0 & [I0|I0]); [congruence|]. exists w0, b0. auto. }
        rewrite E. tauto.
    + assert (DL : l = Some false \/ l <> Some false) by (destruct l as [[]|]; auto; right; discriminate).
      destruct (IH (done c) c' (d \/ l = Some false) None k) as (A & B & C); [congruence|tauto|exact PL'| |exact R|].
      { constructor; cbn.
        - rewrite In_supd, WD, WP. split; [tauto|]. intros [H|H]; [auto|]. right. split; [congruence|auto].
        - split; [tauto|]. intros [H _]. congruence.
        - rewrite WS. split; [|tauto]. intros (H1 & H2 & H3). split; [auto|]. split; [tauto|discriminate]. }
      cbn [moving]. assert (E : written (Done :: es) y <-> written es y).
      { split; [|intros (w0 & b0 & I0); exists w0, b0; now right].
        intros (w0 & b0 & [I0|I0]); [discriminate|]. exists w0, b0. auto. }
      rewrite E. split; [tauto|]. split; [tauto|exact C].
Qed.

Lemma way_empty : forall y, on_way y False None False empty.
Proof. intros y. constructor; cbn; tauto. Qed.

(** ** Elements *)
Lemma fold_static_in : forall w s l c y,
  In y l -> inside w y = space w s -> 
  In y (stat (fold_left (round w s true) l c)) \/ In y (dyn c) \/ y = s.
Proof.
  intros w s l. induction l as [|z l IH]; intros c y I E; [destruct I|]. cbn.
  assert (D : dyn (round w s true c z) = dyn c) by (apply (round_dyn w s true [z] c)).
  destruct (Nat.eq_dec y s) as [ -> |NS]; [auto|].
  destruct (in_dec Nat.eq_dec y (dyn c)) as [Y|Y]; [auto|].
  destruct (in_dec Nat.eq_dec y l) as [L|L].
  - specialize (IH (round w s true c z) y L E). rewrite D in IH. exact IH.
  - destruct I as [ -> |I]; [|contradiction]. left.
    assert (K : forall l c, ~ In y (dyn c) -> In y (stat c) -> In y (stat (fold_left (round w s true) l c))).
    { clear IH L c Y D l. intros l. induction l as [|z l IH]; intros c ND I; [auto|]. cbn. apply IH.
      - pose proof (round_dyn w s true [z] c) as D. cbn in D. now rewrite D.
      - unfold round. destruct (same _ _); [|auto]. destruct (true && _)%bool; cbn.
        + apply In_sadd. auto.
        + apply In_discard. auto. }
    apply K; [now rewrite D|]. unfold round.
    apply same_eq in E. rewrite E. assert (M : memb y (dyn c) = false).
    { destruct (memb y (dyn c)) eqn:M; [|auto]. apply memb_In in M. contradiction. }
    rewrite M. cbn. apply In_sadd. auto.
Qed.

Lemma fold_dynamic_in : forall w s l c y,
  In y l -> inside w y = space w s ->
  In s (pending (fold_left (round w s false) l c)).
Proof.
  intros w s l.
  assert (K : forall l c, In s (pending c) -> In s (pending (fold_left (round w s false) l c))).
  { clear l. intros l. induction l as [|z l IH]; intros c I; [auto|]. cbn. apply IH.
    unfold round. destruct (same _ _); [|auto]. cbn. apply In_sadd. auto. }
  induction l as [|z l IH]; intros c y I E; [destruct I|]. cbn.
  destruct I as [ -> |I]; [|now apply (IH _ y)].
  apply K. unfold round. apply same_eq in E. rewrite E. cbn. apply In_sadd. auto.
Qed.

Lemma fold_none : forall w s b l c,
  (forall y, In y l -> inside w y <> space w s) -> fold_left (round w s b) l c = c.
Proof.
  intros w s b l. induction l as [|z l IH]; intros c N; [auto|]. cbn.
  unfold round at 2. destruct (same (inside w z) (space w s)) eqn:Q.
  - apply same_eq in Q. exfalso. apply (N z); [now left|auto].
  - apply IH. intros y Y. apply N. now right.
Qed.
