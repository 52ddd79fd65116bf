(** Proofs about slicing. *)
Require Import String Ascii List ZArith Bool Arith Lia Sorted Permutation.
Import ListNotations.
Require Import Verif.Base Verif.TimestampModel Verif.TimestampProofs Verif.SessionModel
  Verif.SliceModel Verif.SliceSpec.
Local Open Scope nat_scope.

(** ** Resolution of a parent *)

Lemma wobj_Ok w u o : wobj w u = Ok o <-> nth_error (objs w) u = Some o.
Proof. unfold wobj, of_option. destruct (nth_error (objs w) u); split; congruence. Qed.

Lemma resolve_explains f w t : forall u v, resolve f w t u = Ok v -> explains w t u v.
Proof.
  induction f as [|f IH]; intros u v; simpl; [discriminate|].
  destruct (wobj w u) as [o|] eqn:O; simpl; [|discriminate].
  apply wobj_Ok in O.
  destruct (ts_ltb t (so_ts o)) eqn:L.
  - destruct (so_override o) eqn:Ov.
    + intros [= <-]. exists [], o. split; [constructor|]. split; auto. split; auto.
      simpl; tauto.
    + destruct (so_prev o) as [p|] eqn:P; [|discriminate].
      intros H. apply IH in H. destruct H as (nw & ov & VP & Hv & G & N).
      exists (u :: nw), ov. split; [econstructor; eauto|]. split; auto. split; auto.
      intros n on [<-|Hn] Hon; [|eauto].
      rewrite O in Hon. injection Hon as <-. split; auto.
  - intros [= <-]. exists [], o. split; [constructor|]. split; auto. split.
    + left. unfold newer_than. congruence.
    + simpl; tauto.
Qed.

Lemma explains_resolve w t : forall f u v newer,
  version_path w u newer v -> length newer < f ->
  forall ov, nth_error (objs w) v = Some ov ->
  (~ newer_than t ov \/ so_override ov = true) ->
  (forall n on, In n newer -> nth_error (objs w) n = Some on ->
                newer_than t on /\ so_override on = false) ->
  resolve f w t u = Ok v.
Proof.
  intros f u v newer VP. revert f. induction VP as [u|u o p nw v O P VP IH];
    intros f L ov Hv G N.
  - destruct f; [simpl in L; lia|]. simpl.
    apply wobj_Ok in Hv. rewrite Hv. simpl.
    destruct (ts_ltb t (so_ts ov)) eqn:E; auto.
    destruct G as [G|G]; [contradiction G|]. rewrite G; auto.
  - destruct f; [simpl in L; lia|]. simpl in *.
    pose proof O as O'. apply wobj_Ok in O'. rewrite O'. simpl.
    destruct (N u o (or_introl eq_refl) O) as [A B]. unfold newer_than in A.
    rewrite A, B, P. apply IH with ov; auto. lia. intros n on H. apply N. auto.
Qed.

Lemma resolve_fuel_irrel w t : forall f f' u v v',
  resolve f w t u = Ok v -> resolve f' w t u = Ok v' -> v = v'.
Proof.
  induction f as [|f IH]; intros f' u v v'; simpl; [discriminate|].
  destruct f' as [|f']; simpl; [discriminate|].
  destruct (wobj w u) as [o|]; simpl; [|discriminate].
  destruct (ts_ltb t (so_ts o)); [|congruence].
  destruct (so_override o); [congruence|].
  destruct (so_prev o); [eauto|discriminate].
Qed.

Lemma explains_has_resolve w t u v : explains w t u v -> exists f, resolve f w t u = Ok v.
Proof.
  intros (nw & ov & VP & Hv & G & N). exists (S (length nw)).
  eapply explains_resolve; eauto.
Qed.

Lemma explains_fun w t u v v' : explains w t u v -> explains w t u v' -> v = v'.
Proof.
  intros A B. apply explains_has_resolve in A, B. destruct A as [f A], B as [f' B].
  eapply resolve_fuel_irrel; eauto.
Qed.

(** With well-formed chains the search always stops, and fails only when there is no
    version to be found. *)
Lemma resolve_total w t : world_ok w -> forall f u, u < f -> u < length (objs w) ->
  (exists v, resolve f w t u = Ok v) \/
  (resolve f w t u = Err AttributeError /\ forall v, ~ explains w t u v).
Proof.
  intros (WP & _). induction f as [|f IH]; intros u L LL; [lia|].
  destruct (nth_error (objs w) u) as [o|] eqn:O; [|apply nth_error_None in O; lia].
  assert (RS : resolve (S f) w t u =
    if ts_ltb t (so_ts o) then
      if so_override o then Ok u
      else match so_prev o with None => Err AttributeError | Some p => resolve f w t p end
    else Ok u).
  { simpl. pose proof O as O'. apply wobj_Ok in O'. now rewrite O'. }
  rewrite RS.
  destruct (ts_ltb t (so_ts o)) eqn:E; [|left; eauto].
  destruct (so_override o) eqn:Ov; [left; eauto|].
  destruct (so_prev o) as [p|] eqn:P.
  - pose proof (WP _ _ _ O P). destruct (IH p) as [[v H1]|[H1 H2]]; try lia; [left; eauto|].
    right. split; auto. intros v (nw & ov & VP & Hv & G & N).
    inversion VP as [|? o' p' nw' ? O' P' VP' Eu]; subst.
    + rewrite O in Hv. injection Hv as <-. unfold newer_than in G.
      rewrite E, Ov in G. destruct G; congruence.
    + rewrite O in O'. injection O' as <-. rewrite P in P'. injection P' as <-.
      apply (H2 v). exists nw', ov. repeat split; auto; eapply N; simpl; eauto.
  - right. split; auto. intros v (nw & ov & VP & Hv & G & N).
    inversion VP as [|? o' p' nw' ? O' P' VP' Eu]; subst.
    + rewrite O in Hv. injection Hv as <-. unfold newer_than in G.
      rewrite E, Ov in G. destruct G; congruence.
    + congruence.
Qed.

Lemma explains_bound w t u v : explains w t u v -> v < length (objs w).
Proof. intros (_ & ov & _ & H & _). apply nth_error_Some. congruence. Qed.

(** ** Direct dependencies *)

Definition rslv (w : world) (t : ts) (pid : nat) : res nat :=
  rbind (of_option KeyError (dget (ids w) pid)) (resolve (S (length (objs w))) w t).

Lemma In_succs w ctxs u o : nth_error (objs w) u = Some o ->
  forall r, In r (succs w ctxs u) <-> exists pid, records w ctxs u pid /\ r = rslv w (so_ts o) pid.
Proof.
  intros O r. unfold succs. rewrite O. rewrite in_flat_map. split.
  - intros (x & Hx & Hr). apply in_map_iff in Hr. destruct Hr as (pid & <- & Hp).
    unfold dkeys in Hp. apply in_map_iff in Hp. destruct Hp as ([k l] & E & Hp).
    simpl in E. subst k. exists pid. split; auto. exists o, x, l. auto.
  - intros (pid & (o' & x & l & O' & Hx & Hp) & ->).
    rewrite O in O'. injection O' as <-. exists x. split; auto.
    apply in_map_iff. exists pid. split; auto.
    unfold dkeys. apply in_map_iff. exists (pid, l). auto.
Qed.

Lemma edge_depends w ctxs u v : edge (succs w ctxs) u v -> depends w ctxs u v.
Proof.
  unfold edge. destruct (nth_error (objs w) u) as [o|] eqn:O.
  - intros H. eapply In_succs in H; [|exact O]. destruct H as (pid & R & E).
    unfold rslv in E. destruct (dget (ids w) pid) as [u0|] eqn:D; simpl of_option in E; unfold rbind in E; [|discriminate].
    exists o, pid, u0. repeat split; auto. eapply resolve_explains. symmetry. exact E.
  - unfold succs. rewrite O. simpl. intros [H|[]]. discriminate.
Qed.

Lemma depends_edge w ctxs u v :
  (forall r, In r (succs w ctxs u) -> exists z, r = Ok z) ->
  depends w ctxs u v -> edge (succs w ctxs) u v.
Proof.
  intros A (o & pid & u0 & O & R & D & X).
  assert (I : In (rslv w (so_ts o) pid) (succs w ctxs u)) by (apply (In_succs _ _ _ _ O); eauto).
  destruct (A _ I) as [z Z]. unfold edge. rewrite Z in I.
  unfold rslv in Z. rewrite D in Z. simpl of_option in Z. unfold rbind in Z.
  apply resolve_explains in Z. now rewrite (explains_fun _ _ _ _ _ X Z).
Qed.

Lemma depends_edge_ok w ctxs u v :
  world_ok w -> depends w ctxs u v -> edge (succs w ctxs) u v.
Proof.
  intros W (o & pid & u0 & O & R & D & X).
  unfold edge. apply (In_succs _ _ _ _ O). exists pid. split; auto.
  unfold rslv. rewrite D. simpl of_option. unfold rbind.
  pose proof (proj1 (proj2 W) _ _ D) as B.
  destruct (resolve_total w (so_ts o) W (S (length (objs w))) u0) as [[z Z]|[_ Z]]; try lia.
  - rewrite Z. f_equal. eapply explains_fun; eauto. eapply resolve_explains; eauto.
  - exfalso. eapply Z; eauto.
Qed.

Lemma depends_iff_edge w ctxs u v : world_ok w ->
  (depends w ctxs u v <-> edge (succs w ctxs) u v).
Proof. intros W. split; [apply depends_edge_ok; auto|apply edge_depends]. Qed.

(** A step fails exactly for dangling parents. *)
Lemma succs_err w ctxs u : world_ok w -> u < length (objs w) ->
  (exists e, In (Err e) (succs w ctxs u)) <-> dangling w ctxs u.
Proof.
  intros W L. destruct (nth_error (objs w) u) as [o|] eqn:O;
    [|apply nth_error_None in O; lia].
  split.
  - intros [e H]. eapply In_succs in H; [|exact O]. destruct H as (pid & R & E).
    exists o, pid. repeat split; auto. intros u0 v D X.
    unfold rslv in E. rewrite D in E. simpl of_option in E. unfold rbind in E.
    pose proof (proj1 (proj2 W) _ _ D) as B.
    destruct (resolve_total w (so_ts o) W (S (length (objs w))) u0) as [[z Z]|[_ Z]]; try lia.
    + congruence.
    + eapply Z; eauto.
  - intros (o' & pid & O' & R & N). rewrite O in O'. injection O' as <-.
    destruct (rslv w (so_ts o) pid) as [z|e] eqn:E.
    + exfalso. unfold rslv in E. destruct (dget (ids w) pid) as [u0|] eqn:D; simpl of_option in E;
        unfold rbind in E; [|discriminate].
      apply resolve_explains in E. eapply N; eauto.
    + exists e. apply (In_succs _ _ _ _ O). eauto.
Qed.

Lemma succs_err_kind w ctxs u e : world_ok w -> In (Err e) (succs w ctxs u) ->
  e = KeyError \/ e = AttributeError.
Proof.
  intros W H. destruct (nth_error (objs w) u) as [o|] eqn:O.
  - eapply In_succs in H; [|exact O]. destruct H as (pid & R & E).
    unfold rslv in E. destruct (dget (ids w) pid) as [u0|] eqn:D; simpl of_option in E;
        unfold rbind in E; [|left; congruence].
    pose proof (proj1 (proj2 W) _ _ D) as B.
    destruct (resolve_total w (so_ts o) W (S (length (objs w))) u0) as [[z Z]|[Z _]]; try lia;
      rewrite Z in E; [discriminate|]. right; congruence.
  - unfold succs in H. rewrite O in H. destruct H as [H|[]]. right; congruence.
Qed.

(** ** The closure *)

Lemma at_seed_names w sd u : at_seed w sd = Ok u <-> names w sd u.
Proof.
  split.
  - destruct sd as [n|[n j]|v]; simpl.
    + destruct (w_cells w) eqn:C; [|discriminate].
      destruct (tget _ _) eqn:T; [|discriminate]. intros [= <-]. now constructor.
    + destruct (w_cells w) eqn:C; (destruct (tget _ _) eqn:T; [|discriminate]);
        intros [= <-]; [now apply N_cell_ts|now apply N_stmt_ts].
    + intros [= <-]. constructor.
  - destruct 1 as [v|n v C T|n j v C T|t v C T]; simpl; auto; now rewrite C, T.
Qed.

Definition grow w ctxs (seed_only : bool) (closure : list nat) (sd : seed) : res (list nat) :=
  rbind (at_seed w sd) (fun u =>
    if seed_only then Ok (sadd u closure) else slice_helper w ctxs closure u).

Definition closed_in w ctxs (c : list nat) : Prop :=
  forall y r, In y c -> In r (succs w ctxs y) -> exists z, r = Ok z /\ In z c.

Lemma closed_reach w ctxs c u v :
  closed_in w ctxs c -> In u c -> reach (depends w ctxs) u v -> In v c.
Proof.
  intros C Hu R. induction R as [|x y z D R IH]; auto. apply IH.
  apply depends_edge in D.
  - destruct (C _ _ Hu D) as (q & [= <-] & ?). auto.
  - intros r Hr. destruct (C _ _ Hu Hr) as (q & -> & _). eauto.
Qed.

Lemma grow_fold w ctxs : forall seeds c c',
  closed_in w ctxs c ->
  rfold (grow w ctxs false) seeds c = Ok c' ->
  closed_in w ctxs c' /\ incl c c' /\
  (forall sd, In sd seeds -> exists u, at_seed w sd = Ok u /\ In u c') /\
  (forall v, In v c' -> In v c \/ in_closure w ctxs seeds v).
Proof.
  induction seeds as [|sd seeds IH]; intros c c' C; simpl.
  - intros [= <-]. split; auto. split; [apply incl_refl|]. split; [tauto|auto].
  - unfold grow at 1. destruct (at_seed w sd) as [u|] eqn:A; simpl; [|discriminate].
    destruct (slice_helper w ctxs c u) as [c1|] eqn:D; simpl; [|discriminate].
    intros H. unfold slice_helper in D. apply dfs_sound_complete in D.
    destruct D as (I & Hu & R & S).
    assert (C1 : closed_in w ctxs c1).
    { intros y r Hy Hr. destruct (in_dec Nat.eq_dec y c) as [Hc|Hc].
      - destruct (C _ _ Hc Hr) as (z & ? & ?). eauto.
      - eapply S; eauto. }
    destruct (IH c1 c' C1 H) as (C' & I' & Sd & V). split; auto. split; [|split].
    + intros y Hy. auto.
    + intros sd' [<-|Hs]; eauto.
    + intros v Hv. destruct (V v Hv) as [H1|(sd' & u' & ? & ? & ?)].
      * destruct (in_dec Nat.eq_dec v c) as [Hc|Hc]; auto.
        right. exists sd, u. split; [left; auto|]. split; [now apply at_seed_names|].
        eapply reach_mono; [apply edge_depends|]. apply R; auto.
      * right. exists sd', u'. split; [right; auto|]. auto.
Qed.

Lemma grow_fold_NoDup w ctxs so : forall seeds c c',
  NoDup c -> rfold (grow w ctxs so) seeds c = Ok c' -> NoDup c'.
Proof.
  induction seeds as [|sd seeds IH]; intros c c' N; simpl.
  - intros [= <-]; auto.
  - unfold grow at 1. destruct (at_seed w sd) as [u|]; simpl; [|discriminate].
    destruct so; simpl.
    + apply IH. now apply NoDup_sadd.
    + destruct (slice_helper w ctxs c u) eqn:D; simpl; [|discriminate].
      apply IH. eapply dfs_NoDup; eauto.
Qed.

Lemma grow_fold_seeds w ctxs : forall seeds c c',
  rfold (grow w ctxs true) seeds c = Ok c' ->
  forall v, In v c' <-> In v c \/ exists sd, In sd seeds /\ at_seed w sd = Ok v.
Proof.
  induction seeds as [|sd seeds IH]; intros c c'; simpl.
  - intros [= <-] v. split; auto. intros [?|(sd & [] & _)]; auto.
  - unfold grow at 1. destruct (at_seed w sd) as [u|] eqn:A; simpl; [|discriminate].
    intros H v. rewrite (IH _ _ H v). rewrite In_sadd. split.
    + intros [[->|?]|(sd' & ? & ?)]; eauto.
    + intros [?|(sd' & [<-|?] & B)]; eauto. left. left. congruence.
Qed.

(** ** Sorting *)

Section Sort.
  Context {A : Type} (leb : A -> A -> bool).
  Hypothesis total : forall a b, leb a b = true \/ leb b a = true.
  Hypothesis trans : forall a b c, leb a b = true -> leb b c = true -> leb a c = true.

  Lemma insert_by_perm a l : Permutation (insert_by leb a l) (a :: l).
  Proof.
    induction l as [|b l IH]; simpl; auto. destruct (leb a b); auto.
    rewrite IH. apply perm_swap.
  Qed.

  Lemma sort_by_perm l : Permutation (sort_by leb l) l.
  Proof. induction l; simpl; auto. rewrite insert_by_perm. auto. Qed.

  Lemma insert_by_sorted a l :
    StronglySorted (fun x y => leb x y = true) l ->
    StronglySorted (fun x y => leb x y = true) (insert_by leb a l).
  Proof.
    induction l as [|b l IH]; simpl; intros S.
    - constructor; auto.
    - inversion S; subst. destruct (leb a b) eqn:E.
      + constructor; auto. constructor; auto.
        eapply Forall_impl; [|eauto]. intros; eauto.
      + constructor; auto.
        assert (leb b a = true) by (destruct (total a b); congruence).
        apply Forall_forall. intros x Hx.
        apply (Permutation_in _ (insert_by_perm a l)) in Hx. destruct Hx as [<-|Hx]; auto.
        rewrite Forall_forall in H2. auto.
  Qed.

  Lemma sort_by_sorted l : StronglySorted (fun x y => leb x y = true) (sort_by leb l).
  Proof. induction l; simpl; [constructor|]. now apply insert_by_sorted. Qed.

  (** The sort is determined by the set of elements, if no two are equivalent. *)
  Lemma sorted_unique l l' :
    StronglySorted (fun x y => leb x y = true) l ->
    StronglySorted (fun x y => leb x y = true) l' ->
    Permutation l l' ->
    (forall a b, In a l -> In b l -> leb a b = true -> leb b a = true -> a = b) ->
    l = l'.
  Proof.
    revert l'. induction l as [|a l IH]; intros l' S S' P U.
    - apply Permutation_nil in P. auto.
    - destruct l' as [|b l']; [apply Permutation_sym, Permutation_nil in P; discriminate|].
      inversion S as [|? ? Sl Fa]; subst. inversion S' as [|? ? Sl' Fb]; subst.
      assert (E : a = b).
      { assert (I1 : In a (b :: l')) by (eapply Permutation_in; [eauto|left; auto]).
        assert (I2 : In b (a :: l)) by
          (eapply Permutation_in; [apply Permutation_sym; eauto|left; auto]).
        destruct I1 as [->|I1]; auto. destruct I2 as [->|I2]; auto.
        apply U; simpl; auto.
        - rewrite Forall_forall in Fa; auto.
        - rewrite Forall_forall in Fb; auto. }
      subst b. f_equal. apply IH; auto.
      + eapply Permutation_cons_inv; eauto.
      + intros x y Hx Hy. apply U; simpl; auto.
  Qed.
End Sort.

Lemma ts_le_total w a b :
  ts_leb (ts_of w a) (ts_of w b) = true \/ ts_leb (ts_of w b) (ts_of w a) = true.
Proof. apply ts_leb_total. Qed.

Lemma make_multi_slice_inv w ctxs seeds so l :
  make_multi_slice w ctxs seeds so = Ok l ->
  exists c, rfold (grow w ctxs so) seeds [] = Ok c /\ Permutation l c.
Proof.
  unfold make_multi_slice. fold (grow w ctxs so).
  change (rfold _ seeds []) with (rfold (grow w ctxs so) seeds []).
  destruct (rfold (grow w ctxs so) seeds []) as [c|]; simpl; [|discriminate].
  intros [= <-]. exists c. split; auto. apply sort_by_perm.
Qed.

Lemma make_multi_slice_of w ctxs seeds so c :
  rfold (grow w ctxs so) seeds [] = Ok c ->
  make_multi_slice w ctxs seeds so =
    Ok (sort_by (fun a b => ts_leb (ts_of w a) (ts_of w b)) c).
Proof.
  intros H. unfold make_multi_slice.
  change (rfold _ seeds []) with (rfold (grow w ctxs so) seeds []). now rewrite H.
Qed.

Lemma make_multi_slice_err w ctxs seeds so e :
  rfold (grow w ctxs so) seeds [] = Err e -> make_multi_slice w ctxs seeds so = Err e.
Proof.
  intros H. unfold make_multi_slice.
  change (rfold _ seeds []) with (rfold (grow w ctxs so) seeds []). now rewrite H.
Qed.

Lemma slice_members w ctxs seeds l :
  make_multi_slice w ctxs seeds false = Ok l ->
  forall v, In v l <-> in_closure w ctxs seeds v.
Proof.
  intros H v. apply make_multi_slice_inv in H. destruct H as (c & H & P).
  apply grow_fold in H; [|intros ? ? []].
  destruct H as (C & _ & S & R). split.
  - intros Hv. apply (Permutation_in _ P) in Hv. destruct (R v Hv) as [[]|]; auto.
  - intros (sd & u & Hs & A & D). apply (Permutation_in _ (Permutation_sym P)).
    destruct (S sd Hs) as (u' & A' & Hu). apply at_seed_names in A. rewrite A in A'. injection A' as <-.
    eapply closed_reach; eauto.
Qed.

Lemma slice_NoDup w ctxs seeds so l :
  make_multi_slice w ctxs seeds so = Ok l -> NoDup l.
Proof.
  intros H. apply make_multi_slice_inv in H. destruct H as (c & H & P).
  eapply Permutation_NoDup; [apply Permutation_sym; eauto|].
  eapply grow_fold_NoDup; eauto. constructor.
Qed.

Lemma slice_sorted w ctxs seeds so l :
  make_multi_slice w ctxs seeds so = Ok l -> StronglySorted (ts_le_of w) l.
Proof.
  unfold make_multi_slice.
  change (rfold _ seeds []) with (rfold (grow w ctxs so) seeds []).
  destruct (rfold (grow w ctxs so) seeds []) as [c|]; simpl; [|discriminate].
  intros [= <-].
  assert (S : StronglySorted (fun a b => ts_leb (ts_of w a) (ts_of w b) = true)
     (sort_by (fun a b => ts_leb (ts_of w a) (ts_of w b)) c)).
  { apply sort_by_sorted; [apply ts_le_total|]. intros a b d. apply ts_leb_trans. }
  clear - S. induction S; constructor; auto.
  eapply Forall_impl; [|eauto]. intros b Hb. unfold ts_le_of. now apply ts_ltb_ge.
Qed.

(** ** Totality *)

Lemma slice_helper_total w ctxs c u : world_ok w -> u < length (objs w) ->
  (exists c', slice_helper w ctxs c u = Ok c') \/
  (exists e y, slice_helper w ctxs c u = Err e /\ reach (depends w ctxs) u y /\
               In (Err e) (succs w ctxs y) /\ y < length (objs w)).
Proof.
  intros W L. unfold slice_helper.
  assert (CL : forall v z, In v (seq 0 (length (objs w))) -> edge (succs w ctxs) v z ->
                           In z (seq 0 (length (objs w)))).
  { intros v z _ E. apply edge_depends in E. destruct E as (? & ? & ? & _ & _ & _ & X).
    apply explains_bound in X. apply in_seq. lia. }
  destruct (dfs_fuel (succs w ctxs) (seq 0 (length (objs w))) (S (length (objs w))) c u)
    as [?|(e & y & D & R & I)]; auto.
  - apply in_seq. lia.
  - pose proof (unvisited_le (seq 0 (length (objs w))) c) as H. rewrite seq_length in H. lia.
  - right. exists e, y. repeat split; auto.
    + eapply reach_mono; [apply edge_depends|auto].
    + assert (In y (seq 0 (length (objs w)))).
      { clear I D. assert (Hu : In u (seq 0 (length (objs w)))) by (apply in_seq; lia).
        clear L. induction R; auto. apply IHR. eapply CL; eauto. }
      apply in_seq in H. lia.
Qed.

Definition seed_ok w sd := exists u, at_seed w sd = Ok u /\ u < length (objs w).

Lemma at_seed_bound w sd u : world_ok w -> at_seed w sd = Ok u ->
  (forall v, sd = SObj v -> v < length (objs w)) -> u < length (objs w).
Proof.
  intros (_ & _ & W) A B. destruct sd; simpl in A.
  - destruct (w_cells w); [|discriminate].
    destruct (tget _ _) eqn:T; simpl in A; [|discriminate]. injection A as <-. eauto.
  - destruct (tget _ _) eqn:T; simpl in A; [|discriminate]. injection A as <-. eauto.
  - injection A as <-. auto.
Qed.

Lemma grow_fold_total w ctxs : world_ok w -> forall seeds c,
  (forall sd, In sd seeds -> seed_ok w sd) ->
  (exists c', rfold (grow w ctxs false) seeds c = Ok c') \/
  (exists e y, rfold (grow w ctxs false) seeds c = Err e /\
     in_closure w ctxs seeds y /\ In (Err e) (succs w ctxs y) /\ y < length (objs w)).
Proof.
  intros W. induction seeds as [|sd seeds IH]; intros c S; simpl; [left; eauto|].
  destruct (S sd (or_introl eq_refl)) as (u & A & L).
  unfold grow at 1 3. rewrite A. simpl.
  destruct (slice_helper_total w ctxs c u W L) as [[c1 H]|(e & y & H & R & I & B)];
    rewrite H; simpl.
  - destruct (IH c1) as [?|(e & y & E & (sd' & u' & ? & ? & ?) & I & B)]; auto.
    + intros; apply S; right; auto.
    + right. exists e, y. repeat split; auto. exists sd', u'. split; [right; auto|]. auto.
  - right. exists e, y. repeat split; auto. exists sd, u. split; [left; auto|].
    split; auto. now apply at_seed_names.
Qed.
