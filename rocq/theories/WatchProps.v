(** C39: watchpoints. *)
Require Import List Arith Bool Lia.
Import ListNotations.
Require Import Verif.Base Verif.WatchModel Verif.WatchSpec Verif.WatchProofs.

(** C39: the passing watchpoints are exactly the registered ones whose predicate is absent or true, in order; if
    predicates do not raise and do not change the list. The other cases are below. *)
Theorem C39_passing_partial : forall b v k l fuel r,
  says b v -> length l < fuel ->
  (passing b k fuel 0 l [] = (Ok r, l) <-> selects (holds v k) l r).
Proof.
  intros b v k l fuel r H L. rewrite (passing_says b v) by (auto; lia). cbn [app skipn]. rewrite selects_holds.
  split; [intros E; injection E; auto|intros ->; auto].
Qed.
Print Assumptions C39_passing_partial.
Definition large (p : nat) (k : call) : bool := p <? k_obj k.
Definition compare : behaviour := fun p k l => (Ok (large p k), l).
Definition three : list wp := [mkWp None (Some 3); mkWp (Some 1) None; mkWp None (Some 7)].
Example C39_passing_case : says compare large /\
  passing compare (mkCall 5 (1, 1) 0) 4 0 three [] = (Ok [mkWp None (Some 3); mkWp (Some 1) None], three) /\
  selects (holds large (mkCall 5 (1, 1) 0)) three [mkWp None (Some 3); mkWp (Some 1) None].
Proof.
  split; [intros p k l; reflexivity|]. split; [reflexivity|]. apply selects_holds. reflexivity.
Qed.

(** If a predicate raises, and those before it do not, its exception is raised. *)
Theorem C39_raises : forall b k l1 w p l2 e fuel,
  w_pred w = Some p -> (forall u, In u l1 -> exists x, ask b u k (l1 ++ w :: l2) = (Ok x, l1 ++ w :: l2)) ->
  b p k (l1 ++ w :: l2) = (Err e, l1 ++ w :: l2) -> length l1 < fuel ->
  fst (passing b k fuel 0 (l1 ++ w :: l2) []) = Err e.
Proof.
  intros b k l1 w p l2 e fuel P H E L.
  assert (Q : forall i fuel acc, i <= length l1 -> length l1 < i + fuel -> fst (passing b k fuel i (l1 ++ w :: l2) acc) = Err e).
  { clear fuel L. intros i. remember (length l1 - i) as n eqn:N. revert i N.
    induction n as [|n IH]; intros i N fuel acc I L; (destruct fuel as [|f]; [lia|]); cbn [passing].
    - assert (i = length l1) by lia. subst i. rewrite nth_error_app2 by lia. rewrite Nat.sub_diag. cbn [nth_error].
      unfold ask. rewrite P, E. reflexivity.
    - rewrite nth_error_app1 by lia. destruct (nth_error l1 i) as [u|] eqn:U; [|apply nth_error_None in U; lia].
      destruct (H u) as (x & X); [eapply nth_error_In; eauto|]. rewrite X. destruct x; apply IH; lia. }
  apply Q; lia.
Qed.
Print Assumptions C39_raises.
Definition picky : behaviour := fun p k l => (if p =? 0 then Err TypeError else Ok true, l).
Example C39_raises_case : fst (passing picky (mkCall 5 (1, 1) 0) 9 0 [mkWp None None; mkWp None (Some 0); mkWp None (Some 2)] []) = Err TypeError /\
  exists x, ask picky (mkWp None None) (mkCall 5 (1, 1) 0) [mkWp None None; mkWp None (Some 0); mkWp None (Some 2)] =
    (Ok x, [mkWp None None; mkWp None (Some 0); mkWp None (Some 2)]).
Proof. split; [reflexivity|eexists; reflexivity]. Qed.

(** A predicate that takes its watchpoint out of the list, to pass only once, makes the next one be skipped. *)
Theorem C39_once_refuted : exists b k l r l',
  (forall w, In w l -> fst (ask b w k l) = Ok true) /\ passing b k 9 0 l [] = (Ok r, l') /\
  length l = 2 /\ length r = 1.
Proof.
  exists (fun p k l => (Ok true, filter (fun w => match w_pred w with Some q => negb (q =? p) | None => true end) l)),
    (mkCall 5 (1, 1) 0), [mkWp None (Some 1); mkWp None (Some 2)].
  do 2 eexists. split; [|split; [reflexivity|split; reflexivity]]. intros w [<-|[<-|[]]]; reflexivity.
Qed.
Print Assumptions C39_once_refuted.
(** A predicate that adds a watchpoint like its own makes the loop endless. *)
Theorem C39_endless_refuted : exists b k l, forall fuel, fst (passing b k fuel 0 l []) = Err OutOfFuel.
Proof.
  exists (fun p k l => (Ok false, l ++ [mkWp None (Some 1)])), (mkCall 5 (1, 1) 0), [mkWp None (Some 1)].
  assert (Q : forall fuel i acc, fst (passing (fun p k l => (Ok false, l ++ [mkWp None (Some 1)])) (mkCall 5 (1, 1) 0) fuel i
              (repeat (mkWp None (Some 1)) (S i)) acc) = Err OutOfFuel).
  { induction fuel as [|f IH]; intros i acc; [reflexivity|]. cbn [passing].
    replace (nth_error (repeat (mkWp None (Some 1)) (S i)) i) with (Some (mkWp None (Some 1))).
    - unfold ask. cbn [w_pred]. replace (repeat (mkWp None (Some 1)) (S i) ++ [mkWp None (Some 1)])
        with (repeat (mkWp None (Some 1)) (S (S i))); [apply IH|].
      generalize (S i). intros n. induction n; simpl in *; congruence.
    - symmetry. induction i; simpl in *; auto. }
  intros fuel. apply (Q fuel 0 []).
Qed.
Print Assumptions C39_endless_refuted.

(** The list grows only through [add], and only at its end, by what was added. Missing: three methods that
    [Watchpoints] inherits from [list], refuted below. *)
Theorem C39_grows_partial : forall a l l', ~ inherited_growth a -> perform a l = Some l' -> length l < length l' ->
  exists pred name, a = Add pred name /\ l' = l ++ [mkWp name pred].
Proof.
  intros a l l' N H L. destruct a; cbn [perform] in H; try discriminate; injection H as <-; cbn [inherited_growth] in N; try tauto.
  - eauto.
  - rewrite lset_length in L. lia.
  - change (length l < length (firstn i l ++ skipn (S i) l)) in L.
    rewrite app_length, firstn_length, skipn_length in L. lia.
  - simpl in L. lia.
  - rewrite rev_length in L. lia.
Qed.
Print Assumptions C39_grows_partial.
Example C39_grows_case : ~ inherited_growth (Add (Some 4) None) /\ perform (Add (Some 4) None) three = Some (three ++ [mkWp None (Some 4)]).
Proof. split; [intros []|reflexivity]. Qed.
(** Each of them can make any list that is not empty longer, by a member that was never added. *)
Theorem C39_grows_refuted : forall l w, l <> [] ->
  (exists l', perform (Insert 0 w) l = Some l' /\ length l < length l' /\ In w l') /\
  (exists l', perform (SetSlice 0 0 [w]) l = Some l' /\ length l < length l' /\ In w l') /\
  (exists l', perform (IMul 2) l = Some l' /\ length l < length l').
Proof.
  intros l w N. assert (length l <> 0) by (destruct l; [congruence|discriminate]).
  split; [|split]; eexists; (split; [reflexivity|]); simpl; auto.
  rewrite !app_length. simpl. lia.
Qed.
Print Assumptions C39_grows_refuted.
(** The methods that are overridden never change the list. *)
Theorem C39_forbidden : forall a l, match a with Append _ | Extend _ | Plus _ | IPlus _ | RPlus _ => True | _ => False end ->
  perform a l = None.
Proof. intros a l H. destruct a; simpl in *; tauto. Qed.
Print Assumptions C39_forbidden.
Example C39_forbidden_case : perform (Append (mkWp None None)) three = None /\ perform Reverse three = Some (rev three).
Proof. split; reflexivity. Qed.

(** The debugger: when a statement is done that was not done before, it is entered if and only if a watchpoint of a
    symbol that the statement updated holds; with exactly the watchpoints that hold; and nothing stays active. *)
Theorem C39_enters_partial : forall b v fuel d s,
  says b v -> (forall y, length (watch_of y s) < fuel) -> ~ In (d_stmt d) (finished s) -> active s = [] ->
  exists r s', after_stmt b fuel d s = (Ok r, s') /\ active s' = [] /\
    (forall y, watch_of y s' = watch_of y s) /\
    (r = None <-> forall y obj nm w, In (y, obj, nm) (d_updated d) -> In w (watch_of y s) ->
                   ~ holds v (mkCall obj (d_position d) nm) w) /\
    (forall a, r = Some a -> forall ws y, In (ws, y) a <-> exists obj nm, In (y, obj, nm) (d_updated d) /\ ws <> [] /\
       selects (holds v (mkCall obj (d_position d) nm)) (watch_of y s) ws).
Proof.
  intros b v fuel d s H L N A. unfold after_stmt. apply memb_nIn in N. rewrite N.
  destruct (checks_says b v fuel (d_position d) H (d_updated d) s L) as (s1 & E & F & W & A1). rewrite E.
  rewrite A in A1. cbn [app] in A1. cbn [active].
  set (found := flat_map _ _) in A1.
  assert (M : forall ws y, In (ws, y) found <-> exists obj nm, In (y, obj, nm) (d_updated d) /\ ws <> [] /\
       selects (holds v (mkCall obj (d_position d) nm)) (watch_of y s) ws).
  { intros ws y. unfold found. rewrite in_flat_map. split.
    - intros ([[y' obj] nm] & U & I). destruct (filter _ (watch_of y' s)) eqn:Q; [destruct I|].
      destruct I as [I|[]]. injection I as <- <-. exists obj, nm. split; auto. split; [discriminate|].
      apply selects_holds. congruence.
    - intros (obj & nm & U & NE & S1). apply selects_holds in S1. subst ws. exists (y, obj, nm). split; auto.
      destruct (filter _ (watch_of y s)); [congruence|]. left. auto. }
  assert (K : found = [] <-> forall y obj nm w, In (y, obj, nm) (d_updated d) -> In w (watch_of y s) ->
                   ~ holds v (mkCall obj (d_position d) nm) w).
  { split.
    - intros E0 y obj nm w U I Q.
      assert (In (filter (holdsb v (mkCall obj (d_position d) nm)) (watch_of y s), y) found).
      { apply M. exists obj, nm. split; auto. split; [|apply selects_holds; auto]. intros Z.
        assert (In w []) as []. rewrite <- Z. apply filter_In. split; auto. apply holdsb_iff. auto. }
      rewrite E0 in H0. destruct H0.
    - intros Q. destruct found as [|[ws y] f]; auto. exfalso.
      destruct (proj1 (M ws y)) as (obj & nm & U & NE & S1); [left; auto|].
      apply selects_holds in S1. destruct ws as [|w ws]; [congruence|].
      assert (I : In w (filter (holdsb v (mkCall obj (d_position d) nm)) (watch_of y s))) by (rewrite <- S1; left; auto).
      apply filter_In in I. destruct I as [I1 I2]. apply holdsb_iff in I2. eapply Q; eauto. }
  rewrite A1. destruct found as [|a f] eqn:Q.
  - do 2 eexists. split; [reflexivity|]. simpl. split; auto. split; [exact W|]. split; [tauto|]. discriminate.
  - do 2 eexists. split; [reflexivity|]. simpl. split; auto. split; [exact W|]. split.
    + split; [discriminate|]. intros Z. apply K in Z. discriminate.
    + intros a0 E0. injection E0 as <-. exact M.
Qed.
Print Assumptions C39_enters_partial.
Definition watched : st := mkSt [(1, three); (2, [mkWp None (Some 9)])] [] [].
Definition assignment : done := mkDone 4 (2, 3) [(1, 8, 1); (2, 8, 2)].
Example C39_enters_case : says compare large /\ (forall y, length (watch_of y watched) < 5) /\
  after_stmt compare 5 assignment watched = (Ok (Some [(three, 1)]), mkSt (watch watched) [] [4]).
Proof.
  split; [intros p k l; reflexivity|]. split; [|reflexivity].
  intros y. unfold watch_of, watched. simpl. destruct (y =? 1); [simpl; lia|]. destruct (y =? 2); simpl; lia.
Qed.

(** A statement that was done before, as in the second iteration of a loop, enters no debugger, whatever holds. *)
Theorem C39_loop_refuted : forall b fuel d s, In (d_stmt d) (finished s) -> after_stmt b fuel d s = (Ok None, s).
Proof. intros b fuel d s H. unfold after_stmt. apply memb_In in H. rewrite H. reflexivity. Qed.
Print Assumptions C39_loop_refuted.
Example C39_loop_case : let s := snd (after_stmt compare 5 assignment watched) in
  In (d_stmt assignment) (finished s) /\ holds large (mkCall 8 (2, 3) 1) (mkWp None (Some 3)) /\
  In (mkWp None (Some 3)) (watch_of 1 s).
Proof. simpl. repeat split; auto. Qed.

(** If a predicate raises, watchpoints that passed for other symbols stay active, and the next statement enters the
    debugger though it updated nothing. *)
Theorem C39_stale_refuted : exists b d1 d2 s, active s = [] /\ d_updated d2 = [] /\
  fst (after_stmt b 9 d1 s) = Err TypeError /\
  fst (after_stmt b 9 d2 (snd (after_stmt b 9 d1 s))) = Ok (Some [([mkWp None None], 1)]).
Proof.
  exists picky, (mkDone 4 (2, 3) [(1, 8, 1); (2, 8, 2)]), (mkDone 5 (2, 4) []),
    (mkSt [(1, [mkWp None None]); (2, [mkWp None (Some 0)])] [] []).
  repeat split.
Qed.
Print Assumptions C39_stale_refuted.
