(** The cells that the frontend chooses to run: C36 and C37. *)
Require Import List Bool Arith Lia.
Import ListNotations.
Require Import Verif.Base Verif.Loops Verif.StoreModel Verif.StoreSpec Verif.StoreProofs.

(** ** C36: the closure *)

(** Backward, or when nothing is pulled: the start cells and all that can be reached from
    them, once each. *)
Theorem C36_push_exact S fuel start inclusive parents C :
  parents = true \/ s_pull S = false ->
  raw_closure S fuel start inclusive parents = Ok C ->
  NoDup C /\
  forall y, In y C <->
    (exists x, In x start /\ reach (if parents then parent S else child S) x y) /\
    (inclusive = false -> ~ In y start).
Proof.
  intros P H. unfold raw_closure in H. apply rmap_Ok in H. destruct H as (c & H & <-).
  apply rounds_push in H.
  2:{ destruct P as [->| ->]; [reflexivity|]. destruct parents; reflexivity. }
  apply seeds_exact in H. destruct H as (N & I).
  assert (I' : forall y, In y c <-> exists x, In x start /\ reach (if parents then parent S else child S) x y).
  { intros y. rewrite I. destruct parents; reflexivity. }
  destruct inclusive.
  - split; [auto|]. intros y. rewrite I'. intuition discriminate.
  - split; [unfold sdiff; now apply NoDup_filter|]. intros y. rewrite In_sdiff, I'. intuition.
Qed.
Print Assumptions C36_push_exact.

(** The cells 1, 2, 3 with a cycle between 2 and 3, and 4, which uses 3. *)
Definition ring : store :=
  mkStore [(1, [2]); (2, [3]); (3, [2; 4])] [(2, [1; 3]); (3, [2]); (4, [3]); (1, [])]
    [1; 2; 3; 4] [] [] [] [] [] [] [(1, true); (2, true); (3, true); (4, true)]
    [(1, 0); (2, 1); (3, 2); (4, 3)] false false false.

Example ring_forward : raw_closure ring 10 [2] true false = Ok [2; 3; 4].
Proof. reflexivity. Qed.
Example ring_backward : raw_closure ring 10 [4] true true = Ok [4; 3; 2; 1].
Proof. reflexivity. Qed.
Example ring_exclusive : raw_closure ring 10 [2] false false = Ok [3; 4].
Proof. reflexivity. Qed.

(** It always comes to an end, whatever cycles there are; but when pulling only if the parents
    have none. *)
Theorem C36_terminates_partial S start inclusive parents :
  (s_pull S = true -> parents = false -> no_circles S) ->
  exists enough, forall fuel, enough <= fuel ->
  exists l, closure_cells S fuel start inclusive parents = Ok l.
Proof.
  intros NC. set (U := all_ids S start).
  exists (length U * (length U + 1) + length U + 3 + length (s_cells S)). intros fuel F.
  destruct (all_ids_closed S start) as (A & B & I).
  destruct (raw_total S U fuel start inclusive parents A B NC I) as (C & H); [lia|].
  unfold closure_cells. rewrite H. cbn [rbind]. apply ids_to_cells_total. lia.
Qed.
Print Assumptions C36_terminates_partial.

(** 4 uses 2 and 3, which use each other; pulling into 4 never ends. *)
Definition knot : store :=
  mkStore [(2, [3; 4]); (3, [2])] [(4, [2]); (2, [3]); (3, [2])]
    [2; 3; 4] [] [] [] [] [] [] [(2, true); (3, true); (4, true)]
    [(2, 0); (3, 1); (4, 2)] true false true.

Lemma knot_deep fuel : forall x, x = 2 \/ x = 3 ->
  helper knot fuel (s_parents knot) true false x [4] = Err OutOfFuel.
Proof.
  induction fuel as [|f IH]; intros x X; [reflexivity|].
  destruct X as [->| ->].
  - cbn [helper]. change (negb false && memb 2 [4])%bool with false. cbv iota zeta.
    change (dget (s_parents knot) 2) with (Some [3]). cbn [rfold]. rewrite (IH 3) by auto. reflexivity.
  - cbn [helper]. change (negb false && memb 3 [4])%bool with false. cbv iota zeta.
    change (dget (s_parents knot) 3) with (Some [2]). cbn [rfold]. rewrite (IH 2) by auto. reflexivity.
Qed.

Theorem C36_terminates_refuted : exists S start, forall fuel,
  raw_closure S fuel start true false = Err OutOfFuel.
Proof.
  exists knot, [4]. intros [|fuel]; [reflexivity|].
  unfold raw_closure. cbn [rounds].
  change (rfold _ [4] (supd [] [4])) with (@Ok (list nat) [4]). cbn [rbind].
  change (false || negb (s_pull knot))%bool with false. cbv iota.
  cbn [pull_loop nth_error]. cbn [helper].
  change (negb true && memb 4 [4])%bool with false. cbv iota zeta.
  change (dget (s_parents knot) 4) with (Some [2]). cbn [rfold].
  rewrite (knot_deep fuel 2) by auto. reflexivity.
Qed.
Print Assumptions C36_terminates_refuted.

(** *** When pulling *)

(** Nothing is run that is not needed to bring the start cells' descendants up to date, or a
    relative of those. *)
Theorem C36_pull_sound S fuel start C :
  s_pull S = true -> s_cousins S = false -> raw_closure S fuel start true false = Ok C ->
  NoDup C /\
  forall y, In y C ->
    exists x a, In x start /\ reach (child S) x a /\ reach (parent S) a y.
Proof.
  intros P CO H. unfold raw_closure in H. apply rmap_Ok in H. destruct H as (c & H & <-).
  destruct (rounds_pull _ _ P _ _ _ _ H) as (N & _ & _ & _ & _ & _ & K).
  - intros y. now rewrite In_supd_nil.
  - apply NoDup_supd. constructor.
  - split; [auto|]. intros y Y. destruct (K CO y Y) as (x & a & X & R & R2).
    exists x, a. rewrite In_supd_nil in X. auto.
Qed.
Print Assumptions C36_pull_sound.

(** If there is no other report of stale parents, only those are pulled that have to be run
    again for their own sake, or use such a cell. *)
Theorem C36_pull_needed S fuel start C :
  s_pull S = true -> s_cousins S = false ->
  s_stale S = [] -> s_by_exec S = [] -> s_by_child S = [] ->
  raw_closure S fuel start true false = Ok C ->
  forall y, In y C ->
    (exists x, In x start /\ reach (child S) x y) \/
    (exists z, reach (parent S) y z /\ needs_run S z).
Proof.
  intros P CO Z1 Z2 Z3 H y Y. unfold raw_closure in H. apply rmap_Ok in H. destruct H as (c & H & <-).
  destruct (rounds_needed S fuel P CO Z1 Z2 Z3 _ _ _ _ H) with (y := y) as [(x & X & R)|K]; auto.
  - intros z. now rewrite In_supd_nil.
  - apply NoDup_supd. constructor.
  - left. exists x. rewrite In_supd_nil in X. auto.
Qed.
Print Assumptions C36_pull_needed.

(** All that depends on the start cells is run; and so is every cell on which one that is run
    depends and that has to run for its own sake, or is a stale parent. *)
Theorem C36_pull_complete S fuel start C :
  s_pull S = true -> raw_closure S fuel start true false = Ok C ->
  (forall x y, In x start -> reach (child S) x y -> In y C) /\
  (parents_listed S ->
     forall x a, In x C -> reach (parent S) x a -> needs_run S a -> In a C) /\
  (forall x p, In x C -> parent S x p -> stale_for S x p -> In p C) /\
  (maps_agree S ->
     forall x e p, In x C -> In e C -> parent S x p -> (exists l, dget (s_parents S) e = Some l) ->
       stale_once_a S x e p -> In p C).
Proof.
  intros P H. unfold raw_closure in H. apply rmap_Ok in H. destruct H as (c & H & <-).
  destruct (rounds_pull _ _ P _ _ _ _ H) as (N & _ & (c1 & PL) & K & _).
  - intros y. now rewrite In_supd_nil.
  - apply NoDup_supd. constructor.
  - destruct (pull_loop_closed _ _ _ _ _ PL) as (A & B & D). split; [|split; [exact D|split; [exact A|exact B]]].
    intros x y X. apply K. now rewrite In_supd_nil.
Qed.
Print Assumptions C36_pull_complete.

(** 1 -> 2 -> 3 and 4 -> 3: cell 4 was edited, and 5 is stale for 2. *)
Definition pulling : store :=
  mkStore [(1, [2]); (2, [3]); (4, [3]); (5, [2])]
    [(1, []); (2, [1; 5]); (3, [2; 4]); (4, [6]); (5, []); (6, [])]
    [1; 2; 3; 4; 5; 6] [] [] [4] [(2, [5])] [] [] [(1, true); (2, true); (3, true); (4, true); (5, true); (6, true)]
    [(1, 1); (2, 2); (3, 5); (4, 4); (5, 3); (6, 0)] true false false.

Example pulling_sound : raw_closure pulling 10 [1] true false = Ok [1; 2; 3; 5; 4].
Proof. reflexivity. Qed.
Example pulling_needed : needs_run pulling 4 /\ ~ needs_run pulling 5 /\ stale_for pulling 2 5 /\ parents_listed pulling.
Proof.
  split; [right; right; right; simpl; auto|]. split; [|split].
  - intros [H|[H|[H|H]]]; simpl in H; intuition discriminate.
  - exists [5]. simpl. auto.
  - intros a b (l & D & I). apply dget_In in D.
    assert (K : Forall (fun p => Forall (fun q => dget (s_parents pulling) q <> None) (snd p)) (s_parents pulling))
      by (repeat constructor; discriminate).
    rewrite Forall_forall in K. specialize (K _ D). rewrite Forall_forall in K. specialize (K _ I).
    destruct (dget (s_parents pulling) b) as [m|]; [eauto|contradiction].
Qed.
Example pulling_ordered : closure_cells pulling 10 [1] true false = Ok [1; 2; 5; 4; 3].
Proof. reflexivity. Qed.

Example pulling_no_circles : no_circles pulling.
Proof.
  set (rank := fun x => nth x [0; 1; 2; 3; 2; 1; 1] 0).
  assert (K : forall a b, parent pulling a b -> rank b < rank a).
  { intros a b (l & D & I). apply dget_In in D.
    assert (F : Forall (fun p => Forall (fun q => rank q < rank (fst p)) (snd p)) (s_parents pulling))
      by (repeat constructor; unfold rank; simpl; lia).
    rewrite Forall_forall in F. specialize (F _ D). rewrite Forall_forall in F. apply (F _ I). }
  assert (K2 : forall a b, reach (parent pulling) a b -> rank b <= rank a).
  { intros a b R. induction R as [|a b c R1 R IH]; [lia|]. apply K in R1. lia. }
  intros x R. inversion R as [? y ? R1 R2]; subst. apply K in R1. apply K2 in R2. lia.
Qed.

(** Once 1 has run, 3 is stale for 2. *)
Definition handed : store :=
  mkStore [(1, [2])] [(1, []); (2, [1; 3]); (3, [])] [1; 2; 3] [] [] [] []
    [(2, [(1, [3])])] [(1, [(2, [3])])] [(1, true); (2, true); (3, true)] [(1, 0); (3, 1); (2, 2)] true true false.

Example handed_run : raw_closure handed 10 [1] true false = Ok [1; 2; 3] /\
  raw_closure handed 10 [2] true false = Ok [2] /\ maps_agree handed /\ stale_once_a handed 2 1 3.
Proof.
  split; [reflexivity|]. split; [reflexivity|]. split.
  - intros x e p. unfold stale_once_a, stale_once_b. simpl.
    destruct (Nat.eqb_spec x 2) as [->|N].
    + split.
      * intros (d & l & [= <-] & [[= <- <-]|[]] & I). exists [(2, [3])], [3]. simpl. auto.
      * destruct (Nat.eqb_spec e 1) as [->|Ne].
        -- intros (d & l & [= <-] & [[= <-]|[]] & I). exists [(1, [3])], [3]. simpl. auto.
        -- intros (d & l & D & _). discriminate.
    + split; [intros (d & l & D & _); discriminate|].
      destruct (Nat.eqb_spec e 1) as [->|Ne].
      * intros (d & l & [= <-] & [[= <- <-]|[]] & I). congruence.
      * intros (d & l & D & _). discriminate.
  - exists [(1, [3])], [3]. simpl. auto.
Qed.

(** Cells between an outdated cell and its use are run or not, depending on the order in which
    the kernel happens to report the parents. *)
Definition swapped (ps : list nat) : store :=
  mkStore [] [(1, ps); (2, [3]); (3, [])] [1; 2; 3] [] [] [3] [] [] []
    [(1, true); (2, true); (3, true)] [(3, 0); (2, 1); (1, 2)] true false false.

Theorem C36_pull_order_refuted : exists S S' start C C',
  s_pull S = true /\ s_cousins S = false /\ S = swapped [2; 3] /\ S' = swapped [3; 2] /\
  (forall a b, parent S a b <-> parent S' a b) /\
  raw_closure S 10 start true false = Ok C /\ raw_closure S' 10 start true false = Ok C' /\
  In 2 C /\ ~ In 2 C'.
Proof.
  exists (swapped [2; 3]), (swapped [3; 2]), [1], [1; 3; 2], [1; 3].
  split; [reflexivity|]. split; [reflexivity|]. split; [reflexivity|]. split; [reflexivity|]. split; [|split; [|split]].
  - intros a b. unfold parent. change (s_parents (swapped ?p)) with [(1, p); (2, [3]); (3, [])].
    simpl. destruct (Nat.eqb_spec a 1) as [->|N]; [|reflexivity].
    split; intros (l & [= <-] & I); eexists; (split; [reflexivity|]); simpl in *; intuition.
  - reflexivity.
  - reflexivity.
  - simpl. intuition discriminate.
Qed.
Print Assumptions C36_pull_order_refuted.

(** A cell that was never run is not pulled if the kernel does not list its parents. *)
Theorem C36_pull_unlisted_refuted : exists S start C a x,
  s_pull S = true /\ raw_closure S 10 start true false = Ok C /\
  In x C /\ parent S x a /\ needs_run S a /\ ~ In a C.
Proof.
  exists (mkStore [] [(1, [2])] [1] [] [] [] [] [] [] [(1, true); (2, true)] [(2, 0); (1, 1)] true true false),
    [1], [1], 2, 1.
  split; [reflexivity|]. split; [reflexivity|]. split; [left; auto|]. split; [exists [2]; simpl; auto|].
  split; [left; simpl; intuition discriminate|simpl; intuition discriminate].
Qed.
Print Assumptions C36_pull_unlisted_refuted.

(** *** Cousins: JupyterLab's standard setting *)

(** What is pulled in is pushed again: everything that uses a cell that is run is run, and so
    is every cell that has to be and is used by one; and it is all related. *)
Theorem C36_cousins_partial S fuel start C :
  s_pull S = true -> s_cousins S = true -> NoDup start ->
  raw_closure S fuel start true false = Ok C ->
  NoDup C /\ incl start C /\
  (forall x y, In x C -> child S x y -> In y C) /\
  (parents_listed S ->
     forall x a, In x C -> reach (parent S) x a -> needs_run S a -> In a C) /\
  (forall x p, In x C -> parent S x p -> stale_for S x p -> In p C) /\
  (forall y, In y C -> exists x, In x start /\
     reach (fun a b => child S a b \/ parent S a b) x y).
Proof.
  intros P CO NS H. destruct (C36_pull_complete _ _ _ _ P H) as (A & B & D & _).
  unfold raw_closure in H. apply rmap_Ok in H. destruct H as (c & H & <-).
  destruct (rounds_pull _ _ P _ _ _ _ H) as (N & I & _ & _ & K & Q & _).
  - intros y. now rewrite In_supd_nil.
  - apply NoDup_supd. constructor.
  - split; [auto|]. split; [intros y Y; apply (A y y); [auto|apply reach_refl]|].
    split; [exact (K CO NS)|]. split; [exact B|]. split; [exact D|].
    intros y0 Y0.
    apply (Q (fun y => exists x, In x start /\ reach (fun a b => child S a b \/ parent S a b) x y)); [| | |exact Y0].
    + intros y Y. rewrite In_supd_nil in Y. exists y. split; [auto|constructor].
    + intros a b (x & X & R) E. exists x. split; [auto|]. eapply reach_snoc; eauto.
    + intros a b (x & X & R) E. exists x. split; [auto|]. eapply reach_snoc; eauto.
Qed.
Print Assumptions C36_cousins_partial.

(** 1 uses the edited 2, which 3 uses too. *)
Definition cousin : store :=
  mkStore [(2, [1; 3])] [(1, [2]); (3, [2]); (2, [])] [1; 2; 3] [] [] [2] [] [] []
    [(1, true); (2, true); (3, true)] [(2, 0); (1, 1); (3, 2)] true true false.
Example cousin_run : raw_closure cousin 10 [1] true false = Ok [1; 2; 3].
Proof. reflexivity. Qed.

(** Not if a start cell is given twice, as index.ts:899-904 may: the length of the list is then
    taken for that of the set. *)
Theorem C36_cousins_refuted : exists S start C x y,
  s_pull S = true /\ s_cousins S = true /\
  raw_closure S 10 start true false = Ok C /\ In x C /\ child S x y /\ ~ In y C.
Proof.
  exists cousin, [1; 1], [1; 2], 2, 3.
  split; [reflexivity|]. split; [reflexivity|]. split; [reflexivity|]. split; [simpl; auto|].
  split; [exists [1; 3]; simpl; auto|simpl; intuition discriminate].
Qed.
Print Assumptions C36_cousins_refuted.

(** *** The list of cells *)

(** The cells of the closure that are in the notebook, once each and in its order. *)
Theorem C36_order S fuel start inclusive parents C l :
  raw_closure S fuel start inclusive parents = Ok C -> NoDup C ->
  closure_cells S fuel start inclusive parents = Ok l ->
  NoDup l /\ (forall y, In y l <-> In y C /\ known S y) /\
  (s_any_order S = false -> forall a b i j, In a l -> In b l ->
     dget (s_order S) a = Some i -> dget (s_order S) b = Some j -> i < j -> precedes l a b).
Proof.
  intros R N H. unfold closure_cells in H. rewrite R in H. cbn [rbind] in H.
  destruct (ids_to_cells_spec _ _ _ _ H) as (A & B). split; [auto|]. split; [auto|].
  intros AO a b i j Ia Ib Ka Kb L. unfold ids_to_cells in H. rewrite AO in H. cbn [rmap] in H.
  injection H as <-. eapply sorted_precedes; eauto. apply sorted_sort.
  intros y Y. rewrite filter_In in Y. destruct Y as [_ Y]. unfold dhas in Y.
  destruct (dget (s_order S) y); [eauto|discriminate].
Qed.
Print Assumptions C36_order.

Example order_notebook : closure_cells pulling 10 [1] true false = Ok [1; 2; 5; 4; 3] /\
  dget (s_order pulling) 5 = Some 3 /\ dget (s_order pulling) 4 = Some 4.
Proof. repeat split. Qed.

(** *** Highlighting *)

(** The slice shown for a selection: what would be run, and all that this depends on. *)
Theorem C36_highlight S fuel selected C sl :
  raw_closure S fuel selected true false = Ok C -> NoDup C ->
  shown_slice S fuel selected = Ok sl ->
  NoDup sl /\ forall y, In y sl <-> exists x, In x C /\ reach (parent S) x y.
Proof.
  intros R N H. unfold shown_slice in H. rewrite R in H. cbn [rbind] in H.
  destruct (shown_loop _ _ _ _ _ H) as (A & B & D & E).
  - apply incl_refl.
  - auto.
  - intros; contradiction.
  - split; [auto|]. intros y. split.
    + intros Y. destruct (E y Y) as [I|K]; [|auto]. exists y. split; [auto|constructor].
    + intros (x & X & Rx). apply B in X. clear -X Rx D. induction Rx; eauto.
Qed.
Print Assumptions C36_highlight.

Example highlight_ring : shown_slice ring 10 [3] = Ok [3; 2; 1; 4].
Proof. reflexivity. Qed.

(** ** C37: dependency order *)

(** Every code cell of the notebook gets a place, after all those that it uses directly or
    through others, if none uses itself that way. *)
Theorem C37_order S fuel o :
  (forall x, ~ reach1 (code_child S) x x) -> topo_order S fuel = Ok o ->
  NoDup o /\ (forall x, In x o <-> dget (s_cells S) x = Some true) /\
  forall a b, reach1 (code_child S) a b -> precedes o a b.
Proof.
  intros AC H. destruct (topo_spec _ _ _ AC H) as (N & I & A).
  split; [auto|]. split; [auto|]. now apply topo_precedes.
Qed.
Print Assumptions C37_order.

(** So the cells that are run come in that order. *)
Theorem C37_run_order_partial S fuel start inclusive parents l :
  s_any_order S = true -> (forall x, ~ reach1 (code_child S) x x) ->
  closure_cells S fuel start inclusive parents = Ok l ->
  (forall x, In x l -> dget (s_cells S) x = Some true) ->
  forall a b, In a l -> In b l -> reach1 (code_child S) a b -> precedes l a b.
Proof.
  intros AO AC H CODE a b A B R. unfold closure_cells in H. apply rbind_Ok in H. destruct H as (C & _ & H).
  pose proof (ids_to_cells_spec _ _ _ _ H) as (_ & I).
  unfold ids_to_cells in H. rewrite AO in H. apply rmap_Ok in H. destruct H as (key & Hk & <-).
  apply rmap_Ok in Hk. destruct Hk as (o & Ho & <-).
  destruct (C37_order _ _ _ AC Ho) as (N & Io & P).
  destruct (index_of_lt o a b N (P a b R)) as (i & j & Ka & Kb & L).
  apply (sorted_precedes (fun x => index_of x o) _ a b i j); auto. apply sorted_sort.
  intros y Y. apply index_of_In. apply Io. apply CODE. now rewrite In_sort.
Qed.
Print Assumptions C37_run_order_partial.

(** It is always found, whether or not there are cycles. *)
Theorem C37_terminates S fuel ids :
  length (s_cells S) < fuel -> exists l, ids_to_cells S fuel ids = Ok l.
Proof. apply ids_to_cells_total. Qed.
Print Assumptions C37_terminates.

(** 3 -> 1 -> 2, written in the opposite order. *)
Definition upside : store :=
  mkStore [(3, [1; 2]); (1, [2])] [(1, [3]); (2, [1; 3]); (3, [])] [1; 2; 3] [] [] [] [] [] []
    [(1, true); (2, true); (3, true)] [(1, 0); (2, 1); (3, 2)] false false true.

Example upside_run : closure_cells upside 10 [3] true false = Ok [3; 1; 2] /\
  (forall x, ~ reach1 (code_child upside) x x) /\ reach1 (code_child upside) 3 2.
Proof.
  split; [reflexivity|]. split.
  - assert (K : forall a b, code_child upside a b -> (a = 3 /\ b <> 3) \/ (a = 1 /\ b = 2)).
    { intros a b ((l & D & I) & _). apply dget_In in D. simpl in D.
      destruct D as [[= <- <-]|[[= <- <-]|[]]]; simpl in I; intuition (subst; try discriminate; auto). }
    assert (K2 : forall a b, reach (code_child upside) a b -> a <> 3 -> b <> 3 /\ (a = 2 -> b = 2)).
    { intros a b R. induction R as [|a b c R1 R IH]; intros N; [auto|].
      destruct (K _ _ R1) as [[-> _]|[-> ->]]; [congruence|]. destruct IH as [A B]; [discriminate|].
      split; [auto|discriminate]. }
    intros x R. inversion R as [? y ? R1 R2]; subst. destruct (K _ _ R1) as [[-> N]|[-> ->]].
    + apply K2 in R2; auto. tauto.
    + apply K2 in R2; [|discriminate]. destruct R2 as [_ R2]. discriminate (R2 eq_refl).
  - exists 1; [|apply reach_one]; (split; [eexists; split; [reflexivity|simpl; auto]|split; reflexivity]).
Qed.

(** Through a cell that is no longer in the notebook, the order is lost. *)
Theorem C37_run_order_refuted : exists S l a b,
  s_any_order S = true /\ (forall x, ~ reach1 (child S) x x) /\
  closure_cells S 10 [a] true false = Ok l /\
  (forall x, In x l -> dget (s_cells S) x = Some true) /\
  reach1 (child S) a b /\ precedes l b a.
Proof.
  exists (mkStore [(1, [2]); (2, [3])] [(2, [1]); (3, [2])] [1; 2; 3] [] [] [] [] [] []
    [(1, true); (3, true)] [(1, 0); (3, 1)] false false true), [3; 1], 1, 3.
  match goal with |- context [child ?S0] => set (S := S0) end.
  split; [reflexivity|]. split; [|split; [reflexivity|split; [|split]]].
  - assert (K : forall a b, child S a b -> a < b).
    { intros a b (l & D & I). apply dget_In in D. simpl in D.
      destruct D as [[= <- <-]|[[= <- <-]|[]]]; simpl in I; intuition (subst; lia). }
    assert (K2 : forall a b, reach (child S) a b -> a <= b).
    { intros a b R. induction R as [|a b c R1 R IH]; [lia|]. apply K in R1. lia. }
    intros x R. inversion R as [? y ? R1 R2]; subst. apply K in R1. apply K2 in R2. lia.
  - intros x [<-|[<-|[]]]; reflexivity.
  - exists 2; [|apply reach_one]; (eexists; split; [reflexivity|simpl; auto]).
  - exists [], [], []. reflexivity.
Qed.
Print Assumptions C37_run_order_refuted.
