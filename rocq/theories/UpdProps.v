(** C23: what the update of a symbol marks as waiting. *)
Require Import List Bool Arith Lia.
Import ListNotations.
Require Import Verif.Base Verif.UpdModel Verif.UpdSpec Verif.UpdProofs.

(** In every theorem below: [u] is updated, [dup] are its duplicates (attribute and
    subscript forms of the same entry), [rhs] are the symbols on the right-hand side, [su]
    the symbols updated so far by this statement, and [m], [n] the earlier marks. *)

(** Propagation ends on every world, whatever its cycles. *)
Theorem C23_terminates : forall w u dup rhs mut desc su m n,
  closed w -> In u (w_syms w) -> incl dup (w_syms w) ->
  exists t upd, protocol w u dup rhs mut desc su m n = Ok (t, upd).
Proof.
  intros w u dup rhs mut desc su m n A B C.
  destruct (protocol_total w u dup rhs mut desc su m n A B C) as [[t upd] H]. eauto.
Qed.
Print Assumptions C23_terminates.

(** The symbols that count as updated are exactly: the directly updated ones, what they live
    in, and (if asked for) what lives in them, short of imports. They lose their marks. *)
Theorem C23_updated_exact : forall w u dup rhs mut desc su m n t upd,
  protocol w u dup rhs mut desc su m n = Ok (t, upd) ->
  (forall x, In x upd <->
     counts_as_updated (after_dup w u dup mut) desc (directly w u dup mut) x) /\
  (forall x, In x upd -> ~ In x (s_marked t)).
Proof.
  intros w u dup rhs mut desc su m n t upd H. apply protocol_outcome in H. split.
  - intros x. rewrite (oc_upd _ _ _ _ _ _ _ _ _ _ H).
    split; intros (d & A & B); exists d; (split; [now apply direct_directly|exact B]).
  - intros x I X. destruct (oc_marked _ _ _ _ _ _ _ _ _ _ H x X) as [[_ Y]|[Y _]]; auto.
    apply Y. unfold exempt. auto.
Qed.
Print Assumptions C23_updated_exact.

(** A newly marked symbol was not updated in this cell or statement, did not opt out, is not
    the updated symbol, and is not on the right-hand side; earlier marks stay, except on the
    updated symbols. *)
Theorem C23_never_marks : forall w u dup rhs mut desc su m n t upd,
  protocol w u dup rhs mut desc su m n = Ok (t, upd) ->
  (forall x, In x (s_marked t) -> ~ In x m ->
     ~ In x (w_updated w) /\ ~ In x su /\ ~ In x upd /\ w_quiet w x = false /\ x <> u /\
     ~ In x rhs) /\
  (forall x, In x m -> ~ In x upd -> In x (s_marked t)).
Proof.
  intros w u dup rhs mut desc su m n t upd H. apply protocol_outcome in H. split.
  - intros x X N. destruct (oc_marked _ _ _ _ _ _ _ _ _ _ H x X) as [[Y _]|(Y & _ & Z & _)].
    { contradiction. }
    unfold exempt in Y. simpl in Y. destruct (w_quiet w x) eqn:Q; [destruct Y; auto|].
    split; [tauto|]. split; [tauto|]. split; [tauto|]. split; [auto|]. tauto.
  - apply (oc_kept _ _ _ _ _ _ _ _ _ _ H).
Qed.
Print Assumptions C23_never_marks.

(** Only what the change can touch is marked, directly or for something that lives in it. *)
Theorem C23_only_affected : forall w u dup rhs mut desc su m n t upd,
  protocol w u dup rhs mut desc su m n = Ok (t, upd) ->
  (forall x, In x (s_marked t) -> ~ In x m -> affected (after_dup w u dup mut) u upd rhs x) /\
  (forall k x, In (k, x) (s_nsw t) -> ~ In (k, x) n ->
     affected (after_dup w u dup mut) u upd rhs x /\ w_cont w x = Some k).
Proof.
  intros w u dup rhs mut desc su m n t upd H. apply protocol_outcome in H. split.
  - intros x X N. destruct (oc_marked _ _ _ _ _ _ _ _ _ _ H x X) as [[Y _]|(_ & Y & _)]; auto.
    contradiction.
  - intros k x X N. destruct (oc_nsw _ _ _ _ _ _ _ _ _ _ H k x X) as [Y|(Y & _ & Z & _)].
    + contradiction.
    + auto.
Qed.
Print Assumptions C23_only_affected.

(** Every symbol that depends, directly or transitively, on an updated one is waiting
    afterwards unless it is exempt — provided the chain of dependencies does not pass through
    the right-hand side (see [C23_through_rhs_refuted]). *)
Theorem C23_all_dependents_partial : forall w u dup rhs mut desc su m n t upd,
  coherent (after_dup w u dup mut) ->
  protocol w u dup rhs mut desc su m n = Ok (t, upd) ->
  forall x, downstream (after_dup w u dup mut) u upd rhs x -> ~ In x rhs ->
    ~ exempt w u su upd x -> is_waiting w t x = true.
Proof.
  intros w u dup rhs mut desc su m n t upd C H x Dx Nr Ne. apply protocol_outcome in H.
  pose proof (outcome_downstream _ _ _ _ _ _ _ _ _ _ H x Dx) as I.
  change (is_waiting (after_dup w u dup mut) t x = true).
  destruct (oc_seen _ _ _ _ _ _ _ _ _ _ H x I) as [X|[X|[_ X]]].
  - destruct Ne. unfold exempt. auto.
  - contradiction.
  - eapply Wt_waiting; eauto.
Qed.
Print Assumptions C23_all_dependents_partial.

(** The objects in which a newly marked symbol lives are waiting too, and so is what lives in
    it, unless exempt or on the right-hand side. *)
Theorem C23_namespaces : forall w u dup rhs mut desc su m n t upd,
  coherent (after_dup w u dup mut) ->
  protocol w u dup rhs mut desc su m n = Ok (t, upd) ->
  forall x, In x (s_marked t) -> ~ In x m ->
    (forall y, obj_container (after_dup w u dup mut) x y -> w_quiet w y = false ->
       is_waiting w t y = true) /\
    (forall y, own_member (after_dup w u dup mut) x y -> ~ In y rhs ->
       ~ exempt w u su upd y -> is_waiting w t y = true).
Proof.
  intros w u dup rhs mut desc su m n t upd C H x X N. apply protocol_outcome in H.
  destruct (oc_marked _ _ _ _ _ _ _ _ _ _ H x X) as [[Y _]|(_ & _ & _ & M1 & M2)];
    [contradiction|].
  split.
  - intros y (k & Ck & Mk & Ik) Q. destruct (M1 k Ck Mk) as [P _].
    unfold is_waiting. rewrite Q. simpl.
    destruct C as [C1 C2]. pose proof (C2 _ _ Ck) as E. pose proof (C1 _ _ Ik) as F.
    simpl in E, F. rewrite F, E.
    apply orb_true_iff. right. apply existsb_exists. exists (k, x). split; auto.
    simpl. apply Nat.eqb_refl.
  - intros y (k & Ck & Ik) Nr Ne. pose proof (M2 k Ck y Ik) as I.
    change (is_waiting (after_dup w u dup mut) t y = true).
    destruct (oc_seen _ _ _ _ _ _ _ _ _ _ H y I) as [Y|[Y|[_ Y]]].
    + destruct Ne. unfold exempt. auto.
    + contradiction.
    + eapply Wt_waiting; eauto.
Qed.
Print Assumptions C23_namespaces.

(** Without attributes or elements the marks are exact. *)
Theorem C23_flat_exact : forall w u rhs mut desc su m n t upd,
  (forall x, w_cont w x = None) -> (forall o, w_ns w o = None) ->
  protocol w u [] rhs mut desc su m n = Ok (t, upd) ->
  (forall x, In x upd <-> directly w u [] mut x /\ w_import w x = false) /\
  forall x, In x (s_marked t) <->
    (In x m /\ ~ In x upd) \/
    (downstream w u upd rhs x /\ ~ In x rhs /\ ~ exempt w u su upd x).
Proof.
  intros w u rhs mut desc su m n t upd NC NN H. apply protocol_outcome in H.
  set (w' := after_dup w u [] mut) in *.
  split.
  - intros x. rewrite (oc_upd _ _ _ _ _ _ _ _ _ _ H). split.
    + intros (d & A & B & R). apply direct_directly in A. inversion R as [|a b c E]; subst; auto.
      destruct E as [_ [[_ (k & E & _)]|[_ (k & E & _)]]]; simpl in E; congruence.
    + intros [A B]. exists x. split; [now apply direct_directly|]. split; auto. constructor.
  - assert (AD : forall x, affected w' u upd rhs x -> downstream w u upd rhs x).
    { intros x A. induction A as [x y I E|x y A IH N E|x y A IH N (k & E & _)
        |x a y A IH N (k & E & _) _|x y A IH N (k & E & _)]; try (simpl in E; congruence).
      - eapply Do_first; eauto.
      - eapply Do_next; eauto. }
    intros x. split.
    + intros X. destruct (oc_marked _ _ _ _ _ _ _ _ _ _ H x X) as [Y|(A & B & C & _)]; auto.
    + intros [[A B]|(A & B & C)]; [now apply (oc_kept _ _ _ _ _ _ _ _ _ _ H)|].
      assert (I : In x (s_seen t)).
      { apply (outcome_downstream _ _ _ _ _ _ _ _ _ _ H). clear B C.
        induction A as [x y I E|x y A IH N E].
        - eapply Do_first; eauto.
        - eapply Do_next; eauto. }
      destruct (oc_seen _ _ _ _ _ _ _ _ _ _ H x I) as [X|[X|[_ [X|[X|X]]]]].
      * destruct C. unfold exempt. auto.
      * contradiction.
      * apply excused_exempt in X. contradiction.
      * auto.
      * destruct X as (k & y & _ & E & _). simpl in E. rewrite NC in E. discriminate.
Qed.
Print Assumptions C23_flat_exact.

(** ** What is false *)

(** A world without objects: symbols 0..9 and their dependents. *)
Definition flat (children : nat -> list nat) : world :=
  mkW (seq 0 10) children (fun x => x) (fun x => [x]) (fun _ => None) (fun _ => None)
      (fun n => n) (fun _ => false) (fun _ => []) (fun _ => []) (fun _ => None)
      (fun _ => false) (fun _ => false) (fun _ => false) [].

(** [r = x + 1], [y = r + 1], then [x = r]: [y] depends on [x] through [r] and is neither
    updated nor on the right-hand side, yet it is not marked. *)
Theorem C23_through_rhs_refuted : exists w u rhs t upd y,
  protocol w u [] rhs false false [] [] [] = Ok (t, upd) /\
  reach1 (dependent w u) u y /\ ~ In y rhs /\ ~ exempt w u [] upd y /\
  is_waiting w t y = false.
Proof.
  exists (flat (fun x => match x with 0 => [1] | 1 => [2] | _ => [] end)), 0, [1].
  do 2 eexists. exists 2. split; [vm_compute; reflexivity|].
  split; [|split; [|split]].
  - exists 1.
    + split; [simpl; auto|left; reflexivity].
    + apply reach_one. split; [simpl; auto|]. right. simpl. discriminate.
  - simpl. lia.
  - unfold exempt. simpl. intuition discriminate.
  - reflexivity.
Qed.
Print Assumptions C23_through_rhs_refuted.

(** An imported name that is rebound to another object: none of its dependents is marked. *)
Theorem C23_import_refuted : exists w u t upd y,
  protocol w u [] [] false false [] [] [] = Ok (t, upd) /\
  dependent w u u y /\ ~ exempt w u [] upd y /\ is_waiting w t y = false.
Proof.
  set (w := flat (fun x => match x with 0 => [1] | _ => [] end)).
  exists (mkW (w_syms w) (w_children w) (w_obj w) (w_aliases w) (w_cont w) (w_ns w) (w_ns_obj w)
     (w_ns_module w) (w_members w) (w_own_members w) (w_cloned w) (Nat.eqb 0) (w_module w)
     (w_quiet w) (w_updated w)), 0.
  do 2 eexists. exists 1. split; [vm_compute; reflexivity|].
  split; [|split].
  - split; [simpl; auto|left; reflexivity].
  - unfold exempt. simpl. intuition discriminate.
  - reflexivity.
Qed.
Print Assumptions C23_import_refuted.

(** A list [a] (symbol 1, elements 2 and 3) of which the list itself and element 2 depend on
    [x] (symbol 0). *)
Definition listy (first second : nat) : world :=
  mkW (seq 0 4) (fun x => match x with 0 => [first; second] | _ => [] end) (fun x => x)
      (fun x => if Nat.ltb x 4 then [x] else []) (fun x => match x with 2 | 3 => Some 0 | _ => None end)
      (fun o => if Nat.eqb o 1 then Some 0 else None)
      (fun _ => 1) (fun _ => false) (fun _ => [2; 3]) (fun _ => [2; 3]) (fun _ => None)
      (fun _ => false) (fun _ => false) (fun _ => false) [].

(** Which elements are marked depends on the order in which the dependents of [x] happen to
    be stored: with the list first, element 3 is marked, with the element first it is not. *)
Theorem C23_order_refuted : exists w w' u t t' upd y,
  (forall x, w_children w x = rev (w_children w' x)) /\
  closed w /\ coherent w /\ closed w' /\ coherent w' /\
  protocol w u [] [] false false [] [] [] = Ok (t, upd) /\
  protocol w' u [] [] false false [] [] [] = Ok (t', upd) /\
  is_waiting w t y = true /\ is_waiting w' t' y = false.
Proof.
  assert (CO : forall a b, coherent (listy a b)).
  { intros a b. split.
    - intros o y Y. cbn [listy w_aliases w_obj] in *.
      destruct (Nat.ltb o 4); [destruct Y as [<-|[]]; reflexivity|destruct Y].
    - intros x n E. simpl in *. destruct x as [|[|[|[|]]]]; try discriminate; now injection E as <-. }
  assert (CL : forall a b, In a (seq 0 4) -> In b (seq 0 4) -> closed (listy a b)).
  { intros a b Ha Hb. constructor.
    - intros x y Y. destruct x; simpl in Y; [|contradiction]. destruct Y as [<-|[<-|[]]]; auto.
    - intros o y Y. cbn [listy w_aliases w_syms] in *. destruct (Nat.ltb_spec o 4); [|destruct Y].
      destruct Y as [<-|[]]. apply in_seq. lia.
    - intros o y Y. simpl in *. lia.
    - intros o y Y. simpl in *. lia. }
  exists (listy 1 2), (listy 2 1), 0. do 3 eexists. exists 3.
  split; [intros [|x]; reflexivity|].
  split; [apply CL; simpl; auto|]. split; [apply CO|].
  split; [apply CL; simpl; auto|]. split; [apply CO|].
  split; [vm_compute; reflexivity|]. split; [vm_compute; reflexivity|].
  split; reflexivity.
Qed.
Print Assumptions C23_order_refuted.

(** ** The hypotheses are met *)

(** [x] (0) is used by [a] (1, a list with elements 2 and 3), by [y] (4) and by itself through
    a cycle 4, 5; [z] (6) depends on an element; [q] (7) opted out and [v] (8) depends on it;
    9 is updated in the same cell. *)
Definition busy : world :=
  mkW (seq 0 10)
      (fun x => match x with 0 => [1; 4; 7; 9] | 2 => [6] | 4 => [5] | 5 => [4] | 7 => [8] | _ => [] end)
      (fun x => x) (fun x => if Nat.ltb x 10 then [x] else [])
      (fun x => match x with 2 | 3 => Some 0 | _ => None end)
      (fun o => if Nat.eqb o 1 then Some 0 else None)
      (fun _ => 1) (fun _ => false) (fun _ => [2; 3]) (fun _ => [2; 3]) (fun _ => None)
      (fun _ => false) (fun _ => false) (Nat.eqb 7) [9].

Example busy_closed : closed busy /\ coherent busy /\ coherent (after_dup busy 0 [] false).
Proof.
  split; [|split].
  - constructor.
    + intros x y Y. do 8 (destruct x as [|x]; [simpl in *; lia|]). destruct Y.
    + intros o y Y. cbn [busy w_aliases w_syms] in *. destruct (Nat.ltb_spec o 10); [|destruct Y].
      destruct Y as [<-|[]]. apply in_seq. lia.
    + intros o y Y. simpl in *. lia.
    + intros o y Y. simpl in *. lia.
  - split.
    + intros o y Y. cbn [busy w_aliases w_obj] in *. 
      destruct (Nat.ltb o 10); [destruct Y as [<-|[]]; reflexivity|destruct Y].
    + intros x n E. simpl in *. destruct x as [|[|[|[|]]]]; try discriminate; now injection E as <-.
  - split.
    + intros o y Y. cbn [after_dup andb busy w_aliases w_obj] in *. 
      destruct (Nat.ltb o 10); [destruct Y as [<-|[]]; reflexivity|destruct Y].
    + intros x n E. simpl in *. destruct x as [|[|[|[|]]]]; try discriminate; now injection E as <-.
Qed.

Example busy_run : exists t,
  protocol busy 0 [] [] false false [] [] [] = Ok (t, [0]) /\
  (forall x, In x (s_marked t) <-> In x [1; 2; 3; 4; 5; 6; 8]) /\
  downstream busy 0 [0] [] 8 /\ ~ exempt busy 0 [] [0] 8.
Proof.
  eexists. split; [vm_compute; reflexivity|]. split; [simpl; intros x; lia|]. split.
  - eapply (Do_next _ _ _ _ 7).
    + eapply (Do_first _ _ _ _ 0); [simpl; auto|]. split; [simpl; auto|]. left. reflexivity.
    + auto.
    + split; [simpl; auto|]. right. simpl. discriminate.
  - unfold exempt. simpl. intuition discriminate.
Qed.

(** The element 2 changes: the list counts as updated, and what depends on the list waits. *)
Example busy_element : exists t,
  protocol busy 2 [] [] false false [] [] [] = Ok (t, [2; 1]) /\ s_marked t = [6].
Proof. eexists. split; vm_compute; reflexivity. Qed.
