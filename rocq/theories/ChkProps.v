(** C79: the verdict on a cell is that of the type checker on the program as it
    stands. *)

From Coq Require Import List Bool Arith Sorted Lia.
From Verif Require Import Base Loops ChkModel ChkSpec ChkProofs.
Import ListNotations.

(** C79, after a run or a discarded verdict: a check reports the verdict on the
    program as it stands. *)
Theorem C79_open : forall O ctr live lc S b S',
  open_verdict S ctr -> check O ctr live lc S = Ok (b, S') ->
  up_to_date O S' ctr live lc b.
Proof. intros. eapply check_open; eauto. Qed.
Print Assumptions C79_open.

(** C79, the first check after a run: whatever happened since, it reports the
    verdict on the program as it stands. *)
Theorem C79_run : forall O ctr id txt live lc S es S1 b S2,
  history O (ERun ctr id txt :: es) S = Ok S1 ->
  no_check ctr es ->
  check O ctr live lc S1 = Ok (b, S2) ->
  up_to_date O S2 ctr live lc b.
Proof.
  intros O ctr id txt live lc S es S1 b S2 H NC E. unfold history in H. cbn [rfold] in H.
  apply rbind_Ok in H. destruct H as (R & ER & H). cbn [step] in ER. inversion ER; subst R. clear ER.
  assert (U : forall b0, exists done', untouched O ctr [] b0 S1 done' S1).
  { intros b0. eapply (untouched_history O ctr [] b0 S1 es (fun _ => 0)); [|exact H|exact NC| |].
    - eexists. cbn [run_cell cells]. rewrite dget_dset, Nat.eqb_refl. split; [reflexivity|].
      split; [reflexivity|left; reflexivity].
    - intros x [].
    - intros x []. }
  eapply check_open; [exact E|].
  destruct (U true) as (d1 & c & Ec & Eo & [V|[V _]]); [exists c; auto|].
  destruct (U false) as (d2 & c' & Ec' & Eo' & [V'|[V' _]]); [exists c'; auto|congruence].
Qed.
Print Assumptions C79_run.

Example C79_run_ex : exists S1 S2,
  history (mkOutside (fun v => v) (fun v => v) (fun x => Some x) (fun _ cs => negb (existsb (Nat.eqb 3) cs)))
    [ERun 1 4 3; EEdit 4 2; ERun 2 9 2] (mkState [] [] [(7, mkSym 10 (Some 1) [])]) = Ok S1 /\
  no_check 1 [EEdit 4 2; ERun 2 9 2] /\
  check (mkOutside (fun v => v) (fun v => v) (fun x => Some x) (fun _ cs => negb (existsb (Nat.eqb 3) cs)))
    1 [7] [2] S1 = Ok (true, S2).
Proof.
  do 2 eexists. split; [vm_compute; reflexivity|]. split.
  - split; [intros l lc [H|[H|[]]]|intros id txt [H|[H|[]]]]; discriminate H.
  - vm_compute. reflexivity.
Qed.

(** C79, kept verdicts: if a check reported the verdict on the program as it stood,
    so does the next check of the cell, whatever happened in between, provided
    that the contents of the program's cells are the same, and that each symbol of
    the program was given at most one new object, of another class or with the
    same annotation.  Partial: the refutations below show that each proviso is
    needed.  The symbols are assumed to be top level ones whose cached class is
    that of their object. *)
Theorem C79_partial : forall O ctr live lc S0 b0 S1 es S2 b2 S3,
  check O ctr live lc S0 = Ok (b0, S1) ->
  up_to_date O S1 ctr live lc b0 ->
  (forall c, dget (cells S0) ctr = Some c -> override c = false) ->
  (forall x, In x live -> top O x = Some x) ->
  (forall x s, In x live -> dget (syms S1) x = Some s -> ckind s = Some (kind O (obj s))) ->
  history O es S1 = Ok S2 ->
  no_check ctr es ->
  same_cells S1 S2 (ctr :: lc) ->
  (forall x, In x live -> updates x es <= 1) ->
  (forall x s v r, In x live -> dget (syms S1) x = Some s -> In (EUpdate x v r) es ->
     kind O v <> kind O (obj s) \/ text O v = text O (obj s)) ->
  check O ctr live lc S2 = Ok (b2, S3) ->
  up_to_date O S3 ctr live lc b2.
Proof.
  intros O ctr live lc S0 b0 S1 es S2 b2 S3 E0 UP OV TOP SYNC H NC SC ONE VIS E2.
  destruct (check_effect _ _ _ _ _ _ _ E0) as (_ & _ & (c & c1 & Ec & Ec1 & AL & VD & _) & Y & L).
  assert (KN : forall x, In x live -> exists s1, dget (syms S1) x = Some s1 /\
                 In ctr (where_live s1)).
  { intros x Hx. specialize (L x Hx). specialize (Y x). destruct (dget (syms S0) x); [|congruence].
    destruct (dget (syms S1) x) as [s1|]; [|destruct Y]. exists s1. split; [reflexivity|].
    apply Y, Hx. }
  destruct (untouched_history O ctr live b0 S1 es (fun _ => 0) S1 S2) as (done & U).
  - exists c1. split; [exact Ec1|]. destruct AL as (_ & _ & AO).
    split; [rewrite <- AO; apply OV, Ec|]. right. split; [apply VD, OV, Ec|].
    intros x Hx. destruct (KN x Hx) as (s1 & Es & W). exists s1, s1. repeat split; auto.
  - exact H.
  - exact NC.
  - intros x Hx. cbn. apply ONE, Hx.
  - intros x Hx. destruct (KN x Hx) as (s1 & Es & W). exists s1. split; [exact Es|].
    split; [eapply SYNC; eauto|]. intros v r Hv. eapply VIS; eauto.
  - destruct U as (c2 & Ec2 & Eo2 & [V2|[V2 T2]]).
    + eapply check_open; [exact E2|]. exists c2. auto.
    + destruct (check_effect _ _ _ _ _ _ _ E2) as (V & _ & (c3 & c4 & Ec3 & _ & _ & _ & VB) & _).
      assert (c3 = c2) by congruence. subst c3. rewrite (VB b0 V2).
      eapply up_to_date_view; [exact V|]. destruct UP as (decls & cs & D & C & B).
      exists decls, cs. split; [|split; [|exact B]].
      * eapply declarations_same; [|exact D]. intros y x Hy T. rewrite (TOP y Hy) in T.
        inversion T; subst x. destruct (T2 y Hy) as (s1 & s & E1 & E3 & _ & TX).
        rewrite E1, E3. cbn. congruence.
      * eapply contents_same; eauto.
Qed.
Print Assumptions C79_partial.

(** ** A case that meets the hypotheses *)

(** Values are pairs of a class and an annotation within it, [10 * class + annotation];
    the checker complains of annotation 5 and of contents 3. *)
Definition O0 : outside :=
  mkOutside (fun v => v / 10) (fun v => v) (fun x => Some x)
    (fun decls cs => negb (existsb (fun d => snd d mod 10 =? 5) decls)
                     && negb (existsb (fun c => c =? 3) cs)).

(** Symbol 7 holds value 10 (class 1); cell 1 of id 4 uses it. *)
Definition S0 : state :=
  mkState [(1, mkCell 4 2 None false)] [(4, 1)] [(7, mkSym 10 (Some 1) [])].

Definition done_or (r : res (bool * state)) : state := match r with Ok (_, T) => T | Err _ => S0 end.
Definition S1 : state := done_or (check O0 1 [7] [] S0).

(** The object is replaced by one of another class, of which the checker complains. *)
Example C79_ex : exists S2 S3,
  check O0 1 [7] [] S0 = Ok (true, S1) /\
  history O0 [EUpdate 7 25 true; ERun 2 9 2] S1 = Ok S2 /\
  check O0 1 [7] [] S2 = Ok (false, S3) /\
  open_verdict S0 1 /\ same_cells S1 S2 [1] /\ no_check 1 [EUpdate 7 25 true; ERun 2 9 2] /\
  updates 7 [EUpdate 7 25 true; ERun 2 9 2] = 1.
Proof.
  do 2 eexists. refine (conj _ (conj _ (conj _ (conj _ (conj _ (conj _ _)))))).
  - vm_compute. reflexivity.
  - vm_compute. reflexivity.
  - vm_compute. reflexivity.
  - eexists. split; [reflexivity|split; reflexivity].
  - intros n [<-|[]]. split; [intros t|]; split; intros (c & E & T); vm_compute in E;
      inversion E; subst c; eexists; (split; [vm_compute; reflexivity|]); exact T.
  - split; [intros l lc [H|[H|[]]]|intros id txt [H|[H|[]]]]; discriminate H.
  - reflexivity.
Qed.

(** ** Where it fails *)

Lemma only_cell S txt cs : dget (cells S) 1 = Some txt -> contents S 1 [] cs -> cs = [content txt].
Proof.
  intros E (ctrs & ST & M & F).
  assert (X : ctrs = [1]).
  { assert (A : forall n, In n ctrs -> n = 1) by (intros n Hn; apply M in Hn; destruct Hn as [H|[[] _]]; exact H).
    destruct ctrs as [|a [|b r]].
    - exfalso. apply (proj2 (M 1)). left; reflexivity.
    - f_equal. apply A. left; reflexivity.
    - exfalso. inversion ST as [|? ? ? FA]; subst. inversion FA; subst.
      assert (a = 1) by (apply A; left; reflexivity).
      assert (b = 1) by (apply A; right; left; reflexivity). lia. }
  subst ctrs. inversion F as [|? t ? r (c & Ec & <-) F']; subst. inversion F'; subst. congruence.
Qed.

Lemma declared O S live decls x s : (forall y, top O y = Some y) -> In x live ->
  dget (syms S) x = Some s -> declarations O S live decls -> In (x, text O (obj s)) decls.
Proof. intros T Hx E [_ D]. apply D. exists x, s. auto. Qed.

(** The cell is edited: the verdict is kept. *)
Theorem C79_edit_refuted : exists O ctr live lc S0 S1 es S2 S3,
  open_verdict S0 ctr /\ check O ctr live lc S0 = Ok (true, S1) /\
  history O es S1 = Ok S2 /\ (forall x, updates x es = 0) /\
  check O ctr live lc S2 = Ok (true, S3) /\ ~ up_to_date O S3 ctr live lc true.
Proof.
  exists O0, 1, [7], [], S0, S1, [EEdit 4 3]. do 2 eexists.
  refine (conj _ (conj _ (conj _ (conj _ (conj _ _))))).
  - eexists. split; [reflexivity|split; reflexivity].
  - vm_compute. reflexivity.
  - vm_compute. reflexivity.
  - reflexivity.
  - vm_compute. reflexivity.
  - intros (decls & cs & _ & C & B).
    eapply only_cell in C; [|vm_compute; reflexivity]. subst cs. cbn in B.
    rewrite andb_false_r in B. discriminate B.
Qed.
Print Assumptions C79_edit_refuted.

(** The object is replaced by one of the same class, of which the checker complains
    (a list of strings for a list of integers). *)
Theorem C79_contents_refuted : exists O ctr live lc S0 S1 es S2 S3,
  open_verdict S0 ctr /\ check O ctr live lc S0 = Ok (true, S1) /\
  history O es S1 = Ok S2 /\ same_cells S1 S2 (ctr :: lc) /\
  (forall x, updates x es <= 1) /\
  check O ctr live lc S2 = Ok (true, S3) /\ ~ up_to_date O S3 ctr live lc true.
Proof.
  exists O0, 1, [7], [], S0, S1, [EUpdate 7 15 true]. do 2 eexists.
  refine (conj _ (conj _ (conj _ (conj _ (conj _ (conj _ _)))))).
  - eexists. split; [reflexivity|split; reflexivity].
  - vm_compute. reflexivity.
  - vm_compute. reflexivity.
  - intros n [<-|[]]. split; [intros t|]; split; intros (c & E & T); vm_compute in E;
      inversion E; subst c; eexists; (split; [vm_compute; reflexivity|]); exact T.
  - intros x. unfold updates. cbn [filter length].
    match goal with |- context [if ?b then _ else _] => destruct b end; cbn; lia.
  - vm_compute. reflexivity.
  - intros (decls & cs & D & _ & B).
    eapply (declared O0 _ [7] decls 7) in D; [|reflexivity|left; reflexivity|vm_compute; reflexivity].
    cbn [mypy O0] in B. symmetry in B. apply andb_true_iff in B. destruct B as [B _].
    apply negb_true_iff in B.
    assert (X : existsb (fun d : nat * nat => snd d mod 10 =? 5) decls = true).
    { apply existsb_exists. eexists. split; [exact D|reflexivity]. }
    congruence.
Qed.
Print Assumptions C79_contents_refuted.

(** The object is replaced twice between the checks, first by one of the same
    class: the cell is forgotten, and the second replacement, of another class,
    discards nothing. *)
Theorem C79_twice_refuted : exists O ctr live lc S0 S1 es S2 S3,
  open_verdict S0 ctr /\ check O ctr live lc S0 = Ok (true, S1) /\
  history O es S1 = Ok S2 /\ same_cells S1 S2 (ctr :: lc) /\
  (forall x s v r, dget (syms S1) x = Some s -> In (EUpdate x v r) es ->
     kind O v <> kind O (obj s) \/ text O v = text O (obj s)) /\
  check O ctr live lc S2 = Ok (true, S3) /\ ~ up_to_date O S3 ctr live lc true.
Proof.
  exists O0, 1, [7], [], S0, S1, [EUpdate 7 10 true; EUpdate 7 25 true]. do 2 eexists.
  refine (conj _ (conj _ (conj _ (conj _ (conj _ (conj _ _)))))).
  - eexists. split; [reflexivity|split; reflexivity].
  - vm_compute. reflexivity.
  - vm_compute. reflexivity.
  - intros n [<-|[]]. split; [intros t|]; split; intros (c & E & T); vm_compute in E;
      inversion E; subst c; eexists; (split; [vm_compute; reflexivity|]); exact T.
  - intros x s v r E [H|[H|[]]]; inversion H; subst; vm_compute in E; inversion E; subst s.
    + right. reflexivity.
    + left. vm_compute. discriminate.
  - vm_compute. reflexivity.
  - intros (decls & cs & D & _ & B).
    eapply (declared O0 _ [7] decls 7) in D; [|reflexivity|left; reflexivity|vm_compute; reflexivity].
    cbn [mypy O0] in B. symmetry in B. apply andb_true_iff in B. destruct B as [B _].
    apply negb_true_iff in B.
    assert (X : existsb (fun d : nat * nat => snd d mod 10 =? 5) decls = true).
    { apply existsb_exists. eexists. split; [exact D|reflexivity]. }
    congruence.
Qed.
Print Assumptions C79_twice_refuted.
