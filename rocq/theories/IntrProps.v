(** C40: handlers cannot swallow repeated interrupts. *)
Require Import List Arith Bool Lia.
Import ListNotations.
Require Import Verif.Base Verif.IntrModel Verif.IntrSpec Verif.IntrProofs.

(** C40: the substituted types never include KeyboardInterrupt, SystemExit or BaseException; there is one at
    least; and all of them are exception types, so that the clause is legal. *)
Theorem C40_types : forall bases E exc node ts num set num',
  python bases E -> handle E exc node ts num = (Some set, num') ->
  set <> [] /\ ~ In KeyInt set /\ ~ In SysExit set /\ ~ In BaseExc set /\ forall t, In t set -> is_exc E t = true.
Proof.
  intros bases E exc node ts num set num' P H. pose proof (not_key _ _ _ _ _ _ _ _ P H) as K.
  destruct (handle_Some _ _ _ _ _ _ _ H) as (_ & _ & _ & N & _).
  repeat split; auto; try (intros I; apply K in I; tauto). intros t I. apply K; auto.
Qed.
Print Assumptions C40_types.
(** The interrupt that is being handled is not caught by them. *)
Theorem C40_not_caught : forall bases E exc node ts num set num',
  python bases E -> handle E exc node ts num = (Some set, num') -> exc = KeyInt /\ ~ catches bases set KeyInt.
Proof.
  intros. split; [|eapply not_caught; eauto]. apply handle_Some in H0. tauto.
Qed.
Print Assumptions C40_not_caught.
(** Apart from these types they catch exactly what the user wrote. *)
Theorem C40_rest : forall bases E exc node ts num set num' x,
  python bases E -> handle E exc node ts num = (Some set, num') ->
  x <> BaseExc -> ~ sub bases x KeyInt -> ~ sub bases x SysExit -> ~ sub bases x Placeholder ->
  (catches bases set x <-> catches bases (types_of ts) x).
Proof.
  intros bases E exc node ts num set num' x P H N1 N2 N3 N4.
  destruct (handle_Some _ _ _ _ _ _ _ H) as (-> & V & _ & _ & M). split.
  - intros (t & I & S1). apply M in I. destruct I as [(A & B & [[C _]|[C D]])|[-> _]].
    + exists t. auto.
    + exists BaseExc. split; auto. eapply sub_trans; eauto. apply P in D. eapply sub_step; eauto. constructor.
    + contradiction.
  - intros (t & I & S1). destruct (Nat.eq_dec t BaseExc) as [->|NB].
    + destruct (sub_base _ _ S1) as [|(y & Y1 & Y2)]; [congruence|]. exists y. split; auto. apply M. left.
      split; [intros ->; contradiction|]. split; [intros ->; contradiction|]. right. split; auto. apply P; auto.
    + exists t. split; auto. apply M. left. split; [intros ->; contradiction|]. split; [intros ->; contradiction|]. auto.
Qed.
Print Assumptions C40_rest.

(** Otherwise nothing is substituted: for other exceptions, for what is no exception type, and for the first
    interrupt at a clause that names KeyboardInterrupt. *)
Theorem C40_unchanged : forall E exc node ts num,
  fst (handle E exc node ts num) = None <->
  exc <> KeyInt \/ valid E ts = false \/ (In (Ty KeyInt) ts /\ (dget num node = None \/ dget num node = Some 0)).
Proof.
  intros E exc node ts num. split.
  - intros H. destruct (Nat.eq_dec exc KeyInt) as [->|]; auto. destruct (valid E ts) eqn:V; auto. right. right.
    destruct (handle E KeyInt node ts num) as [o num'] eqn:Q. simpl in H. subst o.
    destruct (handle_None _ _ _ _ _ Q V) as [A B]. split; auto. unfold count in B.
    destruct (dget num node); auto.
  - intros H. destruct (handle E exc node ts num) as [[set|] num'] eqn:Q; auto. exfalso.
    destruct (handle_Some _ _ _ _ _ _ _ Q) as (-> & V & T & _). destruct H as [H|[H|[H D]]]; try congruence.
    unfold threshold in T. apply In_types, memb_In in H. rewrite H in T. destruct D as [D|D]; rewrite D in T; simpl in T; lia.
Qed.
Print Assumptions C40_unchanged.

(** Whatever happens: a clause swallows at most one interrupt, and none if it never names KeyboardInterrupt. *)
Theorem C40_once : forall bases E node es n,
  python bases E -> swallowed bases E node es [] n ->
  n <= 1 /\ ((forall e, In e es -> e_node e = node -> ~ In (Ty KeyInt) (e_types e)) -> n = 0).
Proof.
  intros bases E node es n P H. split.
  - generalize dependent (@nil (nat * nat)). intros num H. induction H; auto.
    destruct (swallows_first _ _ _ _ P H0) as (A & B & C). subst node.
    rewrite (swallowed_none _ _ _ _ _ _ P H1) by (left; lia). auto.
  - intros K. eapply swallowed_none; eauto.
Qed.
Print Assumptions C40_once.

(** Types as in Python: 4 is Exception, 5 GeneratorExit, 6 ValueError, 7 a kind of interrupt, 9 object. *)
Definition py_bases (t : nat) : list nat :=
  match t with 0 => [9] | 1 | 2 | 3 | 4 | 5 => [0] | 6 => [4] | 7 => [1] | _ => [] end.
Definition py : env := mkEnv (fun t => t <=? 7) [1; 2; 3; 4; 5].
Lemma py_python : python py_bases py.
Proof.
  assert (L : forall t u, sub py_bases t u -> u <= 7 -> t <= 7).
  { intros t u H. induction H; auto. intros K. apply IHsub in K. destruct t as [|[|[|[|[|[|[|[|t]]]]]]]]; simpl in *; try lia. }
  split; simpl; auto.
  - intros t. rewrite Nat.leb_le. split.
    + intros H. do 8 (destruct t as [|t]; [repeat (first [apply sub_refl | eapply sub_step; [simpl; left; reflexivity|]])|]). lia.
    + intros H. apply (L _ _ H). unfold BaseExc. lia.
  - intros t. do 8 (destruct t as [|t]; [simpl; intuition discriminate|]). simpl. intuition discriminate.
  - intros t H K. apply Nat.leb_le in K. inversion H; subst; auto. simpl in H0. destruct H0 as [<-|[]].
    inversion H1; subst; [lia|]. destruct H0.
  - simpl. intros [E|[]]. discriminate.
Qed.
Example C40_types_case : python py_bases py /\
  handle py KeyInt 8 [Ty BaseExc; Ty 6] [] = (Some [6; 3; 4; 5], [(8, 1)]) /\
  handle py KeyInt 8 [Ty KeyInt; Ty SysExit] [(8, 1)] = (Some [Placeholder], [(8, 2)]) /\
  handle py KeyInt 8 [Ty KeyInt; Ty SysExit] [] = (None, [(8, 1)]) /\
  handle py KeyInt 8 [Ty 6; Other] [] = (None, []).
Proof. split; [apply py_python|]. repeat split. Qed.
Example C40_rest_case : 6 <> BaseExc /\ ~ sub py_bases 6 KeyInt /\ ~ sub py_bases 6 SysExit /\ ~ sub py_bases 6 Placeholder /\
  catches py_bases [6; 3; 4; 5] 6.
Proof.
  split; [discriminate|]. repeat split; try (intros H; inversion H; subst; destruct H0 as [<-|[]]; inversion H1; subst;
    destruct H0 as [<-|[]]; inversion H2; subst; destruct H0 as [<-|[]]; inversion H3; subst; destruct H0).
  exists 6. split; [left; auto|constructor].
Qed.
Example C40_once_case : swallowed py_bases py 8
  [mkEvent 6 8 [Ty KeyInt]; mkEvent KeyInt 8 [Ty KeyInt; Ty 4]; mkEvent KeyInt 8 [Ty KeyInt; Ty 4]] [] 1.
Proof.
  apply sw_no; [right; intros (X & _); discriminate|].
  apply sw_yes; [reflexivity|split; [reflexivity|split; [reflexivity|exists KeyInt; split; [left; auto|constructor]]]|].
  apply sw_no; [right; intros (_ & _ & C)|constructor].
  refine (not_caught py_bases py [Ty KeyInt; Ty 4] [(8, 1)] KeyInt 8 [4] [(8, 2)] py_python eq_refl _). exact C.
Qed.
