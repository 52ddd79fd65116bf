(** Proofs about references. *)
Require Import List Arith ZArith Bool Lia.
Import ListNotations.
Require Import Verif.Base Verif.RefModel Verif.RefSpec.
Local Open Scope nat_scope.

Lemma scalar_same : forall a b, scalar_eqb a b = true <-> same_scalar a b.
Proof.
  intros a b. split.
  - destruct a as [n|x|x|]; destruct b as [m|y|y|]; simpl; intros H; try discriminate; try constructor.
    + apply Nat.eqb_eq in H. subst. constructor.
    + apply Z.eqb_eq in H. subst. constructor.
    + apply Z.eqb_eq in H. destruct y; subst; constructor.
    + apply Z.eqb_eq in H. destruct x; subst; constructor.
    + apply Bool.eqb_prop in H. subst. constructor.
  - intros H. destruct H; try reflexivity. destruct c; simpl; auto; [apply Nat.eqb_refl|apply Z.eqb_refl|apply Bool.eqb_reflx].
Qed.
Lemma list_eqb_spec : forall A (eqb : A -> A -> bool) (R : A -> A -> Prop), (forall a b, eqb a b = true <-> R a b) ->
  forall l m, list_eqb eqb l m = true <-> Forall2 R l m.
Proof.
  intros A eqb R H l. induction l as [|a l IH]; intros [|b m]; simpl.
  - split; [constructor|auto].
  - split; [discriminate|intros F; inversion F].
  - split; [discriminate|intros F; inversion F].
  - rewrite andb_true_iff, H, IH. split; [intros (? & ?); constructor; auto|intros F; inversion F; auto].
Qed.
Lemma value_same : forall a b, value_eqb a b = true <-> same_value a b.
Proof.
  intros a b. split.
  - destruct a as [x|l]; destruct b as [y|m]; simpl; intros H; try discriminate; constructor.
    + apply scalar_same. auto.
    + apply (list_eqb_spec _ _ _ scalar_same). auto.
  - intros H. destruct H; simpl; [apply scalar_same; auto|apply (list_eqb_spec _ _ _ scalar_same); auto].
Qed.
Lemma atom_same : forall a b, atom_eqb a b = true <-> same_atom a b.
Proof.
  intros a b. unfold atom_eqb, same_atom. rewrite !andb_true_iff, !Bool.eqb_true_iff, value_same. tauto.
Qed.
Lemma chain_same : forall a b, list_eqb atom_eqb (chain a) (chain b) = true <-> same_path a b.
Proof. intros. apply (list_eqb_spec _ _ _ atom_same). Qed.

Lemma scalar_sym : forall a b, same_scalar a b -> same_scalar b a.
Proof. intros a b H. destruct H; constructor. Qed.
Lemma scalar_trans : forall a b c, same_scalar a b -> same_scalar b c -> same_scalar a c.
Proof. intros a b c H K. inversion H; subst; auto; inversion K; subst; auto; constructor. Qed.
Lemma Forall2_refl : forall A (R : A -> A -> Prop), (forall a, R a a) -> forall l, Forall2 R l l.
Proof. intros A R H l. induction l; constructor; auto. Qed.
Lemma Forall2_sym : forall A (R : A -> A -> Prop), (forall a b, R a b -> R b a) -> forall l m, Forall2 R l m -> Forall2 R m l.
Proof. intros A R H l m F. induction F; constructor; auto. Qed.
Lemma Forall2_trans : forall A (R : A -> A -> Prop), (forall a b c, R a b -> R b c -> R a c) -> forall l m n, Forall2 R l m -> Forall2 R m n -> Forall2 R l n.
Proof. intros A R H l m n F. revert n. induction F; intros n G; inversion G; subst; constructor; eauto. Qed.

Lemma value_refl : forall a, same_value a a.
Proof. intros [c|l]; constructor; [constructor|apply Forall2_refl; constructor]. Qed.
Lemma value_sym : forall a b, same_value a b -> same_value b a.
Proof. intros a b H. destruct H; constructor; [apply scalar_sym; auto|apply (Forall2_sym _ _ scalar_sym); auto]. Qed.
Lemma value_trans : forall a b c, same_value a b -> same_value b c -> same_value a c.
Proof.
  intros a b c H K. destruct H; inversion K; subst; constructor; [eapply scalar_trans; eauto|eapply (Forall2_trans _ _ scalar_trans); eauto].
Qed.
Lemma atom_refl : forall a, same_atom a a.
Proof. intros a. split; [apply value_refl|]. repeat split. Qed.
Lemma atom_sym : forall a b, same_atom a b -> same_atom b a.
Proof. intros a b (A & B). split; [apply value_sym; auto|]. intuition congruence. Qed.
Lemma atom_trans : forall a b c, same_atom a b -> same_atom b c -> same_atom a c.
Proof. intros a b c (A & B) (C & D). split; [eapply value_trans; eauto|]. intuition congruence. Qed.
Lemma path_refl : forall a, same_path a a.
Proof. intros. apply Forall2_refl, atom_refl. Qed.
Lemma path_sym : forall a b, same_path a b -> same_path b a.
Proof. intros. apply (Forall2_sym _ _ atom_sym). auto. Qed.
Lemma path_trans : forall a b c, same_path a b -> same_path b c -> same_path a c.
Proof. intros a b c. apply (Forall2_trans _ _ atom_trans). Qed.

Lemma clash_spec : forall a b, clash a b = false <-> compatible a b.
Proof.
  intros [x|] [y|]; unfold compatible; simpl; split; intros H; auto; try congruence.
  - intros p q P Q. injection P as ->. injection Q as ->. apply negb_false_iff, Nat.eqb_eq in H. auto.
  - rewrite (H x y eq_refl eq_refl), Nat.eqb_refl. reflexivity.
Qed.
Lemma ref_same : forall a b, ref_eqb a b = true <-> same_path a b /\ compatible (scope a) (scope b) /\ compatible (range a) (range b).
Proof.
  intros a b. unfold ref_eqb. rewrite <- !clash_spec, <- chain_same.
  destruct (clash (range a) (range b)); destruct (clash (scope a) (scope b)); split; intuition congruence.
Qed.
Lemma compatible_refl : forall a, compatible a a.
Proof. intros a x y -> Q. congruence. Qed.
Lemma compatible_sym : forall a b, compatible a b -> compatible b a.
Proof. intros a b H x y P Q. symmetry. auto. Qed.
Lemma compatible_trans : forall a b c, b <> None \/ a = None \/ c = None -> compatible a b -> compatible b c -> compatible a c.
Proof.
  intros a b c N H K x y P Q. destruct b as [z|].
  - rewrite (H x z P eq_refl). apply K; auto.
  - destruct N as [N|[N|N]]; congruence.
Qed.
Lemma compatible_none : forall a, compatible None a.
Proof. intros a x y P. discriminate. Qed.
Lemma compatible_none2 : forall a, compatible a None.
Proof. intros a x y P Q. discriminate. Qed.

Lemma hash_chain : forall hv hb ht, fits hv -> forall a b, same_path a b -> ref_hash hv hb ht a = ref_hash hv hb ht b.
Proof.
  intros hv hb ht F a b H. unfold ref_hash. f_equal. unfold same_path in H. induction H as [|x y l m A H IH]; [reflexivity|].
  simpl. f_equal; auto. unfold atom_hash. destruct A as (V & -> & -> & -> & -> & ->). rewrite (F (a_value x) (a_value y)); auto. apply value_same. auto.
Qed.

(** Sets. *)
Section sets.
Variables (hv : value -> Z) (hb : bool -> Z) (ht : list Z -> Z).
Notation contains := (contains hv hb ht).
Notation add := (add hv hb ht).
Notation add_all := (add_all hv hb ht).
Notation ref_hash := (ref_hash hv hb ht).

Definition hashed (s : rset) : Prop := forall h r, In (h, r) s -> h = ref_hash r.
Lemma hashed_add : forall s q, hashed s -> hashed (add s q).
Proof.
  intros s q H. unfold RefModel.add. destruct (contains s q); auto. intros h r I. apply in_app_iff in I. destruct I as [I|[I|[]]]; auto. congruence.
Qed.
Lemma hashed_all : forall l s, hashed s -> hashed (add_all s l).
Proof. induction l as [|q l IH]; intros s H; simpl; auto. apply IH, hashed_add, H. Qed.

Lemma contains_in : forall s q, fits hv -> hashed s -> (contains s q = true <-> exists r, In r (members s) /\ ref_eqb r q = true).
Proof.
  intros s q F H. unfold RefModel.contains. rewrite existsb_exists. split.
  - intros ((h & r) & I & E). apply andb_true_iff in E. exists r. split; [|tauto]. unfold members. change r with (snd (h, r)). apply in_map. auto.
  - intros (r & I & E). unfold members in I. apply in_map_iff in I. destruct I as ((h & r') & R & I). simpl in R. subst r'. exists (h, r). split; auto.
    rewrite E, andb_true_r. apply Z.eqb_eq. rewrite (H h r I). apply (hash_chain _ _ _ F). apply ref_same in E. tauto.
Qed.

Lemma members_add_sub : forall l s r, In r (members s) -> In r (members (add_all s l)).
Proof.
  induction l as [|q l IH]; intros s r I; simpl; auto. apply IH. unfold RefModel.add. destruct (contains s q); auto.
  unfold members. rewrite map_app, in_app_iff. auto.
Qed.
Lemma members_all : forall l s r, In r (members (add_all s l)) -> In r (members s) \/ In r l.
Proof.
  induction l as [|q l IH]; intros s r I; simpl in *; auto. apply IH in I. destruct I as [I|I]; auto.
  unfold RefModel.add in I. destruct (contains s q); auto. unfold members in I. rewrite map_app, in_app_iff in I. simpl in I. tauto.
Qed.
Lemma ref_refl : forall r, ref_eqb r r = true.
Proof. intros r. apply ref_same. split; [apply path_refl|]. split; apply compatible_refl. Qed.
(** Each ref that is added has an equal one in the set. *)
Lemma members_represent : forall l s r, fits hv -> hashed s -> In r l -> exists r', In r' (members (add_all s l)) /\ ref_eqb r' r = true.
Proof.
  induction l as [|q l IH]; intros s r F H I; simpl in *; [destruct I|]. destruct I as [->|I].
  - assert (X : exists r', In r' (members (add s r)) /\ ref_eqb r' r = true).
    { unfold RefModel.add. destruct (contains s r) eqn:C; [apply contains_in; auto|]. exists r. split; [|apply ref_refl].
      unfold members. rewrite map_app, in_app_iff. simpl. auto. }
    destruct X as (r' & X & E). exists r'. split; auto. apply members_add_sub. auto.
  - apply IH; auto. apply hashed_add; auto.
Qed.
End sets.
