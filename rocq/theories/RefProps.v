(** C45: references as members of sets. *)
Require Import List Arith ZArith Bool Lia.
Import ListNotations.
Require Import Verif.Base Verif.RefModel Verif.RefSpec Verif.RefProofs.
Local Open Scope nat_scope.

(** What equality means: the same path, and no two places that differ. *)
Theorem C45_meaning : forall a b, ref_eqb a b = true <-> same_path a b /\ compatible (scope a) (scope b) /\ compatible (range a) (range b).
Proof. exact ref_same. Qed.
Print Assumptions C45_meaning.

Theorem C45_reflexive : forall a, ref_eqb a a = true.
Proof. exact ref_refl. Qed.
Print Assumptions C45_reflexive.

Theorem C45_symmetric : forall a b, ref_eqb a b = ref_eqb b a.
Proof.
  assert (H : forall a b, ref_eqb a b = true -> ref_eqb b a = true).
  { intros a b H. apply ref_same in H. destruct H as (P & S & R). apply ref_same. split; [apply path_sym; auto|]. split; apply compatible_sym; auto. }
  intros a b. destruct (ref_eqb a b) eqn:E.
  - symmetry. auto.
  - destruct (ref_eqb b a) eqn:F; auto. apply H in F. congruence.
Qed.
Print Assumptions C45_symmetric.

(** Equal references have equal hashes, for every hash function on values that fits Python's equality. *)
Theorem C45_hash : forall hv hb ht, fits hv -> forall a b, ref_eqb a b = true -> ref_hash hv hb ht a = ref_hash hv hb ht b.
Proof. intros hv hb ht F a b H. apply (hash_chain _ _ _ F). apply ref_same in H. tauto. Qed.
Print Assumptions C45_hash.
(** The same for live references. *)
Theorem C45_live_hash : forall hv hb ht, fits hv -> forall a b, live_eqb a b = true -> live_hash hv hb ht a = live_hash hv hb ht b.
Proof.
  intros hv hb ht F a b H. unfold live_eqb in H. rewrite !andb_true_iff in H. destruct H as (((R & T) & L) & _).
  unfold live_hash. rewrite (C45_hash hv hb ht F _ _ R). apply Nat.eqb_eq in T. apply Bool.eqb_prop in L. rewrite T, L. reflexivity.
Qed.
Print Assumptions C45_live_hash.

(** Transitivity, as long as the middle one is not vaguer than both others.
    Missing: C45_transitive_refuted. *)
Theorem C45_transitive_partial : forall a b c,
  (scope b <> None \/ scope a = None \/ scope c = None) -> (range b <> None \/ range a = None \/ range c = None) ->
  ref_eqb a b = true -> ref_eqb b c = true -> ref_eqb a c = true.
Proof.
  intros a b c S R H K. apply ref_same in H, K. destruct H as (P1 & S1 & R1). destruct K as (P2 & S2 & R2).
  apply ref_same. split; [eapply path_trans; eauto|]. split; eapply compatible_trans; eauto.
Qed.
Print Assumptions C45_transitive_partial.

(** Canonical references: equality is an equivalence, that of the paths; equal references have equal canonical ones; a
    reference equals its canonical one exactly if nothing in it is marked as reactive. *)
Theorem C45_canonical :
  (forall a b, ref_eqb (canonical a) (canonical b) = true <-> same_path (canonical a) (canonical b)) /\
  (forall a b c, ref_eqb (canonical a) (canonical b) = true -> ref_eqb (canonical b) (canonical c) = true -> ref_eqb (canonical a) (canonical c) = true) /\
  (forall a b, ref_eqb a b = true -> ref_eqb (canonical a) (canonical b) = true) /\
  (forall a, ref_eqb (canonical a) a = true <-> plain a).
Proof.
  assert (E : forall a b, ref_eqb (canonical a) (canonical b) = true <-> same_path (canonical a) (canonical b)).
  { intros a b. rewrite ref_same. split; [tauto|]. intros H. split; auto. split; apply compatible_none. }
  split; auto. split; [|split].
  - intros a b c H K. apply E in H, K. apply E. eapply path_trans; eauto.
  - intros a b H. apply E. apply ref_same in H. destruct H as (P & _). unfold same_path, canonical in *. cbn [chain]. induction P as [|x y l m A P IH]; simpl; constructor; auto.
    destruct A as (V & C & S & _ & _ & B). repeat split; assumption.
  - intros a. rewrite ref_same. unfold same_path, plain, canonical. cbn [chain scope range]. split.
    + intros (P & _). induction (chain a) as [|x l IH]; constructor; inversion P; subst; auto.
      match goal with H : same_atom _ _ |- _ => destruct H as (_ & _ & _ & R & C & _) end. cbn in R, C. auto.
    + intros F. split; [|split; apply compatible_none]. induction F as [|x l (R & C) F IH]; simpl; constructor; auto.
      split; [apply value_refl|]. cbn. rewrite R, C. auto.
Qed.
Print Assumptions C45_canonical.

(** Sets: asking for a reference without a place finds exactly the paths that were added, in whatever order, with or
    without places. *)
Theorem C45_contains : forall hv hb ht, fits hv -> forall l q, unlocated q ->
  contains hv hb ht (add_all hv hb ht [] l) q = true <-> exists r, In r l /\ same_path r q.
Proof.
  intros hv hb ht F l q (S & R).
  assert (H : hashed hv hb ht (add_all hv hb ht [] l)) by (apply hashed_all; intros ? ? []).
  rewrite (contains_in hv hb ht _ _ F H). split.
  - intros (r & I & E). apply members_all in I. destruct I as [[]|I]. exists r. split; auto. apply ref_same in E. tauto.
  - intros (r & I & P). destruct (members_represent hv hb ht l [] r F) as (r' & I' & E'); auto; [intros ? ? []|].
    exists r'. split; auto. apply ref_same. apply ref_same in E'. destruct E' as (P' & _). split; [eapply path_trans; eauto|].
    rewrite S, R. split; apply compatible_none2.
Qed.
Print Assumptions C45_contains.

(** Whatever was added is found, and what is found equals something that was added. *)
Theorem C45_added : forall hv hb ht, fits hv -> forall l,
  (forall r, In r l -> contains hv hb ht (add_all hv hb ht [] l) r = true) /\
  (forall q, contains hv hb ht (add_all hv hb ht [] l) q = true -> exists r, In r l /\ ref_eqb r q = true) /\
  (forall r, In r (members (add_all hv hb ht [] l)) -> In r l).
Proof.
  intros hv hb ht F l. assert (H : hashed hv hb ht (add_all hv hb ht [] l)) by (apply hashed_all; intros ? ? []). split; [|split].
  - intros r I. apply (contains_in hv hb ht _ _ F H). apply (members_represent hv hb ht l [] r F); auto. intros ? ? [].
  - intros q C. apply (contains_in hv hb ht _ _ F H) in C. destruct C as (r & I & E). apply members_all in I. destruct I as [[]|I]. eauto.
  - intros r I. apply members_all in I. destruct I as [[]|I]; auto.
Qed.
Print Assumptions C45_added.

(** If all have places, or all have none, sets behave as sets of values: something is found exactly if an equal one was
    added. Missing: sets of both kinds (C45_lookup_refuted, C45_order_refuted). *)
Theorem C45_lookup_partial : forall hv hb ht, fits hv -> forall l q,
  (Forall located l /\ located q) \/ (Forall unlocated l /\ unlocated q) ->
  (contains hv hb ht (add_all hv hb ht [] l) q = true <-> exists r, In r l /\ ref_eqb r q = true).
Proof.
  intros hv hb ht F l q L. destruct (C45_added hv hb ht F l) as (_ & A & M). split; auto.
  intros (r & I & E). assert (H : hashed hv hb ht (add_all hv hb ht [] l)) by (apply hashed_all; intros ? ? []).
  apply (contains_in hv hb ht _ _ F H). destruct (members_represent hv hb ht l [] r F) as (r' & I' & E'); auto; [intros ? ? []|].
  exists r'. split; auto. apply C45_transitive_partial with (b := r); auto.
  - destruct L as [(L & _)|(L & _)]; pose proof (proj1 (Forall_forall _ _) L); [left; apply (H0 r I)|right; left; apply (H0 r' (M _ I'))].
  - destruct L as [(L & _)|(L & _)]; pose proof (proj1 (Forall_forall _ _) L); [left; apply (H0 r I)|right; left; apply (H0 r' (M _ I'))].
Qed.
Print Assumptions C45_lookup_partial.

(** x with ranges 1 and 2, and without; d[1] and d[True]. *)
Definition at_ (n : nat) : atom := mkAtom (VOne (CStr n)) false false false false false.
Definition x1 := mkRef [at_ 7] (Some 0) (Some 1).
Definition x2 := mkRef [at_ 7] (Some 0) (Some 2).
Definition x0 := mkRef [at_ 7] None None.
Definition d1 := mkRef [at_ 8; mkAtom (VOne (CInt 1)) false true false false false] None None.
Definition d2 := mkRef [at_ 8; mkAtom (VOne (CBool true)) false true true false false] (Some 0) None.
Definition hv0 (v : value) : Z :=
  match v with VOne (CInt z) => z | VOne (CBool true) => 1%Z | VOne (CBool false) => 0%Z | VOne (CStr n) => Z.of_nat n | _ => 5%Z end.
Example C45_case : fits hv0 /\ ref_eqb x0 x1 = true /\ ref_eqb x1 x2 = false /\ ref_eqb d1 d2 = false /\ ref_eqb (canonical d1) (canonical d2) = true /\
  located x1 /\ located x2 /\ unlocated x0 /\ plain d1 /\ ~ plain d2.
Proof.
  split; [|repeat (split; [reflexivity|])].
  - intros [a|l] [b|m] H; simpl in H; try discriminate; [|reflexivity].
    apply scalar_same in H. destruct H; reflexivity.
  - split; [split; discriminate|]. split; [split; discriminate|]. split; [split; reflexivity|]. split; [repeat constructor|].
    intros H. inversion H as [|? ? ? K]; subst. inversion K as [|? ? (R & _)]; subst. discriminate.
Qed.
Example C45_transitive_case : ref_eqb x0 x1 = true /\ ref_eqb x1 (mkRef [at_ 7] (Some 0) None) = true /\ range x1 <> None /\ scope x1 <> None.
Proof. repeat split; discriminate. Qed.

(** What is false. *)
Theorem C45_transitive_refuted : forall p s r r', r <> r' ->
  let a := mkRef p s (Some r) in let b := mkRef p s None in let c := mkRef p s (Some r') in
  ref_eqb a b = true /\ ref_eqb b c = true /\ ref_eqb a c = false.
Proof.
  intros p s r r' N a b c. split; [|split].
  - apply ref_same. split; [apply (Forall2_refl _ _ atom_refl p)|]. split; [apply compatible_refl|apply compatible_none2].
  - apply ref_same. split; [apply (Forall2_refl _ _ atom_refl p)|]. split; [apply compatible_refl|apply compatible_none].
  - unfold ref_eqb, a, c. cbn [range clash]. apply Nat.eqb_neq in N. rewrite N. reflexivity.
Qed.
Print Assumptions C45_transitive_refuted.

(** x@2 equals x, x was added, x@2 is not found: x was not kept since x@1 was there. *)
Theorem C45_lookup_refuted : forall hv hb ht,
  let s := add_all hv hb ht [] [x1; x0] in ref_eqb x0 x2 = true /\ contains hv hb ht s x2 = false /\ contains hv hb ht s x0 = true.
Proof.
  intros hv hb ht s. split; [reflexivity|].
  assert (A : s = [(ref_hash hv hb ht x1, x1)]).
  { unfold s, add_all. cbn [fold_left]. unfold add at 2. cbn [contains existsb app]. unfold add, contains. cbn [existsb].
    change (ref_hash hv hb ht x0) with (ref_hash hv hb ht x1). rewrite Z.eqb_refl. reflexivity. }
  rewrite A. unfold contains. cbn [existsb]. change (ref_eqb x1 x2) with false. change (ref_eqb x1 x0) with true.
  change (ref_hash hv hb ht x0) with (ref_hash hv hb ht x1). rewrite andb_false_r. split; [reflexivity|rewrite Z.eqb_refl; reflexivity].
Qed.
Print Assumptions C45_lookup_refuted.

(** What a set holds in the end depends on the order of adding: one member or two. *)
Theorem C45_order_refuted : forall hv hb ht,
  members (add_all hv hb ht [] [x1; x0; x2]) = [x1; x2] /\ members (add_all hv hb ht [] [x0; x1; x2]) = [x0].
Proof.
  intros hv hb ht. assert (E : forall h : Z, (h =? h)%Z = true) by (intros; apply Z.eqb_refl). split.
  - unfold add_all. cbn [fold_left]. unfold add at 3. cbn [contains existsb app].
    assert (A : add hv hb ht [(ref_hash hv hb ht x1, x1)] x0 = [(ref_hash hv hb ht x1, x1)]).
    { unfold add, contains. cbn [existsb]. change (ref_hash hv hb ht x0) with (ref_hash hv hb ht x1). rewrite E. reflexivity. }
    rewrite A. unfold add, contains. cbn [existsb]. change (ref_eqb x1 x2) with false. rewrite andb_false_r. reflexivity.
  - unfold add_all. cbn [fold_left]. unfold add at 3. cbn [contains existsb app].
    assert (A : forall q, q = x1 \/ q = x2 -> add hv hb ht [(ref_hash hv hb ht x0, x0)] q = [(ref_hash hv hb ht x0, x0)]).
    { intros q Q. unfold add, contains. cbn [existsb]. destruct Q as [->| ->].
      - change (ref_hash hv hb ht x1) with (ref_hash hv hb ht x0). rewrite E. reflexivity.
      - change (ref_hash hv hb ht x2) with (ref_hash hv hb ht x0). rewrite E. reflexivity. }
    rewrite !A by auto. reflexivity.
Qed.
Print Assumptions C45_order_refuted.
