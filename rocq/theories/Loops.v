(** Reasoning rules for loops and exceptions. Nothing in this file models a particular
    function of the repository. *)
Require Import List ZArith Bool Arith Lia.
Import ListNotations.
Require Import Verif.Base.

Lemma rbind_Ok {A B} (x : res A) (f : A -> res B) b :
  rbind x f = Ok b <-> exists a, x = Ok a /\ f a = Ok b.
Proof.
  destruct x; simpl; split.
  - eauto.
  - intros (a' & [= <-] & H). auto.
  - discriminate.
  - intros (a' & H & _). discriminate.
Qed.

Lemma rmap_Ok {A B} (x : res A) (f : A -> B) b :
  rmap f x = Ok b <-> exists a, x = Ok a /\ f a = b.
Proof.
  destruct x; simpl; split.
  - intros [= <-]. eauto.
  - intros (a' & [= <-] & <-). auto.
  - discriminate.
  - intros (a' & H & _). discriminate.
Qed.

Lemma rbind_Err {A B} (x : res A) (f : A -> res B) e :
  rbind x f = Err e <-> x = Err e \/ exists a, x = Ok a /\ f a = Err e.
Proof.
  destruct x as [a|e0]; simpl; split.
  - intros H. right. eauto.
  - intros [H|(a' & H & H')]; [discriminate|]. congruence.
  - intros H. left. congruence.
  - intros [H|(a' & H & _)]; [congruence|discriminate].
Qed.

Lemma rmap_Err {A B} (x : res A) (f : A -> B) e : rmap f x = Err e <-> x = Err e.
Proof. destruct x; simpl; split; congruence. Qed.

Lemma of_option_Ok {A} e (x : option A) a : of_option e x = Ok a <-> x = Some a.
Proof. destruct x; simpl; split; congruence. Qed.

Lemma of_option_Err {A} e (x : option A) e' : of_option e x = Err e' <-> x = None /\ e' = e.
Proof. destruct x; simpl; split; try discriminate; try (intros [? ?]; congruence); intros [= <-]; auto. Qed.

(** Loop rules: an invariant that may mention the part already processed. *)
Lemma rfold_prefix {A S} (f : S -> A -> res S) (P : list A -> S -> Prop) l s s' :
  P [] s ->
  (forall done a t t', incl (done ++ [a]) l -> P done t -> f t a = Ok t' -> P (done ++ [a]) t') ->
  rfold f l s = Ok s' -> P l s'.
Proof.
  intros H0 Hs.
  assert (G : forall rest done t, done ++ rest = l -> P done t ->
                rfold f rest t = Ok s' -> P l s').
  { induction rest as [|a rest IH]; intros done t E Hp; simpl.
    - intros [= <-]. rewrite app_nil_r in E. congruence.
    - rewrite rbind_Ok. intros (t1 & E1 & E2).
      apply (IH (done ++ [a]) t1).
      + now rewrite <- app_assoc.
      + apply (Hs done a t t1); auto. intros y Hy. rewrite <- E.
        rewrite in_app_iff in *. simpl in *. tauto.
      + exact E2. }
  intros E. apply (G l [] s); auto.
Qed.

Lemma rfold_inv {A S} (f : S -> A -> res S) (P : S -> Prop) l s s' :
  P s -> (forall a t t', In a l -> P t -> f t a = Ok t' -> P t') ->
  rfold f l s = Ok s' -> P s'.
Proof.
  intros H0 Hs. apply (rfold_prefix f (fun _ => P) l s s'); auto.
  intros done a t t' I. apply Hs. apply I. rewrite in_app_iff. simpl; auto.
Qed.

Lemma fold_left_prefix {A S} (f : S -> A -> S) (P : list A -> S -> Prop) l s :
  P [] s ->
  (forall done a t, incl (done ++ [a]) l -> P done t -> P (done ++ [a]) (f t a)) ->
  P l (fold_left f l s).
Proof.
  intros H0 Hs.
  assert (G : forall rest done t, done ++ rest = l -> P done t -> P l (fold_left f rest t)).
  { induction rest as [|a rest IH]; intros done t E Hp; simpl.
    - rewrite app_nil_r in E. congruence.
    - apply (IH (done ++ [a])).
      + now rewrite <- app_assoc.
      + apply Hs; auto. intros y Hy. rewrite <- E.
        rewrite in_app_iff in *. simpl in *. tauto. }
  apply (G l [] s); auto.
Qed.

Lemma fold_left_inv {A S} (f : S -> A -> S) (P : S -> Prop) l s :
  P s -> (forall a t, In a l -> P t -> P (f t a)) -> P (fold_left f l s).
Proof.
  intros H0 Hs. apply (fold_left_prefix f (fun _ => P)); auto.
  intros done a t I. apply Hs. apply I. rewrite in_app_iff. simpl; auto.
Qed.

(** A loop raises only if one of its iterations does. *)
Lemma rfold_Err {A S} (f : S -> A -> res S) l : forall s e,
  rfold f l s = Err e -> exists a t, In a l /\ f t a = Err e.
Proof.
  induction l as [|a l IH]; simpl; intros s e; [discriminate|].
  rewrite rbind_Err. intros [H|(t & H1 & H2)].
  - exists a, s. auto.
  - destruct (IH _ _ H2) as (a' & t' & ? & ?). exists a', t'. auto.
Qed.

Lemma rfold_total {A S} (f : S -> A -> res S) l : forall s,
  (forall a t, In a l -> exists t', f t a = Ok t') -> exists s', rfold f l s = Ok s'.
Proof.
  induction l as [|a l IH]; simpl; intros s H; eauto.
  destruct (H a s) as [t Ht]; auto. rewrite Ht. simpl. apply IH. auto.
Qed.

(** A finite set has a minimal element for every irreflexive, transitive relation: it is
    impossible that every element has a smaller one. *)
Lemma finite_descent {A} (R : A -> A -> Prop) (l : list A) :
  (forall a b c, R a b -> R b c -> R a c) -> (forall a, ~ R a a) ->
  l <> [] -> (forall a, In a l -> exists b, In b l /\ R a b) -> False.
Proof.
  intros T I N H.
  (* chains of every length inside l *)
  assert (C : forall n, exists c, length c = n /\ incl c l /\ NoDup c /\
                (forall x, In x c -> forall y, hd_error c = Some y -> x = y \/ R x y)).
  { induction n as [|n (c & L & Ic & Nc & Hc)].
    - exists []. split; auto. split; [intros ? []|]. split; [constructor|]. intros ? [].
    - destruct c as [|y c].
      + destruct l as [|a l']; [congruence|]. exists [a].
        split; [simpl in *; congruence|]. split; [intros ? [<-|[]]; left; auto|].
        split; [constructor; [intros []|constructor]|].
        intros x [<-|[]] y [= <-]. auto.
      + destruct (H y) as (b & Hb & Rb); [apply Ic; left; auto|].
        assert (Q : forall x, In x (y :: c) -> R x b).
        { intros x Hx. destruct (Hc x Hx y eq_refl) as [->|]; eauto. }
        exists (b :: y :: c). split; [simpl in *; congruence|].
        split; [intros z [<-|Hz]; auto|]. split.
        * constructor; auto. intros Hz. apply (I b), Q, Hz.
        * intros x [<-|Hx] z [= <-]; auto. }
  destruct (C (S (length l))) as (c & L & Ic & Nc & _).
  pose proof (NoDup_incl_length Nc Ic). lia.
Qed.

(** Every iteration of a loop that finished succeeded. *)
Lemma rfold_each {A S} (f : S -> A -> res S) l : forall s s', rfold f l s = Ok s' ->
  forall a, In a l -> exists t t', f t a = Ok t'.
Proof.
  induction l as [|b l IH]; simpl; intros s s' E a H; [destruct H|].
  apply rbind_Ok in E. destruct E as (t & E1 & E2). destruct H as [<-|H]; eauto.
Qed.
