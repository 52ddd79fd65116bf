(** Shared vocabulary: Python sets and dicts as lists, exceptions as values,
    reachability, and a generic depth-first search with its correctness proof.
    Nothing in this file models a particular function of the repository. *)
Require Import List ZArith Lia Bool Arith Permutation Sorted.
Import ListNotations.

(** * Exceptions as values *)

Inductive err :=
| KeyError | AttributeError | AssertionError | TypeError | ValueError
| IndexError | OutOfFuel.

Inductive res (A : Type) :=
| Ok (a : A)
| Err (e : err).
Arguments Ok {A} a.
Arguments Err {A} e.

Definition rbind {A B} (x : res A) (f : A -> res B) : res B :=
  match x with Ok a => f a | Err e => Err e end.

Definition rmap {A B} (f : A -> B) (x : res A) : res B :=
  match x with Ok a => Ok (f a) | Err e => Err e end.

Definition of_option {A} (e : err) (x : option A) : res A :=
  match x with Some a => Ok a | None => Err e end.

(** A Python [for] loop whose body may raise. *)
Fixpoint rfold {A S} (f : S -> A -> res S) (l : list A) (s : S) : res S :=
  match l with
  | [] => Ok s
  | a :: l' => rbind (f s a) (rfold f l')
  end.

(** * Python sets of numbers *)

Definition memb (x : nat) (l : list nat) : bool := existsb (Nat.eqb x) l.

Lemma memb_In x l : memb x l = true <-> In x l.
Proof.
  unfold memb. rewrite existsb_exists. split.
  - intros [y [Hy E]]. apply Nat.eqb_eq in E. now subst.
  - intros H. exists x. split; auto. apply Nat.eqb_refl.
Qed.

Lemma memb_nIn x l : memb x l = false <-> ~ In x l.
Proof.
  rewrite <- memb_In. destruct (memb x l); split; intro H; congruence.
Qed.

(** [s.add(x)] *)
Definition sadd (x : nat) (l : list nat) : list nat :=
  if memb x l then l else l ++ [x].

(** [a.update(b)] *)
Fixpoint supd (a b : list nat) : list nat :=
  match b with [] => a | x :: b' => supd (sadd x a) b' end.

(** [a - b] *)
Definition sdiff (a b : list nat) : list nat :=
  filter (fun x => negb (memb x b)) a.

(** [a & b] *)
Definition sinter (a b : list nat) : list nat :=
  filter (fun x => memb x b) a.

Definition is_nil {A} (l : list A) : bool :=
  match l with [] => true | _ => false end.

Lemma is_nil_true {A} (l : list A) : is_nil l = true <-> l = [].
Proof. destruct l; simpl; split; congruence. Qed.
Lemma is_nil_false {A} (l : list A) : is_nil l = false <-> l <> [].
Proof. destruct l; simpl; split; congruence. Qed.

Lemma In_sadd x y l : In y (sadd x l) <-> y = x \/ In y l.
Proof.
  unfold sadd. destruct (memb x l) eqn:E.
  - apply memb_In in E. split; [tauto|]. intros [->|]; auto.
  - rewrite in_app_iff. simpl. split; [intros [|[|[]]]; auto | intros [|]; auto].
Qed.

Lemma In_supd a b y : In y (supd a b) <-> In y a \/ In y b.
Proof.
  revert a. induction b as [|x b IH]; intros a; simpl.
  - tauto.
  - rewrite IH, In_sadd. intuition (subst; auto).
Qed.

Lemma In_sdiff a b y : In y (sdiff a b) <-> In y a /\ ~ In y b.
Proof.
  unfold sdiff. rewrite filter_In, negb_true_iff, memb_nIn. tauto.
Qed.

Lemma In_sinter a b y : In y (sinter a b) <-> In y a /\ In y b.
Proof.
  unfold sinter. rewrite filter_In, memb_In. tauto.
Qed.

Lemma NoDup_sadd x l : NoDup l -> NoDup (sadd x l).
Proof.
  intros H. unfold sadd. destruct (memb x l) eqn:E; auto.
  apply memb_nIn in E.
  apply NoDup_rev in H. rewrite <- (rev_involutive (l ++ [x])).
  apply NoDup_rev. rewrite rev_app_distr. simpl. constructor; auto.
  now rewrite <- in_rev.
Qed.

Lemma NoDup_supd a b : NoDup a -> NoDup (supd a b).
Proof.
  revert a. induction b; intros; simpl; auto. apply IHb, NoDup_sadd, H.
Qed.

Lemma NoDup_filter {A} (f : A -> bool) l : NoDup l -> NoDup (filter f l).
Proof.
  induction 1; simpl; [constructor|]. destruct (f x); auto. constructor; auto.
  rewrite filter_In. tauto.
Qed.

Lemma supd_nonempty a b : a <> [] \/ b <> [] -> supd a b <> [].
Proof.
  intros [H|H] E.
  - destruct a as [|x a]; [congruence|].
    assert (In x (supd (x :: a) b)) by (apply In_supd; left; left; auto).
    rewrite E in H0. inversion H0.
  - destruct b as [|x b]; [congruence|].
    assert (In x (supd a (x :: b))) by (apply In_supd; right; left; auto).
    rewrite E in H0. inversion H0.
Qed.

(** * Python dicts with number keys *)

Definition dict (V : Type) := list (nat * V).

Fixpoint dget {V} (d : dict V) (k : nat) : option V :=
  match d with
  | [] => None
  | (k', v) :: d' => if Nat.eqb k k' then Some v else dget d' k
  end.

(** [d[k] = v]: update in place, or append a new entry. *)
Fixpoint dset {V} (d : dict V) (k : nat) (v : V) : dict V :=
  match d with
  | [] => [(k, v)]
  | (k', v') :: d' =>
      if Nat.eqb k k' then (k', v) :: d' else (k', v') :: dset d' k v
  end.

(** [del d[k]] / [d.pop(k)] when present. *)
Fixpoint ddel {V} (d : dict V) (k : nat) : dict V :=
  match d with
  | [] => []
  | (k', v') :: d' => if Nat.eqb k k' then d' else (k', v') :: ddel d' k
  end.

Definition dkeys {V} (d : dict V) : list nat := map fst d.
Definition dvals {V} (d : dict V) : list V := map snd d.

Definition dhas {V} (d : dict V) (k : nat) : bool :=
  match dget d k with Some _ => true | None => false end.

(** Every Python dict has distinct keys. *)
Definition dwf {V} (d : dict V) : Prop := NoDup (dkeys d).

Lemma dget_In {V} (d : dict V) k v : dget d k = Some v -> In (k, v) d.
Proof.
  induction d as [|[k' v'] d IH]; simpl; [discriminate|].
  destruct (Nat.eqb_spec k k').
  - intros [= <-]; subst; auto.
  - auto.
Qed.

Lemma In_dget {V} (d : dict V) k v : dwf d -> In (k, v) d -> dget d k = Some v.
Proof.
  unfold dwf. induction d as [|[k' v'] d IH]; simpl; [tauto|].
  intros W [H|H].
  - inversion H; subst. now rewrite Nat.eqb_refl.
  - inversion W; subst. destruct (Nat.eqb_spec k k').
    + subst. exfalso. apply H2. change k' with (fst (k', v)). now apply in_map.
    + now apply IH.
Qed.

Lemma dget_None {V} (d : dict V) k : dget d k = None <-> ~ In k (dkeys d).
Proof.
  induction d as [|[k' v'] d IH]; simpl; [tauto|].
  destruct (Nat.eqb_spec k k'); split; intro H.
  - discriminate.
  - subst. exfalso. apply H. auto.
  - apply IH in H. intros [|]; auto.
  - apply IH. auto.
Qed.

Lemma dget_Some_key {V} (d : dict V) k v : dget d k = Some v -> In k (dkeys d).
Proof.
  intros H. apply dget_In in H. change k with (fst (k, v)). now apply in_map.
Qed.

Lemma key_dget {V} (d : dict V) k : In k (dkeys d) -> exists v, dget d k = Some v.
Proof.
  intros H. destruct (dget d k) eqn:E; eauto. apply dget_None in E. contradiction.
Qed.

Lemma dhas_key {V} (d : dict V) k : dhas d k = true <-> In k (dkeys d).
Proof.
  unfold dhas. destruct (dget d k) eqn:E.
  - split; auto. intros _. eapply dget_Some_key; eauto.
  - apply dget_None in E. split; [discriminate|contradiction].
Qed.

Lemma dhas_nkey {V} (d : dict V) k : dhas d k = false <-> ~ In k (dkeys d).
Proof.
  rewrite <- dhas_key. destruct (dhas d k); split; intro H; congruence.
Qed.

Lemma dget_dset {V} (d : dict V) k v k' :
  dget (dset d k v) k' = if Nat.eqb k' k then Some v else dget d k'.
Proof.
  induction d as [|[k0 v0] d IH]; simpl.
  - destruct (Nat.eqb k' k); auto.
  - destruct (Nat.eqb_spec k k0); subst; simpl.
    + destruct (Nat.eqb_spec k' k0); auto.
    + rewrite IH. destruct (Nat.eqb_spec k' k0); auto.
      subst. destruct (Nat.eqb_spec k0 k); auto. congruence.
Qed.

Lemma dget_dset_same {V} (d : dict V) k v : dget (dset d k v) k = Some v.
Proof. now rewrite dget_dset, Nat.eqb_refl. Qed.

Lemma dget_dset_other {V} (d : dict V) k v k' :
  k' <> k -> dget (dset d k v) k' = dget d k'.
Proof. intros. rewrite dget_dset. destruct (Nat.eqb_spec k' k); congruence. Qed.

Lemma dkeys_dset_In {V} (d : dict V) k v x :
  In x (dkeys (dset d k v)) <-> x = k \/ In x (dkeys d).
Proof.
  induction d as [|[k0 v0] d IH]; simpl.
  - intuition.
  - destruct (Nat.eqb_spec k k0); subst; simpl.
    + intuition.
    + rewrite IH. intuition.
Qed.

Lemma dwf_dset {V} (d : dict V) k v : dwf d -> dwf (dset d k v).
Proof.
  unfold dwf. induction d as [|[k0 v0] d IH]; simpl; intros H.
  - constructor; auto; constructor.
  - inversion H; subst. destruct (Nat.eqb_spec k k0); subst; simpl.
    + now constructor.
    + constructor; auto. rewrite dkeys_dset_In. intros [E|E]; congruence.
Qed.

Lemma dget_ddel {V} (d : dict V) k k' :
  dwf d -> dget (ddel d k) k' = if Nat.eqb k' k then None else dget d k'.
Proof.
  unfold dwf. induction d as [|[k0 v0] d IH]; simpl; intros W.
  - destruct (Nat.eqb k' k); auto.
  - inversion W; subst. destruct (Nat.eqb_spec k k0); subst; simpl.
    + destruct (Nat.eqb_spec k' k0); auto. subst. now apply dget_None.
    + rewrite IH; auto. destruct (Nat.eqb_spec k' k0); auto.
      subst. destruct (Nat.eqb_spec k0 k); congruence.
Qed.

Lemma dkeys_ddel_In {V} (d : dict V) k x :
  dwf d -> (In x (dkeys (ddel d k)) <-> x <> k /\ In x (dkeys d)).
Proof.
  intros W. rewrite <- (dhas_key (ddel d k)), <- (dhas_key d).
  unfold dhas. rewrite dget_ddel; auto.
  destruct (Nat.eqb_spec x k); subst; intuition; try discriminate.
Qed.

Lemma dwf_ddel {V} (d : dict V) k : dwf d -> dwf (ddel d k).
Proof.
  unfold dwf. induction d as [|[k0 v0] d IH]; simpl; intros H; auto.
  inversion H; subst. destruct (Nat.eqb_spec k k0); auto. simpl.
  constructor; auto.
  intro X. apply H2. clear - X H3. induction d as [|[k1 v1] d IH]; simpl in *; auto.
  inversion H3; subst. destruct (Nat.eqb_spec k k1); auto. simpl in X.
  destruct X; auto.
Qed.

Lemma dwf_nil {V} : dwf (@nil (nat * V)).
Proof. constructor. Qed.

Lemma dget_map {V W} (f : V -> W) (d : dict V) k :
  dget (map (fun kv => (fst kv, f (snd kv))) d) k = option_map f (dget d k).
Proof.
  induction d as [|[k0 v0] d IH]; simpl; auto.
  destruct (Nat.eqb k k0); auto.
Qed.

Lemma dkeys_map {V W} (f : V -> W) (d : dict V) :
  dkeys (map (fun kv => (fst kv, f (snd kv))) d) = dkeys d.
Proof. unfold dkeys. rewrite map_map. simpl. reflexivity. Qed.

(** * List updates by index *)

Fixpoint lset {A} (l : list A) (i : nat) (a : A) : list A :=
  match l, i with
  | [], _ => []
  | _ :: l', O => a :: l'
  | b :: l', S i' => b :: lset l' i' a
  end.

Lemma lset_length {A} (l : list A) i a : length (lset l i a) = length l.
Proof. revert i. induction l; destruct i; simpl; auto. Qed.

Lemma nth_error_lset {A} (l : list A) i a j :
  nth_error (lset l i a) j =
  if Nat.eqb j i then (if j <? length l then Some a else None) else nth_error l j.
Proof.
  revert i j. induction l as [|b l IH]; intros i j; simpl.
  - destruct (Nat.eqb j i); auto; now destruct j.
  - destruct i; simpl.
    + destruct j; simpl; auto.
    + destruct j; simpl; auto. rewrite IH. reflexivity.
Qed.

Lemma nth_error_ext' {A} (l : list A) : forall l',
  (forall i, nth_error l i = nth_error l' i) -> l = l'.
Proof.
  induction l as [|a l IH]; intros [|b l'] H; auto; try (specialize (H 0); discriminate).
  pose proof (H 0) as H0. injection H0 as ->. f_equal. apply IH. intros i. apply (H (S i)).
Qed.

Lemma nth_error_snoc {A} (l : list A) a j :
  nth_error (l ++ [a]) j =
  if Nat.eqb j (length l) then Some a else nth_error l j.
Proof.
  destruct (Nat.eqb_spec j (length l)).
  - subst. rewrite nth_error_app2; auto. now rewrite Nat.sub_diag.
  - destruct (lt_dec j (length l)).
    + now rewrite nth_error_app1.
    + rewrite nth_error_app2 by lia.
      assert (exists m, j - length l = S m) as [m ->] by (exists (j - length l - 1); lia).
      simpl. assert (nth_error l j = None) as -> by (apply nth_error_None; lia).
      now destruct m.
Qed.

(** * Reachability *)

Inductive reach {A} (R : A -> A -> Prop) : A -> A -> Prop :=
| reach_refl x : reach R x x
| reach_step x y z : R x y -> reach R y z -> reach R x z.

Lemma reach_trans {A} (R : A -> A -> Prop) x y z :
  reach R x y -> reach R y z -> reach R x z.
Proof. induction 1; auto. intros. econstructor; eauto. Qed.

Lemma reach_one {A} (R : A -> A -> Prop) x y : R x y -> reach R x y.
Proof. intros. econstructor; eauto. constructor. Qed.

Lemma reach_snoc {A} (R : A -> A -> Prop) x y z :
  reach R x y -> R y z -> reach R x z.
Proof. intros. eapply reach_trans; eauto. now apply reach_one. Qed.

Lemma reach_mono {A} (R R' : A -> A -> Prop) x y :
  (forall a b, R a b -> R' a b) -> reach R x y -> reach R' x y.
Proof. induction 2; [constructor|]. econstructor; eauto. Qed.

(** Reachability by at least one step. *)
Inductive reach1 {A} (R : A -> A -> Prop) : A -> A -> Prop :=
| reach1_intro x y z : R x y -> reach R y z -> reach1 R x z.

Lemma reach_inv {A} (R : A -> A -> Prop) x y :
  reach R x y -> x = y \/ reach1 R x y.
Proof. destruct 1; auto. right. econstructor; eauto. Qed.

Lemma reach1_reach {A} (R : A -> A -> Prop) x y : reach1 R x y -> reach R x y.
Proof. destruct 1. econstructor; eauto. Qed.

Lemma reach1_trans_r {A} (R : A -> A -> Prop) x y z :
  reach1 R x y -> reach R y z -> reach1 R x z.
Proof. destruct 1. intros. econstructor; eauto. eapply reach_trans; eauto. Qed.

Lemma reach_rev {A} (R : A -> A -> Prop) x y :
  reach R x y <-> reach (fun a b => R b a) y x.
Proof.
  split; induction 1; try constructor.
  - eapply reach_snoc; eauto.
  - eapply reach_snoc; eauto.
Qed.

Lemma reach1_rev {A} (R : A -> A -> Prop) x y :
  reach1 R x y <-> reach1 (fun a b => R b a) y x.
Proof.
  split; intros H; inversion H; subst.
  - apply reach_rev in H1. clear H. revert x H0.
    destruct H1; intros.
    + econstructor; eauto. constructor.
    + econstructor; eauto. eapply reach_snoc; eauto.
  - apply reach_rev in H1. clear H. revert y H0.
    destruct H1; intros.
    + econstructor; eauto. constructor.
    + econstructor; eauto. eapply reach_snoc; eauto.
Qed.

(** * Generic depth-first search

    [succ x] lists the successors of [x] in visiting order. A successor that
    cannot be resolved is an error, raised when the search gets to it. *)

Section DFS.
  Variable succ : nat -> list (res nat).

  Fixpoint dfs (fuel : nat) (closure : list nat) (x : nat) : res (list nat) :=
    match fuel with
    | O => Err OutOfFuel
    | S f =>
        if memb x closure then Ok closure
        else rfold (fun c r => rbind r (dfs f c)) (succ x) (closure ++ [x])
    end.

  Definition edge (x y : nat) : Prop := In (Ok y) (succ x).

  (** What one call guarantees when it returns. *)
  Lemma dfs_sound_complete fuel : forall c x c',
    dfs fuel c x = Ok c' ->
    incl c c' /\ In x c' /\
    (forall y, In y c' -> ~ In y c -> reach edge x y) /\
    (forall y r, In y c' -> ~ In y c -> In r (succ y) ->
                 exists z, r = Ok z /\ In z c').
  Proof.
    induction fuel as [|f IH]; intros c x c'; [discriminate|].
    simpl. destruct (memb x c) eqn:M.
    - intros [= <-]. apply memb_In in M. repeat split; auto.
      + apply incl_refl.
      + intros; contradiction.
      + intros; contradiction.
    - apply memb_nIn in M.
      assert (G : forall l c0 c',
        rfold (fun c r => rbind r (dfs f c)) l c0 = Ok c' ->
        incl c0 c' /\
        (forall r, In r l -> exists z, r = Ok z /\ In z c') /\
        (forall y, In y c' -> ~ In y c0 ->
           exists z, In (Ok z) l /\ reach edge z y) /\
        (forall y r, In y c' -> ~ In y c0 -> In r (succ y) ->
                 exists z, r = Ok z /\ In z c')).
      { clear c c' x M. induction l as [|r l IHl]; intros c0 c'; simpl.
        - intros [= <-]. repeat split.
          + apply incl_refl.
          + intros r [].
          + intros; contradiction.
          + intros; contradiction.
        - destruct r as [z|e]; simpl; [|discriminate].
          destruct (dfs f c0 z) as [c1|e] eqn:D; simpl; [|discriminate].
          intros R. apply IH in D. destruct D as (D1 & D2 & D3 & D4).
          apply IHl in R. destruct R as (R1 & R2 & R3 & R4).
          repeat split.
          + eapply incl_tran; eauto.
          + intros r [<-|H]; [exists z; split; auto|auto].
          + intros y Hy Hn. destruct (in_dec Nat.eq_dec y c1) as [i|n].
            * exists z. split; [left; auto|auto].
            * destruct (R3 y Hy n) as (w & W1 & W2). exists w. split; auto.
          + intros y r Hy Hn Hr. destruct (in_dec Nat.eq_dec y c1) as [i|n].
            * destruct (D4 y r i Hn Hr) as (w & -> & W). exists w. split; auto.
            * eauto. }
      intros R. apply G in R. destruct R as (R1 & R2 & R3 & R4).
      assert (Hx : In x c') by (apply R1; rewrite in_app_iff; simpl; auto).
      repeat split; auto.
      + intros y Hy. apply R1. rewrite in_app_iff. auto.
      + intros y Hy Hn. destruct (Nat.eq_dec y x) as [->|N]; [constructor|].
        destruct (R3 y Hy) as (z & Z1 & Z2).
        { rewrite in_app_iff. simpl. intros [|[|[]]]; auto. }
        econstructor; eauto.
      + intros y r Hy Hn Hr. destruct (Nat.eq_dec y x) as [->|N]; [auto|].
        apply (R4 y r Hy); auto.
        rewrite in_app_iff. simpl. intros [|[|[]]]; auto.
  Qed.

  (** Adds each node once. *)
  Lemma dfs_NoDup fuel : forall c x c',
    NoDup c -> dfs fuel c x = Ok c' -> NoDup c'.
  Proof.
    induction fuel as [|f IH]; intros c x c' N; [discriminate|].
    simpl. destruct (memb x c) eqn:M; [intros [= <-]; auto|].
    assert (N0 : NoDup (c ++ [x])).
    { pose proof (NoDup_sadd x c N) as H. unfold sadd in H. now rewrite M in H. }
    revert N0. generalize (c ++ [x]). clear M N c.
    induction (succ x) as [|r l IHl]; intros c N; simpl.
    - intros [= <-]; auto.
    - destruct r as [z|e]; simpl; [|discriminate].
      destruct (dfs f c z) eqn:D; simpl; [|discriminate].
      apply IHl. eapply IH; eauto.
  Qed.

  (** Termination: within a finite universe closed under [succ], fuel larger than
      the number of unvisited nodes is never exhausted; an error can only come from
      an unresolvable successor of a node reachable from the start. *)
  Definition unvisited (V c : list nat) : nat :=
    length (filter (fun v => negb (memb v c)) V).

  Lemma unvisited_mono V c c' : incl c c' -> unvisited V c' <= unvisited V c.
  Proof.
    intros I. unfold unvisited. induction V as [|v V IH]; simpl; auto.
    destruct (memb v c) eqn:E; simpl.
    - apply memb_In, I, memb_In in E. rewrite E. simpl. auto.
    - destruct (memb v c'); simpl; lia.
  Qed.

  Lemma unvisited_lt V c c' x :
    incl c c' -> In x V -> ~ In x c -> In x c' -> unvisited V c' < unvisited V c.
  Proof.
    intros I. unfold unvisited. induction V as [|v V IH]; simpl; [tauto|].
    intros Hx Hn Hi.
    pose proof (unvisited_mono V c c' I) as L. unfold unvisited in L.
    destruct (memb v c) eqn:E; simpl.
    - pose proof E as E0. apply memb_In, I, memb_In in E. rewrite E. simpl.
      destruct Hx as [->|Hx]; auto. apply memb_In in E0. contradiction.
    - destruct Hx as [->|Hx].
      + apply memb_In in Hi. rewrite Hi. simpl. lia.
      + specialize (IH Hx Hn Hi). destruct (memb v c'); simpl; lia.
  Qed.

  Lemma dfs_fuel V fuel : forall c x,
    (forall v w, In v V -> edge v w -> In w V) ->
    In x V -> unvisited V c < fuel ->
    (exists c', dfs fuel c x = Ok c') \/
    (exists e y, dfs fuel c x = Err e /\ reach edge x y /\ In (Err e) (succ y)).
  Proof.
    induction fuel as [|f IH]; intros c x CL Hx L; [lia|].
    simpl. destruct (memb x c) eqn:M; [left; eauto|].
    apply memb_nIn in M.
    assert (L1 : unvisited V (c ++ [x]) < f).
    { assert (unvisited V (c ++ [x]) < unvisited V c); [|lia].
      apply unvisited_lt with x; auto.
      - intros y Hy. rewrite in_app_iff; auto.
      - rewrite in_app_iff; simpl; auto. }
    assert (Q : forall l, incl l (succ x) -> forall c0, unvisited V c0 < f ->
      (exists c', rfold (fun c r => rbind r (dfs f c)) l c0 = Ok c') \/
      (exists e y, rfold (fun c r => rbind r (dfs f c)) l c0 = Err e /\
                   reach edge x y /\ In (Err e) (succ y))).
    { induction l as [|r l IHl]; intros I c0 L0; simpl; [left; eauto|].
      destruct r as [z|e]; simpl.
      - assert (E : edge x z) by (apply I; left; auto).
        destruct (IH c0 z CL (CL _ _ Hx E) L0) as [[c1 D]|(e & y & D & P & Q)].
        + rewrite D. simpl. apply IHl.
          * intros r Hr. apply I. right; auto.
          * apply dfs_sound_complete in D. destruct D as (D & _).
            pose proof (unvisited_mono V _ _ D). lia.
        + rewrite D. simpl. right. exists e, y. repeat split; auto.
          econstructor; eauto.
      - right. exists e, x. repeat split; [constructor|]. apply I. left; auto. }
    apply Q; auto. apply incl_refl.
  Qed.

  Lemma unvisited_le V c : unvisited V c <= length V.
  Proof.
    unfold unvisited. induction V as [|v V IH]; simpl; auto.
    destruct (memb v c); simpl; lia.
  Qed.

End DFS.

(** Two searches with pointwise equal successors agree. *)
Lemma rfold_ext {A S} (f g : S -> A -> res S) l : forall s,
  (forall s a, In a l -> f s a = g s a) -> rfold f l s = rfold g l s.
Proof.
  induction l as [|a l IH]; intros s H; simpl; auto.
  rewrite (H s a) by (left; auto). destruct (g s a); simpl; auto.
  apply IH. intros. apply H. right; auto.
Qed.

Lemma rfold_app {A S} (f : S -> A -> res S) l1 l2 s :
  rfold f (l1 ++ l2) s = rbind (rfold f l1 s) (rfold f l2).
Proof.
  revert s. induction l1; intros; simpl; auto.
  destruct (f s a); simpl; auto.
Qed.

Lemma rfold_map {A B S} (f : S -> B -> res S) (g : A -> B) l s :
  rfold f (map g l) s = rfold (fun s a => f s (g a)) l s.
Proof.
  revert s. induction l; intros; simpl; auto.
  destruct (f s (g a)); simpl; auto.
Qed.
