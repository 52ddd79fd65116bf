(** Lemmas about watchpoints. *)
Require Import List Arith Bool Lia.
Import ListNotations.
Require Import Verif.Base Verif.WatchModel Verif.WatchSpec.

Definition holdsb (v : nat -> call -> bool) (k : call) (w : wp) : bool :=
  match w_pred w with None => true | Some p => v p k end.
Lemma holdsb_iff v k w : holdsb v k w = true <-> holds v k w.
Proof. unfold holdsb, holds. destruct (w_pred w); tauto. Qed.

Lemma ask_says b v k w l : says b v -> ask b w k l = (Ok (holdsb v k w), l).
Proof. intros H. unfold ask, holdsb. destruct (w_pred w); auto. Qed.

Lemma skipn_cons {A} (l : list A) i : skipn i l = match nth_error l i with Some a => a :: skipn (S i) l | None => [] end.
Proof. revert i. induction l as [|a l IH]; destruct i; simpl; auto. rewrite IH. destruct (nth_error l i); auto. Qed.

Lemma passing_says b v k : says b v -> forall fuel i l acc, i <= length l -> length l < i + fuel ->
  passing b k fuel i l acc = (Ok (acc ++ filter (holdsb v k) (skipn i l)), l).
Proof.
  intros H. induction fuel as [|f IH]; intros i l acc I L; [lia|]. cbn [passing].
  rewrite (skipn_cons l i). destruct (nth_error l i) as [w|] eqn:E.
  - assert (i < length l) by (apply nth_error_Some; congruence).
    rewrite (ask_says b v) by auto. cbn [filter]. destruct (holdsb v k w).
    + rewrite IH by lia. rewrite <- app_assoc. reflexivity.
    + apply IH; lia.
  - simpl. rewrite app_nil_r. auto.
Qed.

Lemma selects_filter {A} (P : A -> Prop) (f : A -> bool) : (forall a, f a = true <-> P a) ->
  forall l r, selects P l r <-> r = filter f l.
Proof.
  intros H l. split.
  - induction 1; simpl; auto.
    + rewrite (proj2 (H a)) by auto. congruence.
    + destruct (f a) eqn:E; auto. apply H in E. contradiction.
  - intros ->. induction l as [|a l IH]; simpl; [constructor|]. destruct (f a) eqn:E.
    + apply sel_take; auto. apply H. auto.
    + apply sel_skip; auto. rewrite <- H. congruence.
Qed.
Lemma selects_holds v k l r : selects (holds v k) l r <-> r = filter (holdsb v k) l.
Proof. apply selects_filter. apply holdsb_iff. Qed.

Lemma concat_repeat_len {A} (l : list A) n : length (concat (repeat l n)) = n * length l.
Proof. induction n; simpl; auto. rewrite app_length. lia. Qed.

Lemma watch_dset y y' s l a f : watch_of y' (mkSt (dset (watch s) y l) a f) = if y' =? y then l else watch_of y' s.
Proof. unfold watch_of. simpl. rewrite dget_dset. destruct (y' =? y); auto. Qed.

Lemma checks_says b v fuel pos : says b v -> forall us s, (forall y, length (watch_of y s) < fuel) ->
  exists s', checks b fuel pos us s = (Ok tt, s') /\ finished s' = finished s /\
    (forall y, watch_of y s' = watch_of y s) /\
    active s' = active s ++ flat_map (fun u => let '(y, obj, nm) := u in
      match filter (holdsb v (mkCall obj pos nm)) (watch_of y s) with [] => [] | ws => [(ws, y)] end) us.
Proof.
  intros H. induction us as [|[[y obj] nm] us IH]; intros s L; cbn [checks flat_map].
  - exists s. rewrite app_nil_r. auto.
  - unfold check. rewrite (passing_says b v) by (auto; try lia; simpl; apply L). cbn [app skipn].
    set (s1 := mkSt _ _ _).
    assert (W : forall z, watch_of z s1 = watch_of z s).
    { intros z. unfold s1. rewrite watch_dset. destruct (Nat.eqb_spec z y); congruence. }
    destruct (IH s1) as (s' & E & F & W' & A); [intros z; rewrite W; auto|].
    exists s'. split; auto. split; auto. split; [intros z; rewrite W', W; auto|].
    rewrite A. simpl. rewrite <- app_assoc. f_equal. f_equal; [destruct (filter _ (watch_of y s)); auto|].
    apply flat_map_ext. intros [[y' o'] n']. rewrite W. auto.
Qed.
