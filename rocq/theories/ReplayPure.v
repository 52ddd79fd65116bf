(** Re-running a set of pieces of code that is closed under "reads a value written by". *)
Require Import List ZArith Bool Arith Lia Sorted.
Import ListNotations.
Require Import Verif.Base Verif.SessionModel Verif.ReplayModel Verif.ReplaySpec.
Local Open Scope nat_scope.

(** The variables after a trace. *)
Definition apply_act (st : store) (a : act) : store :=
  match a with ARd _ _ => st | AWr x v => upd st x v end.
Definition apply_tr (st : store) (t : list act) : store := fold_left apply_act t st.

Lemma eval_store : forall p st, fst (eval st p) = apply_tr st (snd (eval st p)).
Proof.
  induction p as [|x k IH|x v p IH]; intros st; simpl; auto.
Qed.

Lemma apply_none t x : ~ writes t x -> forall st, apply_tr st t x = st x.
Proof.
  intros N. induction t as [|a t IH]; intros st; simpl; auto.
  rewrite IH. 2:{ intros [v I]. apply N. exists v. now right. }
  destruct a as [y v|y v]; simpl; auto. unfold upd.
  destruct (Nat.eqb_spec x y); auto. subst. exfalso. apply N. exists v. now left.
Qed.

Lemma writes_dec t x : writes t x \/ ~ writes t x.
Proof.
  induction t as [|a t IH]; [right; intros [v []]|].
  destruct IH as [[v I]|N]; [left; exists v; now right|].
  destruct a as [y v|y v].
  - right. intros [w [E|I]]; [discriminate|]. apply N. now exists w.
  - destruct (Nat.eq_dec x y) as [->|NE]; [left; exists v; now left|].
    right. intros [w [E|I]]; [congruence|]. apply N. now exists w.
Qed.

(** If a trace writes [x], what [x] was before does not matter. *)
Lemma apply_some t x : writes t x -> forall st st', apply_tr st t x = apply_tr st' t x.
Proof.
  induction t as [|a t IH]; intros [v I] st st'; [destruct I|]. simpl.
  destruct (writes_dec t x) as [W|N]; [now apply IH|].
  rewrite !apply_none by auto. destruct I as [->|I]; [|exfalso; apply N; now exists v].
  simpl. unfold upd. now rewrite Nat.eqb_refl.
Qed.

(** A piece of code behaves the same if the variables that it reads from outside have the
    same values. *)
Lemma eval_agree : forall p st st',
  (forall x, reads_outside (snd (eval st p)) x -> st x = st' x) ->
  snd (eval st p) = snd (eval st' p).
Proof.
  induction p as [|x k IH|x v p IH]; intros st st' H; simpl in *; auto.
  - assert (E : st x = st' x).
    { apply H. exists [], (st x), (snd (eval st (k (st x)))). split; auto. }
    rewrite <- E. f_equal. apply IH. intros y (a & w & b & E1 & E2). apply H.
    exists (ARd x (st x) :: a), w, b. rewrite E1. split; auto.
    intros v' [F|F]; [discriminate|]. eapply E2; eauto.
  - f_equal. apply IH. intros y (a & w & b & E1 & E2). unfold upd.
    destruct (Nat.eqb_spec y x); auto. apply H.
    exists (AWr x v :: a), w, b. rewrite E1. split; auto.
    intros v' [F|F]; [congruence|]. eapply E2; eauto.
Qed.

(** ** Histories *)

Definition apply_trs (st : store) (T : list (list act)) : store := fold_left apply_tr T st.

Lemma store_after_trs : forall ps st, store_after st ps = apply_trs st (behaviours st ps).
Proof.
  induction ps as [|p ps IH]; intros st; simpl; auto. now rewrite IH, <- eval_store.
Qed.

Lemma behaviours_length : forall ps st, length (behaviours st ps) = length ps.
Proof. induction ps as [|p ps IH]; intros st; simpl; auto. Qed.

Lemma behaviours_app : forall ps qs st,
  behaviours st (ps ++ qs) = behaviours st ps ++ behaviours (store_after st ps) qs.
Proof. induction ps as [|p ps IH]; intros qs st; simpl; auto. now rewrite IH. Qed.

Lemma store_after_app : forall ps qs st,
  store_after st (ps ++ qs) = store_after (store_after st ps) qs.
Proof. induction ps as [|p ps IH]; intros qs st; simpl; auto. Qed.

Lemma behaviours_nth : forall ps u p st, nth_error ps u = Some p ->
  nth_error (behaviours st ps) u = Some (snd (eval (store_after st (firstn u ps)) p)).
Proof.
  induction ps as [|q ps IH]; intros [|u] p st H; simpl in *; try discriminate.
  - now injection H as ->.
  - now apply IH.
Qed.

Lemma behaviours_firstn : forall ps u st,
  behaviours st (firstn u ps) = firstn u (behaviours st ps).
Proof. induction ps as [|q ps IH]; intros [|u] st; simpl; auto. now rewrite IH. Qed.

Lemma trs_none T x : (forall t, In t T -> ~ writes t x) -> forall st, apply_trs st T x = st x.
Proof.
  induction T as [|t T IH]; intros N st; simpl; auto.
  rewrite IH by (intros; apply N; now right). apply apply_none. apply N. now left.
Qed.

Lemma trs_last T1 t T2 x st : writes t x -> (forall s, In s T2 -> ~ writes s x) ->
  apply_trs st (T1 ++ t :: T2) x = apply_tr empty t x.
Proof.
  intros W N. unfold apply_trs. rewrite fold_left_app. simpl.
  change (apply_trs (apply_tr (apply_trs st T1) t) T2 x = apply_tr empty t x).
  rewrite trs_none by auto. now apply apply_some.
Qed.

(** The last element satisfying a decidable property. *)
Lemma last_split {A} (P : A -> Prop) (l : list A) : (forall a, P a \/ ~ P a) ->
  (forall a, In a l -> ~ P a) \/
  exists l1 a l2, l = l1 ++ a :: l2 /\ P a /\ forall b, In b l2 -> ~ P b.
Proof.
  intros D. induction l as [|a l IH] using rev_ind; [left; intros ? []|].
  destruct (D a) as [H|H].
  - right. exists l, a, []. repeat split; auto.
  - destruct IH as [N|(l1 & b & l2 & -> & B & N)].
    + left. intros c I. apply in_app_or in I. destruct I as [I|[<-|[]]]; auto.
    + right. exists l1, b, (l2 ++ [a]). rewrite <- app_assoc. split; auto. split; auto.
      intros c I. apply in_app_or in I. destruct I as [I|[<-|[]]]; auto.
Qed.

Lemma select_app {A} (l : list A) a b : select l (a ++ b) = select l a ++ select l b.
Proof. unfold select. apply flat_map_app. Qed.

Lemma In_select {A} (l : list A) is a :
  In a (select l is) <-> exists u, In u is /\ nth_error l u = Some a.
Proof.
  unfold select. rewrite in_flat_map. split; intros (u & I & H); exists u; split; auto.
  - destruct (nth_error l u); [|destruct H]. destruct H as [->|[]]; auto.
  - rewrite H. now left.
Qed.

Lemma sorted_app_lt l1 u l2 : StronglySorted lt (l1 ++ u :: l2) ->
  (forall a, In a l1 -> a < u) /\ (forall a, In a l2 -> u < a) /\ StronglySorted lt l1.
Proof.
  induction l1 as [|a l1 IH]; simpl; intros S.
  - inversion S as [|? ? S' F]; subst. rewrite Forall_forall in F.
    split; [intros ? []|]. split; [exact F|constructor].
  - inversion S as [|? ? S' F]; subst. destruct (IH S') as (A & B & C).
    rewrite Forall_forall in F.
    split; [|split; auto].
    + intros b [<-|I]; auto. apply F. apply in_or_app. right. now left.
    + constructor; auto. apply Forall_forall. intros b I. apply F. apply in_or_app. now left.
Qed.

Lemma nth_error_firstn_lt {A} (l : list A) : forall n u, u < n ->
  nth_error (firstn n l) u = nth_error l u.
Proof.
  induction l as [|a l IH]; intros [|n] [|u] H; simpl; auto; try lia. apply IH. lia.
Qed.

Lemma firstn_S_nth' {A} (l : list A) : forall n a,
  nth_error l n = Some a -> firstn (S n) l = firstn n l ++ [a].
Proof.
  induction l as [|b l IH]; intros [|n] a H; simpl in *; try discriminate.
  - now injection H as ->.
  - f_equal. now apply IH.
Qed.

Section Replay.
  Variable ps : list prog.
  Let T := behaviours empty ps.
  Variable is : list nat.
  Hypothesis inc : StronglySorted lt is.
  Hypothesis inb : forall u, In u is -> u < length ps.
  Hypothesis closed : forall u w x, In u is -> reads_from T u w x -> In w is.

  (** The variables that an element reads from outside are as in the full run. *)
  Lemma inputs_agree l1 u l2 t x : is = l1 ++ u :: l2 -> nth_error T u = Some t ->
    reads_outside t x ->
    apply_trs empty (firstn u T) x = apply_trs empty (select T l1) x.
  Proof.
    intros E Hu R.
    pose proof inc as S. rewrite E in S. apply sorted_app_lt in S. destruct S as (L1 & L2 & S1).
    destruct (last_split (fun t => writes t x) (firstn u T)) as [N|(T1 & tw & T2 & ET & W & N)].
    { intros a. apply writes_dec. }
    - rewrite (trs_none (firstn u T)) by auto. rewrite trs_none; auto.
      intros s I. apply In_select in I. destruct I as (w & I & Hw). apply N.
      apply (nth_error_In _ w). rewrite nth_error_firstn_lt; auto.
    - set (w := length T1).
      assert (Lw : w < u).
      { assert (length (firstn u T) <= u) by (apply firstn_le_length).
        rewrite ET, app_length in H. simpl in H. unfold w. lia. }
      assert (Hw : nth_error T w = Some tw).
      { rewrite <- (nth_error_firstn_lt T u) by auto. rewrite ET.
        rewrite nth_error_app2 by auto. unfold w. now rewrite Nat.sub_diag. }
      assert (Hafter : forall w', w < w' < u -> ~ writes_at T w' x).
      { intros w' B (t' & Ht & Wt). apply (N t'); auto.
        rewrite <- (nth_error_firstn_lt T u) in Ht by lia. rewrite ET in Ht.
        rewrite nth_error_app2 in Ht by (unfold w in B; lia).
        destruct (w' - length T1) as [|d] eqn:D; [unfold w in B; lia|].
        simpl in Ht. eapply nth_error_In; eauto. }
      assert (Iw : In w is).
      { apply (closed u w x); [rewrite E; apply in_or_app; right; now left|].
        split; [exists t; auto|]. split; auto. split; [exists tw; auto|]. auto. }
      assert (Iw1 : In w l1).
      { rewrite E in Iw. apply in_app_or in Iw. destruct Iw as [I|[I|I]]; auto; [lia|].
        apply L2 in I. lia. }
      rewrite ET. rewrite trs_last by auto.
      apply in_split in Iw1. destruct Iw1 as (m1 & m2 & Em).
      rewrite Em in S1, L1. apply sorted_app_lt in S1. destruct S1 as (_ & L3 & _).
      rewrite Em, select_app. simpl. rewrite Hw. simpl. rewrite trs_last; auto.
      intros s I. apply In_select in I. destruct I as (w' & I & Hs) .
      intros Ws. apply (Hafter w'). 
      + split; [now apply L3|]. apply L1. apply in_or_app. right. now right.
      + exists s. auto.
  Qed.

  Lemma replay_prefix l1 l2 : is = l1 ++ l2 ->
    behaviours empty (select ps l1) = select T l1.
  Proof.
    revert l2. induction l1 as [|u l1 IH] using rev_ind; intros l2 E; [reflexivity|].
    rewrite <- app_assoc in E. simpl in E.
    pose proof (IH _ E) as IH'. rewrite !select_app, behaviours_app, IH'. f_equal.
    assert (Iu : In u is) by (rewrite E; apply in_or_app; right; now left).
    destruct (nth_error ps u) as [p|] eqn:Hp.
    2:{ apply nth_error_None in Hp. apply inb in Iu. lia. }
    pose proof (behaviours_nth _ _ _ empty Hp) as Hb. fold T in Hb.
    simpl. rewrite Hp, Hb. simpl. f_equal. symmetry. apply eval_agree.
    intros x R. rewrite !store_after_trs, IH', behaviours_firstn.
    eapply inputs_agree; eauto.
  Qed.

  Lemma replay_all : reproduces ps is.
  Proof. apply (replay_prefix is []). now rewrite app_nil_r. Qed.

  (** The variables that the last element touched are as right after its original run. *)
  Lemma replay_store l1 u t x : is = l1 ++ [u] -> nth_error T u = Some t -> touches t x ->
    store_after empty (select ps is) x = store_after empty (firstn (S u) ps) x.
  Proof.
    intros E Ht X. rewrite !store_after_trs.
    assert (R : behaviours empty (select ps is) = select T is) by apply replay_all.
    rewrite R, behaviours_firstn. fold T.
    rewrite (firstn_S_nth' T u t Ht).
    rewrite E, select_app. simpl. rewrite Ht. simpl. unfold apply_trs. rewrite !fold_left_app. simpl.
    change (apply_tr (apply_trs empty (select T l1)) t x =
            apply_tr (apply_trs empty (firstn u T)) t x).
    destruct (writes_dec t x) as [W|N]; [now apply apply_some|].
    rewrite !apply_none by auto. symmetry. eapply inputs_agree; eauto.
    destruct X as [W|[v I]]; [contradiction|].
    apply in_split in I. destruct I as (a & b & ->). exists a, v, b. split; auto.
    intros v' I. apply N. exists v'. apply in_or_app. now left.
  Qed.
End Replay.
