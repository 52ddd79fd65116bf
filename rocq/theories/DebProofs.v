Require Import List Arith Bool Lia.
Import ListNotations.
Require Import Verif.Base Verif.Loops Verif.DebModel Verif.DebSpec.

Definition calm (p : phase) : Prop := match p with Waiting | Woken => True | _ => False end.

Record Inv (w : nat) (s : st) : Prop := mkInv {
  I_cur : current s = match length (timers s) with 0 => None | S n => Some n end;
  I_start : forall i a t, In (EStart i a t) (log s) <-> exists x, nth_error (timers s) i = Some x /\ t_arg x = a /\ t_deadline x = t + w;
  I_now : forall i a t, In (EStart i a t) (log s) -> t <= now s;
  I_fire : forall i a t, In (EFire i a t) (log s) -> exists x, nth_error (timers s) i = Some x /\ t_arg x = a /\ t_deadline x <= t /\ t <= now s /\ ~ calm (t_phase x);
  I_cancel : forall i t, In (ECancel i t) (log s) -> t <= now s /\ exists x, nth_error (timers s) i = Some x /\ t_fin x = true /\ (t < t_deadline x -> ~ fired i s);
  I_last : forall i t, In (ECancel i t) (log s) -> S i < length (timers s) \/ (S i = length (timers s) /\ exists r a, at_ s = Ready r a);
  I_next : forall i a t, In (EStart (S i) a t) (log s) -> exists tc, tc <= t /\ In (ECancel i tc) (log s);
  I_ready : forall r a i, at_ s = Ready r a -> current s = Some i -> exists tc, tc <= now s /\ In (ECancel i tc) (log s);
  I_phase : forall i x, nth_error (timers s) i = Some x ->
    match t_phase x with
    | Waiting => t_fin x = true -> exists t, In (ECancel i t) (log s)
    | Woken => (t_fin x = true -> exists t, In (ECancel i t) (log s)) /\ (t_fin x = false -> t_deadline x <= now s)
    | Running _ | Leaving => fired i s
    | Over => fired i s \/ exists t, In (ECancel i t) (log s)
    end;
  I_once : NoDup (flat_map fire_of (log s)) }.

Lemma Inv_init : forall w sc, Inv w (init sc).
Proof.
  intros. constructor; cbn; try contradiction; auto; try discriminate.
  - intros. split; [contradiction|]. intros (x & H & _). destruct i; discriminate.
  - intros i x H. destruct i; discriminate.
  - constructor.
Qed.

Lemma in_fire : forall i l, In i (flat_map fire_of l) <-> exists a t, In (EFire i a t) l.
Proof.
  intros i l. rewrite in_flat_map. split.
  - intros (e & E & H). destruct e; simpl in H; try contradiction. destruct H as [->|[]]. eauto.
  - intros (a & t & H). exists (EFire i a t). simpl. auto.
Qed.

Lemma nodup_snoc : forall A (l : list A) a, NoDup l -> ~ In a l -> NoDup (l ++ [a]).
Proof.
  intros A l a N H. induction l as [|b l IH]; simpl; [constructor; auto; constructor|]. inversion N; subst. simpl in H.
  constructor; [rewrite in_app_iff; simpl; intuition congruence|apply IH; auto].
Qed.

(** A step of a timer's thread that leaves argument and deadline alone and writes nothing to the log. *)
Lemma Inv_set : forall w s i x x' p sc, Inv w s -> nth_error (timers s) i = Some x ->
  t_arg x' = t_arg x -> t_deadline x' = t_deadline x -> (t_fin x = true -> t_fin x' = true) ->
  (calm (t_phase x') -> calm (t_phase x)) ->
  match t_phase x' with
    | Waiting => t_fin x' = true -> exists t, In (ECancel i t) (log s)
    | Woken => (t_fin x' = true -> exists t, In (ECancel i t) (log s)) /\ (t_fin x' = false -> t_deadline x' <= now s)
    | Running _ | Leaving => fired i s
    | Over => fired i s \/ exists t, In (ECancel i t) (log s)
    end ->
  Inv w (mkSt (now s) (lset (timers s) i x') (current s) (at_ s) p sc (log s)).
Proof.
  intros w s i x x' p sc [A B C D E F G H K L] N Ha Hd Hf Hc Hp.
  assert (Q : forall j, nth_error (lset (timers s) i x') j = if j =? i then Some x' else nth_error (timers s) j).
  { intros j. rewrite nth_error_lset. destruct (Nat.eqb_spec j i) as [->|]; auto.
    replace (i <? length (timers s)) with true; auto. symmetry. apply Nat.ltb_lt. apply nth_error_Some. congruence. }
  constructor; cbn; auto.
  - rewrite lset_length. auto.
  - intros j a t. rewrite B, Q. destruct (Nat.eqb_spec j i) as [->|]; [|reflexivity]. rewrite N. split; intros (y & [= <-] & Z1 & Z2);
      eexists; (split; [reflexivity|]); split; congruence.
  - intros j a t J. destruct (D j a t J) as (y & Y & Y1 & Y2 & Y3 & Y4). rewrite Q. destruct (Nat.eqb_spec j i) as [->|]; [|eauto 8].
    rewrite N in Y. injection Y as <-. exists x'. split; auto. split; [congruence|]. split; [congruence|]. auto.
  - intros j t J. destruct (E j t J) as (J1 & y & Y & Y1 & Y2). split; auto. rewrite Q. destruct (Nat.eqb_spec j i) as [->|]; [|eauto].
    rewrite N in Y. injection Y as <-. exists x'. split; auto. split; auto. rewrite Hd. auto.
  - intros j t J. rewrite lset_length. eauto.
  - intros j y Y. rewrite Q in Y. destruct (Nat.eqb_spec j i) as [->|]; [injection Y as <-; exact Hp|]. apply (K j y Y).
Qed.

(** A change of the main thread's place that leaves timers and log alone. *)
Lemma Inv_main : forall w s m p, Inv w s -> (forall r a, m = Ready r a -> current s = None) ->
  (forall r a, at_ s <> Ready r a) -> Inv w (mkSt (now s) (timers s) (current s) m p (sched s) (log s)).
Proof.
  intros w s m p [A B C D E F G H K L] M N. constructor; cbn; auto.
  - intros i t J. destruct (F i t J) as [|(Z & r & a & Y)]; auto. exfalso. apply (N r a Y).
  - intros r a i -> J. rewrite (M r a eq_refl) in J. discriminate.
Qed.

Lemma Inv_step : forall w l s s', Inv w s -> step w l s = Some s' -> Inv w s'.
Proof.
  intros w l s s' I H. destruct l as [|a| | | |i|i|i|i|i ok]; cbn [step] in H.
  - injection H as <-. destruct I as [A B C D E F G X K L]. constructor; cbn; auto.
    + intros i a t J. apply C in J. lia.
    + intros i a t J. destruct (D i a t J) as (y & Y). exists y. intuition lia.
    + intros i t J. destruct (E i t J) as (J1 & Y). split; [lia|exact Y].
    + intros r a i J1 J2. destruct (X r a i J1 J2) as (tc & J3 & J4). exists tc. split; [lia|auto].
    + intros i x Y. specialize (K i x Y). destruct (t_phase x); [exact K| |exact K|exact K|exact K]. destruct K as [K1 K2]. split; [exact K1|]. intros Z. specialize (K2 Z). lia.
  - destruct (at_ s) eqn:M; try discriminate. destruct (current s) as [i|] eqn:C.
    + destruct (nth_error (timers s) i) as [x|]; [|discriminate]. injection H as <-. unfold with_main.
      apply Inv_main; [exact I|discriminate|intros; congruence].
    + injection H as <-. unfold with_main. apply Inv_main; [exact I|auto|intros; congruence].
  - destruct (at_ s) as [|ret a| |] eqn:M; try discriminate. destruct (current s) as [i|] eqn:C; [|discriminate].
    destruct (nth_error (timers s) i) as [x|] eqn:N; [|discriminate]. injection H as <-.
    destruct I as [A B Cn D E F G X K L]. unfold with_log, with_main, set_timer. cbn.
    assert (Q : forall j, nth_error (lset (timers s) i (with_fin x)) j = if j =? i then Some (with_fin x) else nth_error (timers s) j).
    { intros j. rewrite nth_error_lset. destruct (Nat.eqb_spec j i) as [->|]; auto.
      replace (i <? length (timers s)) with true; auto. symmetry. apply Nat.ltb_lt. apply nth_error_Some. congruence. }
    assert (Z : S i = length (timers s)). { rewrite A in C. destruct (length (timers s)); [discriminate|]. congruence. }
    constructor; cbn [now timers current at_ pending sched log].
    + rewrite lset_length, <- A. auto.
    + intros j b t. rewrite in_app_iff, B, Q. simpl. destruct (Nat.eqb_spec j i) as [->|]; split.
      * intros [(y & Y & Z1 & Z2)|[Y|[]]]; [|discriminate]. rewrite N in Y. injection Y as <-. exists (with_fin x). auto.
      * intros (y & [= <-] & Z1 & Z2). left. exists x. auto.
      * intros [Y|[Y|[]]]; [auto|discriminate].
      * auto.
    + intros j b t. rewrite in_app_iff. simpl. intros [J|[J|[]]]; [eauto|discriminate].
    + intros j b t. rewrite in_app_iff. simpl. intros [J|[J|[]]]; [|discriminate]. destruct (D j b t J) as (y & Y & Y1 & Y2 & Y3 & Y4).
      rewrite Q. destruct (Nat.eqb_spec j i) as [->|]; [|eauto 8]. rewrite N in Y. injection Y as <-. exists (with_fin x). auto.
    + intros j t. rewrite in_app_iff. simpl. unfold fired. cbn. intros [J|[J|[]]].
      * destruct (E j t J) as (J1 & y & Y & Y1 & Y2). split; auto. rewrite Q.
        assert (FF : t < t_deadline y -> ~ exists a0 t0, In (EFire j a0 t0) (log s ++ [ECancel i (now s)])).
        { intros T (a0 & t0 & W). rewrite in_app_iff in W. simpl in W. destruct W as [W|[W|[]]]; [|discriminate]. apply (Y2 T). exists a0, t0. auto. }
        destruct (Nat.eqb_spec j i) as [->|]; [|eauto]. rewrite N in Y. injection Y as <-. exists (with_fin x). auto.
      * injection J as <- <-. split; auto. rewrite Q, Nat.eqb_refl. exists (with_fin x). split; auto. split; auto.
        intros T (a0 & t0 & W). rewrite in_app_iff in W. simpl in W. destruct W as [W|[W|[]]]; [|discriminate].
        destruct (D i a0 t0 W) as (y & Y & Y1 & Y2 & Y3 & Y4). rewrite N in Y. injection Y as <-. simpl in T. lia.
    + intros j t. rewrite in_app_iff, lset_length. simpl. intros [J|[J|[]]].
      * destruct (F j t J) as [|(Z1 & Z2)]; auto. right. eauto.
      * injection J as <- <-. right. eauto.
    + intros j b t. rewrite in_app_iff. simpl. intros [J|[J|[]]]; [|discriminate]. destruct (G j b t J) as (tc & T1 & T2).
      exists tc. rewrite in_app_iff. auto.
    + intros r b j [= <- <-] J. assert (j = i) by congruence. subst j. exists (now s). rewrite in_app_iff. simpl. auto.
    + intros j y Y. rewrite Q in Y. unfold fired. cbn. destruct (Nat.eqb_spec j i) as [->|].
      * injection Y as <-. specialize (K i x N). cbn [t_phase with_fin t_fin]. destruct (t_phase x); cbn in *.
        -- intros _. exists (now s). rewrite in_app_iff. simpl. auto.
        -- split; [|discriminate]. intros _. exists (now s). rewrite in_app_iff. simpl. auto.
        -- destruct K as (b & t & W). exists b, t. rewrite in_app_iff. auto.
        -- destruct K as (b & t & W). exists b, t. rewrite in_app_iff. auto.
        -- right. exists (now s). rewrite in_app_iff. simpl. auto.
      * specialize (K j y Y). unfold fired in K. destruct (t_phase y).
        -- intros Z1. destruct (K Z1) as (t & W). exists t. rewrite in_app_iff. auto.
        -- destruct K as (K1 & K2). split; auto. intros Z1. destruct (K1 Z1) as (t & W). exists t. rewrite in_app_iff. auto.
        -- destruct K as (b & t & W). exists b, t. rewrite in_app_iff. auto.
        -- destruct K as (b & t & W). exists b, t. rewrite in_app_iff. auto.
        -- destruct K as [(b & t & W)|(t & W)]; [left; exists b, t|right; exists t]; rewrite in_app_iff; auto.
    + rewrite flat_map_app. simpl. rewrite app_nil_r. auto.
  - destruct (at_ s) as [| |ret a|] eqn:M; try discriminate. injection H as <-.
    destruct I as [A B Cn D E F G X K L]. constructor; cbn [now timers current at_ pending sched log].
    + rewrite app_length. simpl. rewrite Nat.add_1_r. reflexivity.
    + intros j b t. rewrite in_app_iff, B, nth_error_snoc. simpl. destruct (Nat.eqb_spec j (length (timers s))) as [->|J]; split.
      * intros [(y & Y & _)|[Y|[]]].
        -- exfalso. assert (length (timers s) < length (timers s)) by (apply nth_error_Some; congruence). lia.
        -- injection Y as <- <-. eexists. split; [reflexivity|]. auto.
      * intros (y & [= <-] & Z1 & Z2). simpl in *. right. left. f_equal; auto. lia.
      * intros [Y|[Y|[]]]; [auto|congruence].
      * auto.
    + intros j b t. rewrite in_app_iff. simpl. intros [J|[J|[]]]; [eauto|]. injection J as <- <- <-. auto.
    + intros j b t. rewrite in_app_iff. simpl. intros [J|[J|[]]]; [|discriminate]. destruct (D j b t J) as (y & Y & R).
      exists y. split; auto. rewrite nth_error_app1; auto. apply nth_error_Some. congruence.
    + intros j t. rewrite in_app_iff. simpl. unfold fired. cbn. intros [J|[J|[]]]; [|discriminate].
      destruct (E j t J) as (J1 & y & Y & Y1 & Y2). split; auto. exists y. split.
      * rewrite nth_error_app1; auto. apply nth_error_Some. congruence.
      * split; auto. intros T (a0 & t0 & W). rewrite in_app_iff in W. simpl in W. destruct W as [W|[W|[]]]; [|discriminate].
        apply (Y2 T). exists a0, t0. auto.
    + intros j t. rewrite in_app_iff, app_length. simpl. intros [J|[J|[]]]; [|discriminate]. destruct (F j t J) as [|(Z1 & Z2)]; lia.
    + intros j b t. rewrite in_app_iff. simpl. intros [J|[J|[]]].
      * destruct (G j b t J) as (tc & T1 & T2). exists tc. rewrite in_app_iff. auto.
      * injection J as J <- <-. destruct (X ret a j M) as (tc & T1 & T2).
        -- rewrite A, J. reflexivity.
        -- exists tc. rewrite in_app_iff. auto.
    + discriminate.
    + intros j y Y. rewrite nth_error_snoc in Y. unfold fired. cbn. destruct (Nat.eqb_spec j (length (timers s))) as [->|].
      * injection Y as <-. simpl. discriminate.
      * specialize (K j y Y). unfold fired in K. destruct (t_phase y).
        -- intros Z1. destruct (K Z1) as (t & W). exists t. rewrite in_app_iff. auto.
        -- destruct K as (K1 & K2). split; auto. intros Z1. destruct (K1 Z1) as (t & W). exists t. rewrite in_app_iff. auto.
        -- destruct K as (b & t & W). exists b, t. rewrite in_app_iff. auto.
        -- destruct K as (b & t & W). exists b, t. rewrite in_app_iff. auto.
        -- destruct K as [(b & t & W)|(t & W)]; [left; exists b, t|right; exists t]; rewrite in_app_iff; auto.
    + rewrite flat_map_app. simpl. rewrite app_nil_r. auto.
  - destruct (at_ s) as [| | |ret] eqn:M; try discriminate. injection H as <-.
    destruct I as [A B Cn D E F G X K L]. constructor; cbn [now timers current at_ pending sched log]; auto.
    + intros j b t. rewrite in_app_iff, B. simpl. split; [intros [J|[J|[]]]; [auto|discriminate]|auto].
    + intros j b t. rewrite in_app_iff. simpl. intros [J|[J|[]]]; [eauto|discriminate].
    + intros j b t. rewrite in_app_iff. simpl. intros [J|[J|[]]]; [eauto|discriminate].
    + intros j t. rewrite in_app_iff. simpl. unfold fired. cbn. intros [J|[J|[]]]; [|discriminate].
      destruct (E j t J) as (J1 & y & Y & Y1 & Y2). split; auto. exists y. split; auto.
      split; auto. intros T (a0 & t0 & W). rewrite in_app_iff in W. simpl in W. destruct W as [W|[W|[]]]; [|discriminate].
      apply (Y2 T). exists a0, t0. auto.
    + intros j t. rewrite in_app_iff. simpl. intros [J|[J|[]]]; [|discriminate]. destruct (F j t J) as [|(Z1 & r & b & Z2)]; auto. rewrite M in Z2. discriminate.
    + intros j b t. rewrite in_app_iff. simpl. intros [J|[J|[]]]; [|discriminate].
      destruct (G j b t J) as (tc & T1 & T2). exists tc. rewrite in_app_iff. auto.
    + discriminate.
    + intros j y Y. unfold fired. cbn. specialize (K j y Y). unfold fired in K. destruct (t_phase y).
        -- intros Z1. destruct (K Z1) as (t & W). exists t. rewrite in_app_iff. auto.
        -- destruct K as (K1 & K2). split; auto. intros Z1. destruct (K1 Z1) as (t & W). exists t. rewrite in_app_iff. auto.
        -- destruct K as (b & t & W). exists b, t. rewrite in_app_iff. auto.
        -- destruct K as (b & t & W). exists b, t. rewrite in_app_iff. auto.
        -- destruct K as [(b & t & W)|(t & W)]; [left; exists b, t|right; exists t]; rewrite in_app_iff; auto.
    + rewrite flat_map_app. simpl. rewrite app_nil_r. auto.
  - destruct (nth_error (timers s) i) as [x|] eqn:N; [|discriminate]. destruct (t_phase x) eqn:P; try discriminate.
    destruct (t_fin x || (t_deadline x <=? now s)) eqn:T; [|discriminate]. injection H as <-.
    pose proof (I_phase w s I i x N) as K. rewrite P in K.
    apply (Inv_set w s i x); auto; simpl; rewrite ?P; simpl; auto. split; auto. intros Z. rewrite Z in T. apply Nat.leb_le. auto.
  - destruct (nth_error (timers s) i) as [x|] eqn:N; [|discriminate]. destruct (t_phase x) eqn:P; try discriminate.
    pose proof (I_phase w s I i x N) as K. rewrite P in K. destruct K as (K1 & K2).
    destruct (t_fin x) eqn:T; injection H as <-.
    + apply (Inv_set w s i x); auto; simpl; rewrite ?P; simpl; auto.
    + unfold with_log, set_timer. cbn.
      assert (NF : ~ fired i s). { intros (b & t & W). destruct (I_fire w s I i b t W) as (y & Y & _ & _ & _ & Z). rewrite N in Y.
        injection Y as <-. rewrite P in Z. simpl in Z. auto. }
      destruct I as [A B Cn D E F G X K L].
      assert (Q : forall j, nth_error (lset (timers s) i (with_phase (Running None) x)) j = if j =? i then Some (with_phase (Running None) x) else nth_error (timers s) j).
      { intros j. rewrite nth_error_lset. destruct (Nat.eqb_spec j i) as [->|]; auto.
        replace (i <? length (timers s)) with true; auto. symmetry. apply Nat.ltb_lt. apply nth_error_Some. congruence. }
      constructor; cbn [now timers current at_ pending sched log].
      * rewrite lset_length. auto.
      * intros j b t. rewrite in_app_iff, B, Q. simpl. destruct (Nat.eqb_spec j i) as [->|]; split.
        -- intros [(y & Y & Z1 & Z2)|[Y|[]]]; [|discriminate]. rewrite N in Y. injection Y as <-. eexists. split; [reflexivity|]. auto.
        -- intros (y & [= <-] & Z1 & Z2). left. exists x. auto.
        -- intros [Y|[Y|[]]]; [auto|discriminate].
        -- auto.
      * intros j b t. rewrite in_app_iff. simpl. intros [J|[J|[]]]; [eauto|discriminate].
      * intros j b t. rewrite in_app_iff, Q. simpl. intros [J|[J|[]]].
        -- destruct (D j b t J) as (y & Y & Y1 & Y2 & Y3 & Y4). destruct (Nat.eqb_spec j i) as [->|]; [|eauto 8].
           exfalso. apply NF. exists b, t. auto.
        -- injection J as <- <- <-. rewrite Nat.eqb_refl. eexists. split; [reflexivity|]. simpl. auto.
      * intros j t. rewrite in_app_iff, Q. simpl. unfold fired. cbn. intros [J|[J|[]]]; [|discriminate].
        destruct (E j t J) as (J1 & y & Y & Y1 & Y2). split; auto. destruct (Nat.eqb_spec j i) as [->|Z]; [congruence|].
        exists y. split; auto. split; auto. intros T' (a0 & t0 & W). rewrite in_app_iff in W. simpl in W. destruct W as [W|[W|[]]].
        -- apply (Y2 T'). exists a0, t0. auto.
        -- congruence.
      * intros j t. rewrite in_app_iff, lset_length. simpl. intros [J|[J|[]]]; [eauto|discriminate].
      * intros j b t. rewrite in_app_iff. simpl. intros [J|[J|[]]]; [|discriminate]. destruct (G j b t J) as (tc & T1 & T2).
        exists tc. rewrite in_app_iff. auto.
      * intros r b j J1 J2. destruct (X r b j J1 J2) as (tc & T1 & T2). exists tc. rewrite in_app_iff. auto.
      * intros j y Y. rewrite Q in Y. unfold fired. cbn. destruct (Nat.eqb_spec j i) as [->|].
        -- injection Y as <-. simpl. exists (t_arg x), (now s). rewrite in_app_iff. simpl. auto.
        -- specialize (K j y Y). unfold fired in K. destruct (t_phase y).
          ++ intros Z1. destruct (K Z1) as (t & W). exists t. rewrite in_app_iff. auto.
          ++ destruct K as (K3 & K4). split; auto. intros Z1. destruct (K3 Z1) as (t & W). exists t. rewrite in_app_iff. auto.
          ++ destruct K as (b & t & W). exists b, t. rewrite in_app_iff. auto.
          ++ destruct K as (b & t & W). exists b, t. rewrite in_app_iff. auto.
          ++ destruct K as [(b & t & W)|(t & W)]; [left; exists b, t|right; exists t]; rewrite in_app_iff; auto.
      * rewrite flat_map_app. simpl. apply nodup_snoc; auto. rewrite in_fire. exact NF.
  - destruct (nth_error (timers s) i) as [x|] eqn:N; [|discriminate]. destruct (t_phase x) as [| |[b|]| |] eqn:P; try discriminate.
    injection H as <-. pose proof (I_phase w s I i x N) as K. rewrite P in K.
    apply (Inv_set w s i x); auto; simpl; auto; tauto.
  - destruct (nth_error (timers s) i) as [x|] eqn:N; [|discriminate]. destruct (t_phase x) as [| |[b|]| |] eqn:P; try discriminate.
    injection H as <-. pose proof (I_phase w s I i x N) as K. rewrite P in K.
    apply (Inv_set w s i x); auto; simpl; auto; tauto.
  - destruct (nth_error (timers s) i) as [x|] eqn:N; [|discriminate]. destruct (t_phase x) as [| |[b|]| |] eqn:P; try discriminate.
    injection H as <-. pose proof (I_phase w s I i x N) as K. rewrite P in K.
    apply (Inv_set w s i x); auto; simpl; auto; try tauto. intros ->. apply orb_true_r.
Qed.

Lemma Inv_run : forall w ls s s', Inv w s -> run w ls s = Some s' -> Inv w s'.
Proof.
  intros w ls. induction ls as [|l ls IH]; intros s s' I H; cbn [run] in H; [injection H as <-; auto|].
  destruct (step w l s) as [s1|] eqn:E; [|discriminate]. apply (IH s1); auto. apply (Inv_step w l s); auto.
Qed.

Definition alive (x : timer) : Prop :=
  match t_phase x with Waiting | Woken => t_fin x = false | Running _ => True | _ => False end.
Definition PInv (s : st) : Prop :=
  pending s = true -> (forall r a, at_ s <> Ready r a) ->
  exists i x, current s = Some i /\ nth_error (timers s) i = Some x /\ alive x.

Lemma nth_set : forall (l : list timer) i x x' j, nth_error l i = Some x ->
  nth_error (lset l i x') j = if j =? i then Some x' else nth_error l j.
Proof.
  intros l i x x' j N. rewrite nth_error_lset. destruct (Nat.eqb_spec j i) as [->|]; auto.
  replace (i <? length l) with true; auto. symmetry. apply Nat.ltb_lt. apply nth_error_Some. congruence.
Qed.

Lemma PInv_set : forall s i x x' p sc lg, PInv s -> nth_error (timers s) i = Some x -> (p = true -> pending s = true) -> (alive x -> alive x') ->
  PInv (mkSt (now s) (lset (timers s) i x') (current s) (at_ s) p sc lg).
Proof.
  intros s i x x' p sc lg I N P A Q R. cbn in *. destruct (I (P Q) R) as (j & y & C & Y & Z). exists j.
  rewrite (nth_set _ _ _ _ _ N). destruct (Nat.eqb_spec j i) as [->|]; [|eauto]. exists x'. split; auto. split; auto. apply A. congruence.
Qed.

Lemma last_not_cancelled : forall w s i x, Inv w s -> current s = Some i -> (forall r a, at_ s <> Ready r a) ->
  nth_error (timers s) i = Some x -> forall t, ~ In (ECancel i t) (log s).
Proof.
  intros w s i x I C R N t H. rewrite (I_cur w s I) in C. destruct (I_last w s I i t H) as [Z|(Z & r & a & Y)].
  - destruct (length (timers s)); [lia|]. injection C as ->. lia.
  - apply (R r a Y).
Qed.

Lemma PInv_step : forall w l s s', Inv w s -> (forall r, at_ s = Started r -> timers s <> []) -> PInv s -> step w l s = Some s' ->
  (l = Return -> forall i x, current s = Some i -> nth_error (timers s) i = Some x -> now s < t_deadline x) -> PInv s'.
Proof.
  intros w l s s' I NE P H Pr. destruct l as [|a| | | |i|i|i|i|i ok]; cbn [step] in H.
  - injection H as <-. exact P.
  - destruct (at_ s) eqn:M; try discriminate. destruct (current s) as [i|] eqn:C.
    + destruct (nth_error (timers s) i) as [x|]; [|discriminate]. injection H as <-. intros Q R. cbn in *. apply P; auto. intros; congruence.
    + injection H as <-. intros Q R. cbn in *. exfalso. apply (R true a eq_refl).
  - destruct (at_ s) as [|ret a| |] eqn:M; try discriminate. destruct (current s) as [i|] eqn:C; [|discriminate].
    destruct (nth_error (timers s) i) as [x|] eqn:N; [|discriminate]. injection H as <-. intros Q R. exfalso. apply (R ret a eq_refl).
  - destruct (at_ s) as [| |ret a|] eqn:M; try discriminate. injection H as <-. intros Q R. cbn in *.
    exists (length (timers s)), (mkT a (now s + w) Waiting false). split; auto. rewrite nth_error_snoc, Nat.eqb_refl. split; auto. reflexivity.
  - destruct (at_ s) as [| | |ret] eqn:M; try discriminate. injection H as <-. intros Q R. cbn in *. destruct ret.
    2:{ apply P; auto. intros; congruence. }
    assert (NR : forall r a, at_ s <> Ready r a) by (intros; congruence).
    destruct (current s) as [i|] eqn:C.
    2:{ exfalso. pose proof (I_cur w s I) as Z. rewrite C in Z. destruct (timers s) as [|x ts] eqn:T; [|discriminate]. apply (NE true eq_refl). auto. }
    destruct (nth_error (timers s) i) as [x|] eqn:N.
    2:{ exfalso. rewrite (I_cur w s I) in C. apply nth_error_None in N. destruct (length (timers s)); [discriminate|]. injection C as ->. lia. }
    exists i, x. split; auto. split; auto. specialize (Pr eq_refl i x eq_refl N).
    pose proof (last_not_cancelled w s i x I C NR N) as NC. pose proof (I_phase w s I i x N) as K. unfold alive.
    assert (NF : ~ fired i s).
    { intros (b & t & W). destruct (I_fire w s I i b t W) as (y & Y & _ & Y1 & Y2 & _). rewrite N in Y. injection Y as <-. lia. }
    destruct (t_phase x).
    + destruct (t_fin x); auto. destruct (K eq_refl) as (t & T). exfalso. apply (NC t T).
    + destruct K as (K1 & K2). destruct (t_fin x); auto. destruct (K1 eq_refl) as (t & T). exfalso. apply (NC t T).
    + exact Logic.I.
    + auto.
    + destruct K as [K|(t & T)]; [auto|apply (NC t T)].
  - destruct (nth_error (timers s) i) as [x|] eqn:N; [|discriminate]. destruct (t_phase x) eqn:Ph; try discriminate.
    destruct (t_fin x || (t_deadline x <=? now s)) eqn:T; [|discriminate]. injection H as <-.
    apply (PInv_set s i x); auto. unfold alive. rewrite Ph. auto.
  - destruct (nth_error (timers s) i) as [x|] eqn:N; [|discriminate]. destruct (t_phase x) eqn:Ph; try discriminate.
    destruct (t_fin x) eqn:T; injection H as <-; apply (PInv_set s i x); auto; unfold alive; rewrite Ph, ?T; simpl; auto. discriminate.
  - destruct (nth_error (timers s) i) as [x|] eqn:N; [|discriminate]. destruct (t_phase x) as [| |[b|]| |] eqn:Ph; try discriminate.
    injection H as <-. apply (PInv_set s i x); auto; unfold alive; rewrite Ph; simpl; auto.
  - destruct (nth_error (timers s) i) as [x|] eqn:N; [|discriminate]. destruct (t_phase x) as [| |[b|]| |] eqn:Ph; try discriminate.
    injection H as <-. intros Q. discriminate.
  - destruct (nth_error (timers s) i) as [x|] eqn:N; [|discriminate]. destruct (t_phase x) as [| |[b|]| |] eqn:Ph; try discriminate.
    injection H as <-. apply (PInv_set s i x); auto; unfold alive; rewrite Ph; simpl; auto; try tauto.
Qed.

Lemma lset_nil : forall (l : list timer) i x, lset l i x = [] -> l = [].
Proof. intros l i x H. destruct l, i; simpl in H; auto; discriminate. Qed.

Lemma NE_step : forall w l s s', (forall r, at_ s = Started r -> timers s <> []) -> step w l s = Some s' ->
  forall r, at_ s' = Started r -> timers s' <> [].
Proof.
  intros w l s s' N H r A. destruct l as [|a| | | |i|i|i|i|i ok]; cbn [step] in H.
  - injection H as <-. apply (N r A).
  - destruct (at_ s); try discriminate. destruct (current s); [destruct (nth_error _ _); [|discriminate]|]; injection H as <-; discriminate.
  - destruct (at_ s); try discriminate. destruct (current s); [|discriminate]. destruct (nth_error _ _); [|discriminate]. injection H as <-; discriminate.
  - destruct (at_ s); try discriminate. injection H as <-. cbn. destruct (timers s); discriminate.
  - destruct (at_ s); try discriminate. injection H as <-. discriminate.
  - destruct (nth_error _ _) as [x|]; [|discriminate]. destruct (t_phase x); try discriminate. destruct (_ || _)%bool; [|discriminate].
    injection H as <-. cbn in *. intros Z. apply lset_nil in Z. apply (N r A Z).
  - destruct (nth_error _ _) as [x|]; [|discriminate]. destruct (t_phase x); try discriminate. destruct (t_fin x);
    injection H as <-; cbn in *; intros Z; apply lset_nil in Z; apply (N r A Z).
  - destruct (nth_error _ _) as [x|]; [|discriminate]. destruct (t_phase x) as [| |[b|]| |]; try discriminate.
    injection H as <-; cbn in *; intros Z; apply lset_nil in Z; apply (N r A Z).
  - destruct (nth_error _ _) as [x|]; [|discriminate]. destruct (t_phase x) as [| |[b|]| |]; try discriminate.
    injection H as <-; cbn in *; intros Z; apply lset_nil in Z; apply (N r A Z).
  - destruct (nth_error _ _) as [x|]; [|discriminate]. destruct (t_phase x) as [| |[b|]| |]; try discriminate.
    injection H as <-; cbn in *; intros Z; apply lset_nil in Z; apply (N r A Z).
Qed.

Lemma PInv_run : forall w ls s s', Inv w s -> (forall r, at_ s = Started r -> timers s <> []) -> PInv s -> prompt w ls s ->
  run w ls s = Some s' -> PInv s'.
Proof.
  intros w ls. induction ls as [|l ls IH]; intros s s' I N P Pr H; cbn [run prompt] in *; [injection H as <-; auto|].
  destruct (step w l s) as [s1|] eqn:E; [|discriminate]. destruct Pr as (Pr1 & Pr2). apply (IH s1); auto.
  - apply (Inv_step w l s); auto.
  - apply (NE_step w l s); auto.
  - apply (PInv_step w l s); auto.
Qed.

(** The setting. *)
Definition SInv (sc : nat) (s : st) : Prop :=
  (forall i x b, nth_error (timers s) i = Some x -> t_phase x = Running (Some b) -> b = sc) /\
  (forall i j x y, nth_error (timers s) i = Some x -> nth_error (timers s) j = Some y -> busy x -> busy y -> i = j) /\
  ((forall i x, nth_error (timers s) i = Some x -> ~ busy x) -> sched s = sc).

Lemma SInv_idle_set : forall sc s i x x' p lg m, SInv sc s -> nth_error (timers s) i = Some x -> ~ busy x -> ~ busy x' ->
  SInv sc (mkSt (now s) (lset (timers s) i x') (current s) m p (sched s) lg).
Proof.
  intros sc s i x x' p lg m (A & B & C) N X X'. unfold SInv. cbn.
  assert (Q : forall j y, nth_error (lset (timers s) i x') j = Some y -> busy y -> nth_error (timers s) j = Some y).
  { intros j y. rewrite (nth_set _ _ _ _ _ N). destruct (Nat.eqb_spec j i) as [->|]; auto. intros [= <-]. tauto. }
  split; [|split].
  - intros j y b Y Z. apply (A j y b); auto. apply Q; auto. unfold busy. rewrite Z. exact Logic.I.
  - intros j k y z Y Z By Bz. apply (B j k y z); auto.
  - intros H. apply C. intros j y Y By. destruct (Nat.eqb_spec j i) as [->|J].
    + rewrite N in Y. injection Y as <-. auto.
    + apply (H j y); auto. rewrite (nth_set _ _ _ _ _ N). apply Nat.eqb_neq in J. rewrite J. auto.
Qed.

Lemma SInv_step : forall w l sc s s', SInv sc s -> step w l s = Some s' ->
  (forall i, l = Enter i -> forall j x, nth_error (timers s) j = Some x -> ~ busy x) -> SInv sc s'.
Proof.
  intros w l sc s s' I H Se. destruct l as [|a| | | |i|i|i|i|i ok]; cbn [step] in H.
  - injection H as <-. exact I.
  - destruct (at_ s); try discriminate. destruct (current s); [destruct (nth_error _ _); [|discriminate]|]; injection H as <-; exact I.
  - destruct (at_ s) as [|ret a| |]; try discriminate. destruct (current s) as [i|]; [|discriminate].
    destruct (nth_error (timers s) i) as [x|] eqn:N; [|discriminate]. injection H as <-.
    destruct I as (A & B & C). unfold SInv. cbn.
    assert (Q : forall j y, nth_error (lset (timers s) i (with_fin x)) j = Some y -> exists y', nth_error (timers s) j = Some y' /\ t_phase y' = t_phase y).
    { intros j y. rewrite (nth_set _ _ _ _ _ N). destruct (Nat.eqb_spec j i) as [->|]; [|eauto]. intros [= <-]. exists x. auto. }
    split; [|split].
    + intros j y b Y Z. destruct (Q j y Y) as (y' & Y' & P). apply (A j y' b); auto. congruence.
    + intros j k y z Y Z By Bz. destruct (Q j y Y) as (y' & Y' & P), (Q k z Z) as (z' & Z' & P'). apply (B j k y' z'); auto; unfold busy in *; rewrite ?P, ?P'; auto.
    + intros H. apply C. intros j y Y By. destruct (Nat.eqb_spec j i) as [->|J].
      * rewrite N in Y. injection Y as <-. apply (H i (with_fin x)); auto. rewrite (nth_set _ _ _ _ _ N), Nat.eqb_refl. auto.
      * apply (H j y); auto. rewrite (nth_set _ _ _ _ _ N). apply Nat.eqb_neq in J. rewrite J. auto.
  - destruct (at_ s) as [| |ret a|]; try discriminate. injection H as <-. destruct I as (A & B & C). unfold SInv. cbn.
    assert (Q : forall j y, nth_error (timers s ++ [mkT a (now s + w) Waiting false]) j = Some y -> busy y -> nth_error (timers s) j = Some y).
    { intros j y. rewrite nth_error_snoc. destruct (Nat.eqb_spec j (length (timers s))); auto. intros [= <-] []. }
    split; [|split].
    + intros j y b Y Z. apply (A j y b); auto. apply Q; auto. unfold busy. rewrite Z. exact Logic.I.
    + intros j k y z Y Z By Bz. apply (B j k y z); auto.
    + intros H. apply C. intros j y Y By. apply (H j y); auto. rewrite nth_error_app1; auto. apply nth_error_Some. congruence.
  - destruct (at_ s); try discriminate. injection H as <-. exact I.
  - destruct (nth_error (timers s) i) as [x|] eqn:N; [|discriminate]. destruct (t_phase x) eqn:P; try discriminate. destruct (_ || _)%bool; [|discriminate].
    injection H as <-. apply (SInv_idle_set sc s i x); auto; unfold busy; rewrite ?P; simpl; auto.
  - destruct (nth_error (timers s) i) as [x|] eqn:N; [|discriminate]. destruct (t_phase x) eqn:P; try discriminate. destruct (t_fin x);
    injection H as <-; apply (SInv_idle_set sc s i x); auto; unfold busy; rewrite ?P; simpl; auto.
  - destruct (nth_error (timers s) i) as [x|] eqn:N; [|discriminate]. destruct (t_phase x) as [| |[b|]| |] eqn:P; try discriminate.
    injection H as <-. specialize (Se i eq_refl). destruct I as (A & B & C). pose proof (C Se) as E. rewrite E. unfold SInv. cbn.
    assert (Q : forall j y, nth_error (lset (timers s) i (with_phase (Running (Some sc)) x)) j = Some y -> busy y -> j = i /\ y = with_phase (Running (Some sc)) x).
    { intros j y. rewrite (nth_set _ _ _ _ _ N). destruct (Nat.eqb_spec j i) as [->|]; [intros [= <-]; auto|]. intros Y Z. exfalso. apply (Se j y Y Z). }
    split; [|split].
    + intros j y b Y Z. destruct (Q j y Y) as (-> & ->); [unfold busy; rewrite Z; exact Logic.I|]. simpl in Z. congruence.
    + intros j k y z Y Z By Bz. destruct (Q j y Y By) as (-> & _), (Q k z Z Bz) as (-> & _). auto.
    + intros H. exfalso. apply (H i (with_phase (Running (Some sc)) x)); [|exact Logic.I]. rewrite (nth_set _ _ _ _ _ N), Nat.eqb_refl. auto.
  - destruct (nth_error (timers s) i) as [x|] eqn:N; [|discriminate]. destruct (t_phase x) as [| |[b|]| |] eqn:P; try discriminate.
    injection H as <-. destruct I as (A & B & C). pose proof (A i x b N P) as ->. unfold SInv. cbn.
    assert (Q : forall j y, nth_error (lset (timers s) i (with_phase Leaving x)) j = Some y -> ~ busy y).
    { intros j y. rewrite (nth_set _ _ _ _ _ N). destruct (Nat.eqb_spec j i) as [->|J]; [intros [= <-]; auto|]. intros Y Z. apply J.
      apply (B j i y x); auto. unfold busy. rewrite P. exact Logic.I. }
    split; [|split]; auto.
    + intros j y b Y Z. exfalso. apply (Q j y Y). unfold busy; rewrite Z; exact Logic.I.
    + intros j k y z Y Z By Bz. exfalso. apply (Q j y Y By).
  - destruct (nth_error (timers s) i) as [x|] eqn:N; [|discriminate]. destruct (t_phase x) as [| |[b|]| |] eqn:P; try discriminate.
    injection H as <-. apply (SInv_idle_set sc s i x); auto; unfold busy; rewrite ?P; simpl; auto.
Qed.

Lemma SInv_run : forall w ls sc s s', SInv sc s -> separate w ls s -> run w ls s = Some s' -> SInv sc s'.
Proof.
  intros w ls. induction ls as [|l ls IH]; intros sc s s' I S H; cbn [run separate] in *; [injection H as <-; auto|].
  destruct (step w l s) as [s1|] eqn:E; [|discriminate]. destruct S as (S1 & S2). apply (IH sc s1); auto.
  apply (SInv_step w l sc s); auto.
Qed.

(** Everything can come to rest. *)
Lemma run_app : forall w a b s, run w (a ++ b) s = match run w a s with Some s' => run w b s' | None => None end.
Proof. intros w a. induction a as [|l a IH]; intros b s; cbn [app run]; auto. destruct (step w l s); auto. Qed.

Lemma ticks : forall w n s, run w (repeat Tick n) s = Some (mkSt (now s + n) (timers s) (current s) (at_ s) (pending s) (sched s) (log s)).
Proof.
  intros w n. induction n as [|n IH]; intros s; cbn [repeat run].
  - rewrite Nat.add_0_r. destruct s; reflexivity.
  - cbn [step]. rewrite IH. cbn. rewrite Nat.add_succ_r. reflexivity.
Qed.

Definition rank (x : timer) : nat := match t_phase x with Waiting => 5 | Woken => 4 | Running None => 3 | Running (Some _) => 2 | Leaving => 1 | Over => 0 end.
Definition no_call (l : label) : Prop := forall a, l <> Call a.

Lemma advance : forall w s i x, nth_error (timers s) i = Some x -> t_phase x <> Over ->
  exists ls s' x', run w ls s = Some s' /\ Forall no_call ls /\ at_ s' = at_ s /\ timers s' = lset (timers s) i x' /\ rank x' < rank x.
Proof.
  intros w s i x N P. unfold rank. destruct (t_phase x) as [| |[b|]| |] eqn:E; [| | | | |congruence].
  - exists (repeat Tick (t_deadline x) ++ [Wake i]). rewrite run_app, ticks. cbn [run step timers now]. rewrite N, E.
    replace (t_deadline x <=? now s + t_deadline x) with true by (symmetry; apply Nat.leb_le; lia). rewrite orb_true_r.
    eexists _, (with_phase Woken x). split; [reflexivity|]. split; [|split; [reflexivity|split; [reflexivity|simpl; lia]]].
    apply Forall_app. split; [apply Forall_forall; intros l L; apply repeat_spec in L; subst l; intros a; discriminate|]. constructor; [intros a; discriminate|constructor].
  - exists [Test i]. cbn [run step]. rewrite N, E. destruct (t_fin x).
    + eexists _, (with_phase Over x). split; [reflexivity|]. split; [constructor; [intros a; discriminate|constructor]|]. split; [reflexivity|split; [reflexivity|simpl; lia]].
    + eexists _, (with_phase (Running None) x). split; [reflexivity|]. split; [constructor; [intros a; discriminate|constructor]|]. split; [reflexivity|split; [reflexivity|simpl; lia]].
  - exists [Leave i]. cbn [run step]. rewrite N, E.
    eexists _, (with_phase Leaving x). split; [reflexivity|]. split; [constructor; [intros a; discriminate|constructor]|]. split; [reflexivity|split; [reflexivity|simpl; lia]].
  - exists [Enter i]. cbn [run step]. rewrite N, E.
    eexists _, (with_phase (Running (Some (sched s))) x). split; [reflexivity|]. split; [constructor; [intros a; discriminate|constructor]|]. split; [reflexivity|split; [reflexivity|simpl; lia]].
  - exists [SetFinished i true]. cbn [run step]. rewrite N, E.
    eexists _, _. split; [reflexivity|]. split; [constructor; [intros a; discriminate|constructor]|]. split; [reflexivity|split; [reflexivity|simpl; lia]].
Qed.

Definition total (l : list timer) : nat := list_sum (map rank l).
Lemma total_lset : forall l i x x', nth_error l i = Some x -> rank x' < rank x -> total (lset l i x') < total l.
Proof.
  unfold total. induction l as [|y l IH]; intros [|i] x x' N R; simpl in *; try discriminate.
  - injection N as ->. lia.
  - specialize (IH i x x' N R). lia.
Qed.

Lemma come_to_rest : forall w n s, total (timers s) <= n -> at_ s = Idle ->
  exists ls s', run w ls s = Some s' /\ Forall no_call ls /\ quiet s'.
Proof.
  intros w. induction n as [|n IH]; intros s T M.
  - exists [], s. split; auto. split; [constructor|]. split; auto. intros i x N.
    assert (rank x = 0). { assert (rank x <= total (timers s)); [|lia]. clear - N. unfold total. revert i N. induction (timers s) as [|y l IH]; intros [|i] N; try discriminate; simpl in *; [injection N as ->; lia|]. specialize (IH i N). lia. }
    unfold rank in H. destruct (t_phase x) as [| |[b|]| |]; try discriminate. auto.
  - destruct (existsb (fun x => negb (rank x =? 0)) (timers s)) eqn:E.
    + apply existsb_exists in E. destruct E as (x & X & R). apply In_nth_error in X. destruct X as (i & N).
      assert (P : t_phase x <> Over). { intros P. unfold rank in R. rewrite P in R. discriminate. }
      destruct (advance w s i x N P) as (ls & s1 & x' & H & F & A & Ti & L).
      destruct (IH s1) as (ls2 & s2 & H2 & F2 & Q).
      * rewrite Ti. pose proof (total_lset _ _ _ _ N L). lia.
      * congruence.
      * exists (ls ++ ls2), s2. rewrite run_app, H. split; auto. split; auto. apply Forall_app. auto.
    + exists [], s. split; auto. split; [constructor|]. split; auto. intros i x N.
      destruct (rank x =? 0) eqn:R.
      * apply Nat.eqb_eq in R. unfold rank in R. destruct (t_phase x) as [| |[b|]| |]; try discriminate. auto.
      * exfalso. assert (existsb (fun x => negb (rank x =? 0)) (timers s) = true); [|congruence]. apply existsb_exists. exists x.
        split; [eapply nth_error_In; eauto|]. rewrite R. auto.
Qed.

Lemma deadline_run : forall w sc ls s i x, run w ls (init sc) = Some s -> nth_error (timers s) i = Some x -> w <= t_deadline x.
Proof.
  intros w sc ls s i x R N.
    assert (Q : forall ls s s', (forall i x, nth_error (timers s) i = Some x -> w <= t_deadline x) ->
      run w ls s = Some s' -> forall i x, nth_error (timers s') i = Some x -> w <= t_deadline x).
    { clear. intros ls. induction ls as [|l ls IH]; intros s s' H R; cbn [run] in R; [injection R as <-; auto|].
      destruct (step w l s) as [s1|] eqn:E; [|discriminate]. apply (IH s1); auto. clear IH R s'.
      assert (L : forall i x x', nth_error (timers s) i = Some x -> t_deadline x' = t_deadline x ->
        forall j y, nth_error (lset (timers s) i x') j = Some y -> w <= t_deadline y).
      { intros i x x' N D j y. rewrite (nth_set _ _ _ _ _ N). destruct (j =? i); [intros [= <-]; rewrite D; eauto|eauto]. }
      destruct l as [|a| | | |i|i|i|i|i ok]; cbn [step] in E.
      - injection E as <-. auto.
      - destruct (at_ s); try discriminate. destruct (current s); [destruct (nth_error _ _); [|discriminate]|]; injection E as <-; auto.
      - destruct (at_ s); try discriminate. destruct (current s) as [i|]; [|discriminate]. destruct (nth_error (timers s) i) as [x|] eqn:N; [|discriminate].
        injection E as <-. apply (L i x); auto.
      - destruct (at_ s); try discriminate. injection E as <-. cbn. intros j y. rewrite nth_error_snoc.
        destruct (j =? length (timers s)); [intros [= <-]; simpl; lia|eauto].
      - destruct (at_ s); try discriminate. injection E as <-. auto.
      - destruct (nth_error (timers s) i) as [x|] eqn:N; [|discriminate]. destruct (t_phase x); try discriminate. destruct (_ || _)%bool; [|discriminate].
        injection E as <-. apply (L i x); auto.
      - destruct (nth_error (timers s) i) as [x|] eqn:N; [|discriminate]. destruct (t_phase x); try discriminate. destruct (t_fin x);
        injection E as <-; apply (L i x); auto.
      - destruct (nth_error (timers s) i) as [x|] eqn:N; [|discriminate]. destruct (t_phase x) as [| |[b|]| |]; try discriminate.
        injection E as <-; apply (L i x); auto.
      - destruct (nth_error (timers s) i) as [x|] eqn:N; [|discriminate]. destruct (t_phase x) as [| |[b|]| |]; try discriminate.
        injection E as <-; apply (L i x); auto.
      - destruct (nth_error (timers s) i) as [x|] eqn:N; [|discriminate]. destruct (t_phase x) as [| |[b|]| |]; try discriminate.
        injection E as <-; apply (L i x); auto. }
    apply (Q ls (init sc) s) with (i := i); auto. intros [|j] z H; discriminate.
Qed.

(** To check the conditions on examples by computation. *)
Fixpoint promptb (w : nat) (ls : list label) (s : st) : bool :=
  match ls with
  | [] => true
  | l :: ls =>
      match step w l s with
      | Some s' =>
          (match l with
           | Return => match current s with
                       | Some i => match nth_error (timers s) i with Some x => now s <? t_deadline x | None => true end
                       | None => true end
           | _ => true end && promptb w ls s')%bool
      | None => true
      end
  end.
Lemma promptb_ok : forall w ls s, promptb w ls s = true -> prompt w ls s.
Proof.
  intros w ls. induction ls as [|l ls IH]; intros s H; cbn [promptb prompt] in *; auto. destruct (step w l s) as [s1|]; auto.
  apply andb_true_iff in H. destruct H as (A & B). split; auto. intros -> i x C N. rewrite C, N in A. apply Nat.ltb_lt. auto.
Qed.
Fixpoint separateb (w : nat) (ls : list label) (s : st) : bool :=
  match ls with
  | [] => true
  | l :: ls =>
      match step w l s with
      | Some s' =>
          (match l with
           | Enter _ => forallb (fun x => match t_phase x with Running (Some _) => false | _ => true end) (timers s)
           | _ => true end && separateb w ls s')%bool
      | None => true
      end
  end.
Lemma separateb_ok : forall w ls s, separateb w ls s = true -> separate w ls s.
Proof.
  intros w ls. induction ls as [|l ls IH]; intros s H; cbn [separateb separate] in *; auto. destruct (step w l s) as [s1|]; auto.
  apply andb_true_iff in H. destruct H as (A & B). split; auto. intros i -> j x N Z. rewrite forallb_forall in A.
  specialize (A x (nth_error_In _ _ N)). unfold busy in Z. destruct (t_phase x) as [| |[b|]| |]; auto. discriminate.
Qed.
