(** Lemmas about reactive rounds. *)
Require Import List Bool Arith Lia.
Import ListNotations.
Require Import Verif.Base Verif.Loops Verif.StoreModel Verif.StoreSpec Verif.StoreProofs
  Verif.RoundModel Verif.RoundSpec.

Lemma closure_cells_NoDup S f start incl parents l : closure_cells S f start incl parents = Ok l ->
  NoDup l /\ forall x, In x l -> known S x.
Proof.
  intros H. unfold closure_cells in H. apply rbind_Ok in H. destruct H as (C & R & H).
  destruct (ids_to_cells_spec _ _ _ _ H) as (A & B). split; [|intros x X; apply B in X; tauto].
  apply A. clear A B H. unfold raw_closure in R. apply rmap_Ok in R. destruct R as (c & R & <-).
  enough (NoDup c) by (destruct incl; [auto|unfold sdiff; now apply NoDup_filter]).
  destruct (parents || negb (s_pull S))%bool eqn:P.
  - apply rounds_push in R; auto. apply seeds_exact in R. tauto.
  - apply orb_false_iff in P. destruct P as [-> P]. apply negb_false_iff in P.
    destruct (rounds_pull _ _ P _ _ _ _ R) as (N & _); auto.
    + intros y. now rewrite In_supd_nil.
    + apply NoDup_supd. constructor.
Qed.

Lemma In_fresh done l x : In x (fresh done l) <-> In x l /\ ~ In x done.
Proof.
  unfold fresh. rewrite filter_In, negb_true_iff. split; intros (A & B); (split; [auto|]); now apply memb_nIn.
Qed.

Lemma batch_cells_spec f r m l : batch_cells f r m = Ok l ->
  (m_reactive m = true -> NoDup l) /\
  (forall x, In x l -> ~ In x (r_done r) /\ known (m_store m) x).
Proof.
  intros H. unfold batch_cells in H. apply rbind_Ok in H. destruct H as (c & Hc & H).
  destruct (m_reactive m).
  - apply rmap_Ok in H. destruct H as (l' & H & <-). apply closure_cells_NoDup in H. destruct H as [N K].
    split; [intros _; unfold fresh; now apply NoDup_filter|]. intros x. rewrite In_fresh. intros [A B]. auto.
  - injection H as <-. split; [discriminate|]. intros x. rewrite In_sort, filter_In, !andb_true_iff, negb_true_iff.
    intros (A & (B & C) & D). split; [now apply memb_nIn|]. unfold known, dhas in *.
    destruct (dget (s_cells (m_store m)) x); [|discriminate]. destruct (dget (s_order (m_store m)) x); [|discriminate].
    eauto.
Qed.

Lemma absorb_facts r m : r_deferred (absorb r m) = r_deferred r /\ incl (r_done r) (r_done (absorb r m)) /\
  (forall y, m_last m = Some y -> In y (r_done (absorb r m))).
Proof.
  split; [reflexivity|]. unfold absorb. cbn [r_done]. destruct (m_last m).
  - split; [intros y Y; apply In_sadd; auto|]. intros y [= <-]. apply In_sadd. auto.
  - split; [apply incl_refl|discriminate].
Qed.

(** What one message does in batch mode. *)
Lemma on_message_batch f r m r' a : on_message f r m = Ok (r', a) -> m_mode m = Batch -> r_deferred r = [] ->
  r_deferred r' = [] /\
  (a_closed a = false ->
     a_run a <> [] /\ incl (r_done r) (r_done r') /\ incl (a_run a) (r_done r') /\
     (forall x, In x (a_run a) -> ~ In x (r_done r) /\ known (m_store m) x) /\
     (m_reactive m = true -> NoDup (a_run a))).
Proof.
  intros H M D. unfold on_message in H. cbv zeta in H.
  destruct (absorb_facts r m) as (D' & I & _). revert H D' I. generalize (absorb r m). intros R H D' I.
  rewrite D', D, M in H. rewrite D in D'. destruct (m_error m).
  { injection H as <- <-. split; [exact D'|discriminate]. }
  apply rmap_Ok in H. destruct H as (l & H & E).
  destruct l as [|x l]; cbn [is_nil] in E.
  { injection E as <- <-. split; [exact D'|discriminate]. }
  injection E as <- <-. split; [reflexivity|]. intros _.
  apply batch_cells_spec in H. destruct H as [N K].
  cbn [a_run r_done]. change (supd (sadd x (r_done R)) l) with (supd (r_done R) (x :: l)).
  split; [discriminate|].
  split; [intros y Y; apply (proj2 (In_supd _ (x :: l) _)); left; apply I, Y|].
  split; [intros y Y; apply (proj2 (In_supd _ (x :: l) _)); right; exact Y|].
  split; [|auto]. intros y Y. destruct (K y Y) as [A B]. split; [|auto]. intros C. apply A. auto.
Qed.

Lemma run_round_batch f ms : forall r r' ls e, run_round f r ms = Ok (r', ls, e) ->
  (forall bm, In bm ms -> m_mode (snd bm) = Batch) -> r_deferred r = [] ->
  apart ls /\ (forall l, In l ls -> l <> []) /\
  (forall l x, In l ls -> In x l -> ~ In x (r_done r) /\ exists bm, In bm ms /\ known (m_store (snd bm)) x) /\
  ((forall bm, In bm ms -> m_reactive (snd bm) = true) -> forall l, In l ls -> NoDup l) /\
  (e = None -> length ls = length ms).
Proof.
  induction ms as [|(b & m) ms IH]; intros r r' ls e H M D; cbn [run_round] in H.
  { injection H as <- <- <-. simpl. split; [auto|]. split; [intros ? []|]. split; [intros ? ? []|].
    split; [intros _ ? []|auto]. }
  apply rbind_Ok in H. destruct H as ((r1 & a) & H1 & H2).
  assert (D1 : r_deferred (if b then on_finished r else r) = []) by (destruct b; auto).
  assert (E1 : r_done (if b then on_finished r else r) = r_done r) by (destruct b; auto).
  destruct (on_message_batch _ _ _ _ _ H1 (M _ (or_introl eq_refl)) D1) as (D2 & K).
  destruct (a_closed a).
  { injection H2 as <- <- <-. simpl. split; [auto|]. split; [intros ? []|]. split; [intros ? ? []|].
    split; [intros _ ? []|discriminate]. }
  apply rmap_Ok in H2. destruct H2 as (((r2 & ls2) & e2) & H2 & E). injection E as <- <- <-.
  destruct (K eq_refl) as (K1 & K2 & K3 & K4 & K5). rewrite E1 in *.
  destruct (IH _ _ _ _ H2 (fun bm I => M bm (or_intror I)) D2) as (A & B & C & F & G).
  split; [|split; [|split; [|split]]].
  - simpl. split; [|auto]. intros x X l' L' X'. destruct (C l' x L' X') as [N _]. apply N. auto.
  - intros l [<-|L]; auto.
  - intros l x [<-|L] X.
    + destruct (K4 x X) as [P Q]. split; [auto|]. exists (b, m). split; [left; auto|auto].
    + destruct (C l x L X) as (N & bm & I & Kn). split; [intros Y; apply N; auto|].
      exists bm. split; [right; auto|auto].
  - intros R l [<-|L]; [apply K5; exact (R _ (or_introl eq_refl))|]. apply F; auto. intros; apply R; right; auto.
  - intros E. simpl. f_equal. auto.
Qed.

Lemma apart_NoDup ls : apart ls -> (forall l, In l ls -> NoDup l) -> NoDup (concat ls).
Proof.
  induction ls as [|l ls IH]; intros A N; simpl; [constructor|]. destruct A as [A1 A2].
  assert (N1 : NoDup l) by (apply N; left; auto).
  assert (N2 : NoDup (concat ls)) by (apply IH; auto; intros; apply N; right; auto).
  clear IH N A2. induction l as [|x l IH]; simpl; [auto|]. inversion N1; subst. constructor.
  - rewrite in_app_iff, in_concat. intros [X|(l' & L & X)]; [auto|]. eapply A1; eauto. left; auto.
  - apply IH; auto. intros y Y. apply A1. right; auto.
Qed.

(** Disjoint non-empty lists over a set are no more than its elements. *)
Lemma apart_length ls U : apart ls -> (forall l, In l ls -> l <> []) ->
  (forall l x, In l ls -> In x l -> In x U) -> length ls <= length U.
Proof.
  intros A N I. set (hd := fun l => match l with [] => 0 | x :: _ => x end : nat).
  assert (K : NoDup (map hd ls)).
  { clear I. induction ls as [|l ls IH]; simpl; [constructor|]. destruct A as [A1 A2]. constructor.
    - intros X. apply in_map_iff in X. destruct X as (l' & E & L).
      assert (N1 : l <> []) by (apply N; left; auto). assert (N2 : l' <> []) by (apply N; right; auto).
      destruct l as [|x l]; [congruence|]. destruct l' as [|y l']; [congruence|]. simpl in E. subst y.
      eapply A1; eauto; left; auto.
    - apply IH; auto. intros; apply N; right; auto. }
  rewrite <- (map_length hd ls). apply NoDup_incl_length; auto.
  intros x X. apply in_map_iff in X. destruct X as (l & E & L). pose proof (N l L).
  destruct l as [|y l]; [congruence|]. simpl in E. subst. apply (I (x :: l)); [auto|left; auto].
Qed.

(** Incremental mode. *)
Lemma one_widget_spec r m p w p' stop : one_widget r m p w = (p', stop) ->
  p' = p \/ (p' = Some w /\ w_code w = true /\ ~ In (w_id w) (r_done r)).
Proof.
  unfold one_widget. destruct (w_code w) eqn:C; cbn [negb orb]; [|intros [= <- <-]; auto].
  destruct (memb (w_id w) (r_done r)) eqn:D; [intros [= <- <-]; auto|]. apply memb_nIn in D.
  destruct (_ && _)%bool; [intros [= <- <-]; auto|].
  destruct p as [q|]; [|intros [= <- <-]; auto].
  destruct (w_count w) as [n|]; [|intros [= <- <-]; auto].
  destruct (Nat.ltb n _); intros [= <- <-]; auto.
Qed.

Lemma pick_spec r m ws : forall seen p w, pick r m seen p ws = Some w ->
  p = Some w \/ (In w ws /\ w_code w = true /\ ~ In (w_id w) (r_done r)).
Proof.
  induction ws as [|v ws IH]; intros seen p w H; cbn [pick] in H; [auto|].
  destruct (negb seen && m_strict m)%bool.
  { apply IH in H. destruct H as [H|(A & B)]; [auto|]. right. split; [right; auto|auto]. }
  destruct (one_widget r m p v) as [p' stop] eqn:E. apply one_widget_spec in E.
  assert (K : p' = Some w -> p = Some w \/ (In w (v :: ws) /\ w_code w = true /\ ~ In (w_id w) (r_done r))).
  { intros ->. destruct E as [<-|(E & A & B)]; [auto|]. injection E as ->. right. split; [left; auto|auto]. }
  destruct stop; [auto|]. apply IH in H. destruct H as [H|(A & B)]; [auto|]. right. split; [right; auto|auto].
Qed.

Lemma on_message_incr f r m r' a : on_message f r m = Ok (r', a) -> m_mode m = Incremental -> r_deferred r = [] ->
  r_deferred r' = [] /\
  (a_closed a = false ->
     exists x, a_run a = [x] /\ has_widget m x /\ ~ In x (r_done r) /\ (forall y, m_last m = Some y -> x <> y) /\
       incl (r_done r) (r_done r') /\ (forall y, m_last m = Some y -> In y (r_done r'))).
Proof.
  intros H M D. unfold on_message in H. cbv zeta in H.
  destruct (absorb_facts r m) as (D' & I & L). revert H D' I L. generalize (absorb r m). intros R H D' I L.
  rewrite D', D, M in H. rewrite D in D'. destruct (m_error m).
  { injection H as <- <-. split; [exact D'|discriminate]. }
  destruct (pick R m false None (m_widgets m)) as [w|] eqn:P; injection H as <- <-.
  2:{ split; [exact D'|discriminate]. }
  split; [reflexivity|]. intros _. exists (w_id w). apply pick_spec in P.
  destruct P as [P|(A & B & C)]; [discriminate|]. cbn [a_run r_done].
  split; [auto|]. split; [exists w; auto|]. split; [auto|]. split; [|auto].
  intros y Y <-. apply C. auto.
Qed.

Lemma run_round_incr f ms : forall r r' ls e before, run_round f r ms = Ok (r', ls, e) ->
  (forall bm, In bm ms -> m_mode (snd bm) = Incremental) -> r_deferred r = [] -> truthful before ls ms ->
  NoDup (concat ls) /\
  (forall x, In x (concat ls) -> ~ In x (r_done r) /\ before <> Some x /\ exists bm, In bm ms /\ has_widget (snd bm) x) /\
  length (concat ls) = length ls /\ (e = None -> length ls = length ms).
Proof.
  induction ms as [|(b & m) ms IH]; intros r r' ls e before H M D T; cbn [run_round] in H.
  { injection H as <- <- <-. simpl. split; [constructor|]. split; [intros ? []|auto]. }
  apply rbind_Ok in H. destruct H as ((r1 & a) & H1 & H2).
  assert (D1 : r_deferred (if b then on_finished r else r) = []) by (destruct b; auto).
  assert (E1 : r_done (if b then on_finished r else r) = r_done r) by (destruct b; auto).
  destruct (on_message_incr _ _ _ _ _ H1 (M _ (or_introl eq_refl)) D1) as (D2 & K).
  destruct (a_closed a).
  { injection H2 as <- <- <-. simpl. split; [constructor|]. split; [intros ? []|]. split; [auto|discriminate]. }
  apply rmap_Ok in H2. destruct H2 as (((r2 & ls2) & e2) & H2 & E). injection E as <- <- <-.
  destruct (K eq_refl) as (x & K1 & K2 & K3 & K4 & K5 & K6). rewrite E1 in *. rewrite K1 in *.
  cbn [truthful] in T. destruct T as [T1 T2]. cbn [snd] in T1.
  destruct (IH _ _ _ _ (Some x) H2 (fun bm I => M bm (or_intror I)) D2 T2) as (A & B & C & G).
  simpl. split; [|split; [|split]].
  - constructor; [|auto]. intros X. destruct (B x X) as (_ & N & _). congruence.
  - intros y [<-|Y].
    + split; [auto|]. split; [|exists (b, m); split; [left; auto|auto]].
      intros E. apply (K4 _ (T1 _ E)). auto.
    + destruct (B y Y) as (P & Q & bm & I & W). split; [intros Z; apply P; auto|].
      split; [|exists bm; split; [right; auto|auto]]. intros E. apply P. apply K6. auto.
  - f_equal. auto.
  - intros E. f_equal. auto.
Qed.

Lemma on_message_closed f r m r' a : on_message f r m = Ok (r', a) -> a_closed a = true ->
  clear r' /\ a_run a = [] /\ a_cleanup a = (r_active r || m_reporting m || m_reactive m)%bool.
Proof.
  intros H C. unfold on_message in H. destruct (r_deferred (absorb r m)).
  2:{ apply rmap_Ok in H. destruct H as (l' & _ & E). injection E as <- <-. discriminate. }
  assert (K : close (absorb r m) = (r', a) -> clear r' /\ a_run a = [] /\ a_cleanup a = (r_active r || m_reporting m || m_reactive m)%bool).
  { intros E. injection E as <- <-. repeat split. }
  assert (K' : @Ok (round * action) (close (absorb r m)) = Ok (r', a) -> close (absorb r m) = (r', a)) by congruence.
  destruct (m_error m); [auto|]. destruct (m_mode m).
  - apply rmap_Ok in H. destruct H as (l & _ & E). destruct (is_nil l); [auto|]. injection E as <- <-. discriminate.
  - destruct (pick _ _ _ _ _); [injection H as <- <-; discriminate|auto].
  - injection H as <- <-. discriminate.
Qed.
