Require Import List ZArith Bool Arith Lia.
Import ListNotations.
Require Import Verif.Base Verif.SessionModel Verif.SessionSpec Verif.SessionProofs Verif.SessionInv
  Verif.SessionHist Verif.SessionRename Verif.SessionLog Verif.AttachModel Verif.AttachSpec.

Lemma exec_fresh s i s1 : Inv s None -> step s (EExec i None false) = Ok s1 ->
  no_parents_yet s1 (Some i) /\ ch s1 = ch s.
Proof.
  intros I H. pose proof (exec_inv s i None false s1 I ltac:(discriminate) H) as [I1 _].
  destruct (i_run _ _ I1 i eq_refl) as (u & c & C & Z). destruct I as [I _]. pose proof (i_wf _ _ I) as W.
  pose proof (wf_counter _ W) as CP.
  simpl in H. unfold create_and_track in H.
  assert (E1 : (counter s + 1 =? -1)%Z = false) by (apply Z.eqb_neq; lia). rewrite E1 in H. cbn [andb] in H.
  assert (L1 : (-1 <? counter s + 1)%Z = true) by (apply Z.ltb_lt; lia). rewrite L1 in H.
  destruct (match dget (cur s) i with None => _ | Some w => _ end) as [pc|e] eqn:P; [|discriminate].
  simpl in H. injection H as <-. split; auto. exists i, u, c. split; auto. split; auto.
  simpl in Z. rewrite zget_zset, Z.eqb_refl in Z. injection Z as <-. destruct C as [_ C]. simpl in C.
  rewrite nth_error_app2, Nat.sub_diag in C by lia. simpl in C. injection C as <-. auto.
Qed.

Lemma session_step s r e s' r' :
  session s r -> bracketed r e r' -> restricted s r e -> step s e = Ok s' -> session s' r'.
Proof. intros [l H] B R E. exists (l ++ [e]). eapply H_step; eauto. Qed.

Lemma untraced_ch s s' : step s EUntraced = Ok s' -> ch s' = ch s.
Proof.
  simpl. destruct (at_counter s (counter s)) as [u|]; [|discriminate]. simpl. unfold untraced_parents.
  destruct (obj s u) as [c|]; [|discriminate]. simpl. destruct (c_prev c) as [v|]; [|intros [= <-]; auto].
  destruct (obj s v); [|discriminate]. simpl. intros [= <-]. auto.
Qed.

Lemma agree s : session s None -> edges_agree s.
Proof.
  intros S x c p sym. apply session_inv in S. destruct S as [I _]. split.
  - apply (i_up _ _ I).
  - intros H. apply (i_down _ _ I) in H. destruct H as [H|[H _]]; [auto|discriminate].
Qed.

Lemma same_ch s s' : session s None -> session s' None -> ch s' = ch s -> same_edges s s'.
Proof.
  intros S S' E. assert (K : forall x p c sym, lists_child s' x p c sym <-> lists_child s x p c sym).
  { intros. unfold lists_child, children_of. rewrite E. reflexivity. }
  split; auto. intros. rewrite (agree _ S' x c p sym), (agree _ S x c p sym). apply K.
Qed.

Lemma untraced_items body : forall t t', rfold (do_item false) body t = Ok t' ->
  ss t' = ss t /\ said t' = said t /\ on t' = on_after (on t) body.
Proof.
  induction body as [|[x pu sym|b] body IH]; intros t t' H; simpl in H.
  - injection H as <-. auto.
  - apply IH in H. auto.
  - apply IH in H. simpl in H. auto.
Qed.

Lemma traced_items i body : forall t t', session (ss t) (Some i) -> rfold (do_item true) body t = Ok t' ->
  session (ss t') (Some i) /\ said t' = said t /\ on t' = on_after (on t) body.
Proof.
  induction body as [|[x pu sym|b] body IH]; intros t t' S H; cbn [rfold] in H.
  - injection H as <-. auto.
  - destruct (do_item true t (Uses x pu sym)) as [t1|] eqn:D; cbn [rbind] in H; [|discriminate].
    unfold do_item in D. destruct (at_counter (ss t) (counter (ss t))) as [u|] eqn:A; [|discriminate].
    cbn [rbind] in D. destruct (step (ss t) (EUse x u pu sym)) as [s1|] eqn:X; [|discriminate].
    cbn [rmap] in D. injection D as <-.
    assert (S1 : session s1 (Some i)).
    { eapply (session_step _ (Some i) (EUse x u pu sym)); [exact S|reflexivity| |exact X]. intros _.
      apply session_inv in S. destruct (i_run _ _ (proj1 S) i eq_refl) as (u' & v & C & Z).
      exists i, v. split; auto. apply at_counter_Ok in A. congruence. }
    destruct (IH (with_sess t s1) t' S1 H) as (P & Q & R). simpl in Q, R |- *. auto.
  - apply IH in H; auto.
Qed.

(** A run: what becomes of the session. *)
Lemma run_untraced i body t t' : session (ss t) None -> on t = false -> run i body t = Ok t' ->
  session (ss t') None /\ ch (ss t') = ch (ss t) /\ said t' = said t /\ on t' = on_after false body.
Proof.
  unfold run. intros S O H. destruct (step (ss t) (EExec i None false)) as [s1|] eqn:X; cbn [rbind] in H; [|discriminate].
  simpl on in H. rewrite O in H.
  destruct (exec_fresh _ _ _ (session_inv _ _ S) X) as [F C].
  assert (S1 : session s1 (Some i)) by (eapply (session_step _ None (EExec i None false)); [exact S|split; reflexivity|discriminate|exact X]).
  destruct (rfold (do_item false) body (with_sess t s1)) as [t1|] eqn:B; cbn [rbind] in H; [|discriminate].
  apply untraced_items in B. simpl in B. destruct B as (B1 & B2 & B3).
  unfold finish in H. destruct (step (ss t1) EUntraced) as [s2|] eqn:Y; cbn [rmap] in H; [|discriminate].
  injection H as <-. simpl. rewrite B1 in Y. split; [|split; [|split]].
  - eapply (session_step _ (Some i) EUntraced); [exact S1| |exact F|exact Y]. split; [discriminate|reflexivity].
  - rewrite (untraced_ch _ _ Y). exact C.
  - exact B2.
  - rewrite B3, O. reflexivity.
Qed.

Lemma run_traced i body t t' : session (ss t) None -> on t = true -> on_after true body = true ->
  run i body t = Ok t' -> session (ss t') None /\ on t' = true.
Proof.
  unfold run. intros S O L H. destruct (step (ss t) (EExec i None false)) as [s1|] eqn:X; cbn [rbind] in H; [|discriminate].
  simpl on in H. rewrite O in H.
  assert (S1 : session s1 (Some i)) by (eapply (session_step _ None (EExec i None false)); [exact S|split; reflexivity|discriminate|exact X]).
  destruct (rfold (do_item true) body (with_sess t s1)) as [t1|] eqn:B; cbn [rbind] in H; [|discriminate].
  apply (traced_items i) in B; [|exact S1]. simpl on in B. rewrite O in B. destruct B as (B1 & B2 & B3).
  rewrite L in B3. unfold finish in H. rewrite B3 in H.
  destruct (step (ss t1) (EFinish [])) as [s2|] eqn:Y; cbn [rmap] in H; [|discriminate].
  injection H as <-. simpl. split; auto.
  eapply (session_step _ (Some i) (EFinish [])); [exact B1| |exact Logic.I|exact Y]. split; [discriminate|reflexivity].
Qed.

Lemma off_stays body : ~ In (Turn true) body -> on_after false body = false.
Proof.
  induction body as [|[x pu sym|b] body IH]; simpl; intros N; auto.
  destruct b; [exfalso; auto|]. apply IH. tauto.
Qed.

Lemma debugging_acts l : Forall debugging l -> forall t t', session (ss t) None -> on t = false ->
  acts l t = Ok t' ->
  session (ss t') None /\ on t' = false /\ ch (ss t') = ch (ss t) /\
  exists n, said t' = repeat Refused n ++ said t.
Proof.
  induction 1 as [|a l D _ IH]; intros t t' S O H; cbn [acts rfold] in H.
  - injection H as <-. repeat split; auto. exists 0. auto.
  - destruct (act t a) as [t1|] eqn:A; cbn [rbind] in H; [|discriminate].
    assert (K : session (ss t1) None /\ on t1 = false /\ ch (ss t1) = ch (ss t) /\
      exists n, said t1 = repeat Refused n ++ said t).
    { destruct a as [| | |i body]; simpl in D, A; try contradiction.
      - injection A as <-. simpl. rewrite O. repeat split; auto. exists 1. auto.
      - injection A as <-. simpl. rewrite O. repeat split; auto. exists 1. auto.
      - destruct (run_untraced _ _ _ _ S O A) as (P & Q & R & T). rewrite (off_stays _ D) in T.
        repeat split; auto. exists 0. auto. }
    destruct K as (K1 & K2 & K3 & m & K4). destruct (IH _ _ K1 K2 H) as (P & Q & R & n & N).
    repeat split; auto; [congruence|]. exists (n + m). rewrite N, K4, repeat_app, app_assoc. auto.
Qed.

Lemma attached t l t' : session (ss t) None -> Forall debugging l -> acts (Attach :: l) t = Ok t' ->
  on t' = false /\ same_edges (ss t) (ss t') /\
  exists n, said t' = repeat Refused n ++ (if on t then Schedule else Refused) :: said t.
Proof.
  intros S D H. cbn [acts rfold act rbind] in H.
  destruct (debugging_acts l D (turn false (ask t)) t' S eq_refl H) as (P & Q & R & N).
  split; auto. split; [|exact N]. apply same_ch; auto.
Qed.

Lemma whole_acts l : forall t t', session (ss t) None -> whole_runs (on t) l -> acts l t = Ok t' ->
  session (ss t') None.
Proof.
  induction l as [|a l IH]; intros t t' S W H; cbn [acts rfold] in H.
  - injection H as <-. auto.
  - destruct (act t a) as [t1|] eqn:A; cbn [rbind] in H; [|discriminate]. destruct W as [W1 W2].
    assert (K : session (ss t1) None /\ on t1 = on_next (on t) a).
    { destruct a as [| | |i body]; simpl in A.
      1-3: injection A as <-; simpl; auto.
      destruct (on t) eqn:O.
      - specialize (W1 eq_refl). destruct (run_traced _ _ _ _ S O W1 A) as [P Q]. simpl. rewrite W1. auto.
      - destruct (run_untraced _ _ _ _ S O A) as (P & _ & _ & T). auto. }
    destruct K as [K1 K2]. rewrite <- K2 in W2. eauto.
Qed.
