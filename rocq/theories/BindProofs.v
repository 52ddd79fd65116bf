(** Proofs about the names that statements are recorded to bind. *)
From Coq Require Import List Arith Bool Lia.
From Verif Require Import Base BindModel BindSpec.
Import ListNotations.

(** * Evaluation *)

Definition dom_le (g g' : env) : Prop := forall x, dget g x <> None -> dget g' x <> None.

Lemma dset_dom (g : env) x v y : dget g y <> None -> dget (dset g x v) y <> None.
Proof. rewrite dget_dset. destruct (Nat.eqb y x); [discriminate|auto]. Qed.

(** Names bound are the targets of walked edges, and are bound afterwards; other names keep their
    values. *)
Lemma eval_facts I e : forall g v g' l, eval I e g = Some (v, g', l) ->
  (forall x, In x l -> In x (map fst (walk e)))
  /\ (forall x, In x l -> dget g' x <> None)
  /\ (forall x, ~ In x l -> dget g' x = dget g x).
Proof.
  induction e as [x|k|k a IHa b IHb|a IHa b IHb|c IHc a IHa b IHb|x e IH|k ds IHd body IHb];
    intros g v g' l H; cbn [eval] in H.
  - destruct (dget g x); inversion H; subst. repeat split; try (intros ? []); auto.
  - inversion H; subst. repeat split; try (intros ? []); auto.
  - destruct (eval I a g) as [[[va ga] la]|] eqn:Ea; [|discriminate].
    destruct (eval I b ga) as [[[vb gb] lb]|] eqn:Eb; [|discriminate].
    inversion H; subst. destruct (IHa _ _ _ _ Ea) as (A1 & A2 & A3).
    destruct (IHb _ _ _ _ Eb) as (B1 & B2 & B3). cbn [walk]. rewrite map_app.
    repeat split; intros y Hy.
    + apply in_app_iff in Hy as [Hy|Hy]; apply in_app_iff; auto.
    + apply in_app_iff in Hy as [Hy|Hy]; auto.
      destruct (in_dec Nat.eq_dec y lb); auto. rewrite B3; auto.
    + rewrite in_app_iff in Hy. rewrite B3, A3; tauto.
  - destruct (eval I a g) as [[[va ga] la]|] eqn:Ea; [|discriminate].
    destruct (IHa _ _ _ _ Ea) as (A1 & A2 & A3). cbn [walk]. rewrite map_app.
    destruct (va =? 0).
    { inversion H; subst. repeat split; auto. intros y Hy. apply in_app_iff; auto. }
    destruct (eval I b ga) as [[[vb gb] lb]|] eqn:Eb; [|discriminate].
    inversion H; subst. destruct (IHb _ _ _ _ Eb) as (B1 & B2 & B3).
    repeat split; intros y Hy.
    + apply in_app_iff in Hy as [Hy|Hy]; apply in_app_iff; auto.
    + apply in_app_iff in Hy as [Hy|Hy]; auto.
      destruct (in_dec Nat.eq_dec y lb); auto. rewrite B3; auto.
    + rewrite in_app_iff in Hy. rewrite B3, A3; tauto.
  - destruct (eval I c g) as [[[vc gc] lc]|] eqn:Ec; [|discriminate].
    destruct (IHc _ _ _ _ Ec) as (A1 & A2 & A3). cbn [walk]. rewrite !map_app.
    destruct (eval I (if vc =? 0 then b else a) gc) as [[[vb gb] lb]|] eqn:Eb; [|discriminate].
    inversion H; subst.
    assert (B : (forall x, In x lb -> In x (map fst (walk a)) \/ In x (map fst (walk b)))
      /\ (forall x, In x lb -> dget g' x <> None)
      /\ (forall x, ~ In x lb -> dget g' x = dget gc x)).
    { destruct (vc =? 0).
      - destruct (IHb _ _ _ _ Eb) as (B1 & B2 & B3); auto.
      - destruct (IHa _ _ _ _ Eb) as (B1 & B2 & B3); auto. }
    destruct B as (B1 & B2 & B3).
    repeat split; intros y Hy.
    + apply in_app_iff in Hy as [Hy|Hy]; rewrite !in_app_iff; auto.
    + apply in_app_iff in Hy as [Hy|Hy]; auto.
      destruct (in_dec Nat.eq_dec y lb); auto. rewrite B3; auto.
    + rewrite in_app_iff in Hy. rewrite B3, A3; tauto.
  - destruct (eval I e g) as [[[ve ge] le]|] eqn:Ee; [|discriminate].
    inversion H; subst. destruct (IH _ _ _ _ Ee) as (A1 & A2 & A3). cbn [walk map fst].
    repeat split; intros y Hy.
    + apply in_app_iff in Hy as [Hy|[<-|[]]]; [right; auto|now left].
    + rewrite dget_dset. destruct (Nat.eqb_spec y x); [discriminate|].
      apply in_app_iff in Hy as [Hy|[<-|[]]]; [auto|congruence].
    + rewrite in_app_iff in Hy. rewrite dget_dset. destruct (Nat.eqb_spec y x) as [->|_].
      * exfalso. apply Hy. right. now left.
      * apply A3. tauto.
  - destruct (eval I ds g) as [[[va ga] la]|] eqn:Ea; [|discriminate].
    inversion H; subst. destruct (IHd _ _ _ _ Ea) as (A1 & A2 & A3). cbn [walk]. rewrite map_app.
    repeat split; auto. intros y Hy. apply in_app_iff; auto.
Qed.

Lemma plain_walk e : plain e -> walk e = [].
Proof.
  induction e; cbn; intros H; auto; try tauto.
  - destruct H as [Ha Hb]. now rewrite IHe1, IHe2.
  - destruct H as [Ha Hb]. now rewrite IHe1, IHe2.
  - destruct H as (Ha & Hb & Hc). now rewrite IHe1, IHe2, IHe3.
  - destruct H as [Ha Hb]. now rewrite IHe1, IHe2.
Qed.

Lemma plain_named e : plain e -> named e = false.
Proof.
  induction e; cbn; intros H; auto; try tauto.
  - destruct H as [Ha Hb]. now rewrite IHe1, IHe2.
  - destruct H as [Ha Hb]. now rewrite IHe1, IHe2.
  - destruct H as (Ha & Hb & Hc). now rewrite IHe1, IHe2, IHe3.
  - destruct H as [Ha Hb]. now rewrite IHe1, IHe2.
Qed.

Lemma plain_targets e : plain e -> targets e = [].
Proof.
  induction e; cbn; intros H; auto; try tauto.
  - destruct H as [Ha Hb]. now rewrite IHe1, IHe2.
  - destruct H as [Ha Hb]. now rewrite IHe1, IHe2.
  - destruct H as (Ha & Hb & Hc). now rewrite IHe1, IHe2, IHe3.
Qed.

Lemma plain_eval I e g v g' l : plain e -> eval I e g = Some (v, g', l) -> l = [].
Proof.
  intros P E. destruct (eval_facts I e g v g' l E) as (A & _ & _).
  rewrite plain_walk in A by auto. destruct l as [|x l]; auto. destruct (A x); now left.
Qed.

Lemma named_walk e : walk e <> [] -> named e = true.
Proof.
  induction e; cbn; intros H; try congruence; auto.
  - destruct (walk e1) eqn:E1; [|rewrite IHe1 by discriminate; auto].
    rewrite IHe2 by auto. apply orb_true_r.
  - destruct (walk e1) eqn:E1; [|rewrite IHe1 by discriminate; auto].
    rewrite IHe2 by auto. apply orb_true_r.
  - destruct (walk e1) eqn:E1; [|rewrite IHe1 by discriminate; auto].
    destruct (walk e2) eqn:E2; [|rewrite IHe2 by discriminate; rewrite orb_true_r; auto].
    rewrite IHe3 by auto. now rewrite orb_true_r.
  - destruct (walk e1) eqn:E1; [|rewrite IHe1 by discriminate; auto].
    rewrite IHe2 by auto. apply orb_true_r.
Qed.

Lemma sure_bound I e : forall g v g' l, sure e -> eval I e g = Some (v, g', l) ->
  forall x, In x (map fst (walk e)) -> In x l.
Proof.
  induction e as [x|k|k a IHa b IHb|a IHa b IHb|c IHc a IHa b IHb|x e IH|k ds IHd body IHb];
    intros g v g' l S H y Hy; cbn [eval walk sure] in *; try (destruct Hy; fail).
  - destruct S as [Sa Sb].
    destruct (eval I a g) as [[[va ga] la]|] eqn:Ea; [|discriminate].
    destruct (eval I b ga) as [[[vb gb] lb]|] eqn:Eb; [|discriminate].
    inversion H; subst. rewrite map_app, in_app_iff in Hy. apply in_app_iff.
    destruct Hy as [Hy|Hy]; [left|right]; eauto.
  - destruct S as [Sa Sb]. rewrite (plain_walk b Sb), app_nil_r in Hy.
    destruct (eval I a g) as [[[va ga] la]|] eqn:Ea; [|discriminate].
    destruct (va =? 0).
    { inversion H; subst. eauto. }
    destruct (eval I b ga) as [[[vb gb] lb]|] eqn:Eb; [|discriminate].
    inversion H; subst. apply in_app_iff. left. eauto.
  - destruct S as (Sc & Sa & Sb). rewrite (plain_walk a Sa), (plain_walk b Sb), app_nil_r in Hy.
    destruct (eval I c g) as [[[vc gc] lc]|] eqn:Ec; [|discriminate].
    destruct (eval I (if vc =? 0 then b else a) gc) as [[[vb gb] lb]|] eqn:Eb; [|discriminate].
    inversion H; subst. apply in_app_iff. left. eauto.
  - destruct (eval I e g) as [[[ve ge] le]|] eqn:Ee; [|discriminate].
    inversion H; subst. apply in_app_iff. destruct Hy as [Hy|Hy]; cbn in *; [right; now left|left].
    eauto.
  - destruct S as [Sd Sb]. rewrite (plain_walk body Sb), app_nil_r in Hy.
    destruct (eval I ds g) as [[[va ga] la]|] eqn:Ea; [|discriminate].
    inversion H; subst. eauto.
Qed.

(** * Recording *)

Lemma upsert_get now ov t x ds y :
  dget (upsert now ov t x ds) y =
  if Nat.eqb y x then dget (upsert now ov t x ds) x else dget t y.
Proof.
  unfold upsert. rewrite dget_dset. destruct (Nat.eqb_spec y x) as [->|]; auto.
  now rewrite dget_dset_same.
Qed.

Lemma upsert_stamp now ov t x ds :
  exists r, dget (upsert now ov t x ds) x = Some r /\ stamp r = now.
Proof. unfold upsert. rewrite dget_dset_same. eexists. split; [reflexivity|reflexivity]. Qed.

(** Exactly the live targets of the edges are stamped; the rest of the table is as before. *)
Lemma record_all_facts now lv ov eds : forall t,
  (forall x, In x (map fst eds) -> lv x = true ->
     exists r, dget (record_all now lv ov eds t) x = Some r /\ stamp r = now)
  /\ (forall x, ~ (In x (map fst eds) /\ lv x = true) ->
     dget (record_all now lv ov eds t) x = dget t x).
Proof.
  unfold record_all. induction eds as [|[z n] eds IH]; intros t; cbn [fold_left map fst].
  - split; [intros x []|auto].
  - destruct (IH (record now lv ov t (z, n))) as [A B]. split.
    + intros x [->|Hx] L; [|auto].
      destruct (in_dec Nat.eq_dec x (map fst eds)) as [H|H]; [auto|].
      rewrite B by tauto. cbn. rewrite L. apply upsert_stamp.
    + intros x Hx. cbn [In] in Hx. rewrite B by tauto. cbn. destruct (lv z) eqn:L; auto.
      rewrite upsert_get. destruct (Nat.eqb_spec x z) as [->|]; auto.
      exfalso. apply Hx. auto.
Qed.

(** The edges that [finish] goes through. *)
Definition used_edges (s : stmt) : list edge :=
  match s with
  | SAssign xs e => map (fun x => (x, NExpr e)) xs
  | SFor x e _ => [(x, NExpr e)]
  | SDef _ _ _ _ | SClass _ _ _ _ _ => if length (edges s) =? 1 then edges s else []
  | _ => edges s
  end.

Definition overwrites (s : stmt) : bool := match s with SAug _ _ _ => false | _ => true end.

Definition not_block (s : stmt) : Prop :=
  match s with SSkip | SSeq _ _ | SWhile _ _ => False | _ => True end.

Lemma walk_expr_lval e (b : bool) : (b = false -> named e = false) -> b = false -> walk e = [].
Proof.
  intros H B. specialize (H B). destruct (walk e) eqn:E; auto.
  assert (named e = true) by (apply named_walk; rewrite E; discriminate). congruence.
Qed.

Lemma finish_record now lv s t : not_block s ->
  finish now lv s t = record_all now lv (overwrites s) (used_edges s) t.
Proof.
  intros N. unfold finish.
  destruct s; cbn in N; try tauto; cbn [contains_lval make_lvals make_old overwrites used_edges];
    try reflexivity.
  - cbn [named_stmt]. destruct (named e) eqn:E; auto. unfold edges. cbn.
    now rewrite (walk_expr_lval e false).
  - cbn [named_stmt]. destruct (named e || named_stmt s1 || named_stmt s2) eqn:E; auto.
    unfold edges. cbn. rewrite (walk_expr_lval e false); auto.
    apply orb_false_iff in E as [E _]. apply orb_false_iff in E as [E _]. now intros _.
  - destruct (length (edges (SDef x k ds dec)) =? 1); reflexivity.
  - destruct (length (edges (SClass x k bases kws dec)) =? 1); reflexivity.
Qed.

Lemma In_edges s x : In x (map fst (edges s)) <-> In x (map fst (walk_stmt s)).
Proof. unfold edges. rewrite map_rev. symmetry. apply in_rev. Qed.

Lemma map_pair_fst (n : node) xs : map fst (map (fun x : nat => (x, n)) xs) = xs.
Proof. induction xs; cbn; congruence. Qed.

Lemma bind_all_get xs v : forall g x,
  dget (bind_all xs v g) x = if memb x xs then Some v else dget g x.
Proof.
  unfold bind_all. induction xs as [|y xs IH]; intros g x; cbn [fold_left]; [reflexivity|].
  rewrite IH, dget_dset. cbn [memb existsb]. fold (memb x xs).
  destruct (memb x xs); [now rewrite orb_true_r|]. now rewrite orb_false_r.
Qed.

(** The head of a statement: what it binds. *)
Lemma head_facts I s g g' l : not_block s -> seen s -> head I s g = Some (g', l) ->
  (forall x, In x l -> In x (map fst (used_edges s)))
  /\ (forall x, In x l -> dget g' x <> None)
  /\ (forall x, ~ In x l -> dget g' x = dget g x)
  /\ (firm s -> forall x, In x (map fst (used_edges s)) -> In x l).
Proof.
  intros N S H. destruct s; cbn in N; try tauto; cbn [head seen used_edges firm] in *.
  - (* SExpr *)
    destruct (eval I e g) as [[[v ge] le]|] eqn:E; [|discriminate]. inversion H; subst.
    destruct (eval_facts I e g v g' l E) as (A1 & A2 & A3).
    split; [intros x Hx; apply In_edges, A1, Hx|]. split; [auto|]. split; [auto|].
    intros F x Hx. rewrite In_edges in Hx. eapply sure_bound; eauto.
  - (* SAssign *)
    destruct (eval I e g) as [[[v ge] le]|] eqn:E; [|discriminate]. inversion H; subst.
    pose proof (plain_eval I e g v ge le S E) as ->. cbn [app] in *.
    destruct (eval_facts I e g v ge [] E) as (_ & _ & A3). rewrite map_pair_fst.
    split; [auto|]. split; [|split; [|auto]]; intros x Hx; rewrite bind_all_get.
    + apply memb_In in Hx. rewrite Hx. discriminate.
    + apply memb_nIn in Hx. rewrite Hx. apply A3. intros [].
  - (* SAug *)
    destruct (dget g x) as [u|] eqn:G; [|discriminate].
    destruct (eval I e g) as [[[v ge] le]|] eqn:E; [|discriminate]. inversion H; subst.
    destruct (eval_facts I e g v ge le E) as (A1 & A2 & A3).
    split; [|split; [|split]].
    + intros y Hy. apply In_edges. cbn. apply in_app_iff in Hy as [Hy|[<-|[]]]; auto.
    + intros y Hy. rewrite dget_dset. destruct (Nat.eqb_spec y x); [discriminate|].
      apply in_app_iff in Hy as [Hy|[<-|[]]]; [auto|congruence].
    + intros y Hy. rewrite dget_dset. rewrite in_app_iff in Hy.
      destruct (Nat.eqb_spec y x) as [->|]; [exfalso; apply Hy; right; now left|]. apply A3. tauto.
    + intros F y Hy. rewrite In_edges in Hy. cbn in Hy. apply in_app_iff.
      destruct Hy as [<-|Hy]; [right; now left|left]. eapply sure_bound; eauto.
  - (* SAnn *)
    destruct o as [e|].
    + destruct (eval I e g) as [[[v ge] le]|] eqn:E; [|discriminate].
      destruct (eval I ann (dset ge x v)) as [[[w ga] la]|] eqn:Ea; [|discriminate].
      inversion H; subst.
      pose proof (plain_eval _ _ _ _ _ _ S Ea) as ->. cbn [app] in *.
      destruct (eval_facts I e g v ge le E) as (A1 & A2 & A3).
      destruct (eval_facts _ _ _ _ _ _ Ea) as (_ & _ & B3).
      assert (forall y, dget g' y = dget (dset ge x v) y) as B by (intros y; apply B3; intros []).
      split; [|split; [|split]].
      * intros y Hy. apply In_edges. cbn. apply in_app_iff in Hy as [Hy|[<-|[]]]; auto.
      * intros y Hy. rewrite B, dget_dset. destruct (Nat.eqb_spec y x); [discriminate|].
        apply in_app_iff in Hy as [Hy|[<-|[]]]; [auto|congruence].
      * intros y Hy. rewrite B, dget_dset. rewrite in_app_iff in Hy.
        destruct (Nat.eqb_spec y x) as [->|]; [exfalso; apply Hy; right; now left|]. apply A3. tauto.
      * intros [_ F] y Hy. rewrite In_edges in Hy. cbn in Hy. apply in_app_iff.
        destruct Hy as [<-|Hy]; [right; now left|left]. eapply sure_bound; eauto.
    + destruct (eval I ann g) as [[[v ge] le]|] eqn:E; [|discriminate]. inversion H; subst.
      pose proof (plain_eval _ _ _ _ _ _ S E) as ->.
      destruct (eval_facts _ _ _ _ _ _ E) as (_ & _ & A3).
      split; [intros y []|]. split; [intros y []|]. split; [auto|tauto].
  - (* SFor *)
    destruct S as [S _].
    destruct (eval I e g) as [[[v ge] le]|] eqn:E; [|discriminate]. inversion H; subst.
    pose proof (plain_eval _ _ _ _ _ _ S E) as ->. cbn [app map fst].
    destruct (eval_facts _ _ _ _ _ _ E) as (_ & _ & A3).
    split; [auto|]. split; [|split; [|auto]]; intros y Hy; rewrite dget_dset.
    + destruct Hy as [<-|[]]. rewrite Nat.eqb_refl. discriminate.
    + destruct (Nat.eqb_spec y x) as [->|]; [exfalso; apply Hy; now left|]. apply A3. intros [].
  - (* SIf *)
    destruct (eval I e g) as [[[v ge] le]|] eqn:E; [|discriminate]. inversion H; subst.
    destruct (eval_facts I e g v g' l E) as (A1 & A2 & A3).
    split; [intros x Hx; apply In_edges, A1, Hx|]. split; [auto|]. split; [auto|].
    intros (F & _) x Hx. rewrite In_edges in Hx. eapply sure_bound; eauto.
  - (* SWith *)
    destruct S as [S _]. destruct o as [x|].
    + destruct (eval I e g) as [[[v ge] le]|] eqn:E; [|discriminate]. inversion H; subst.
      pose proof (plain_eval _ _ _ _ _ _ S E) as ->. cbn [app].
      destruct (eval_facts _ _ _ _ _ _ E) as (_ & _ & A3).
      split; [auto|]. split; [|split; [|auto]]; intros y Hy; rewrite dget_dset.
      * destruct Hy as [<-|[]]. rewrite Nat.eqb_refl. discriminate.
      * destruct (Nat.eqb_spec y x) as [->|]; [exfalso; apply Hy; now left|]. apply A3. intros [].
    + destruct (eval I e g) as [[[v ge] le]|] eqn:E; [|discriminate]. inversion H; subst.
      pose proof (plain_eval _ _ _ _ _ _ S E) as ->.
      destruct (eval_facts _ _ _ _ _ _ E) as (_ & _ & A3).
      split; [intros y []|]. split; [intros y []|]. split; [auto|auto].
  - (* SDef *)
    destruct S as [Sd Sc].
    destruct (eval I dec g) as [[[v g1] l1]|] eqn:E1; [|discriminate].
    destruct (eval I ds g1) as [[[w g2] l2]|] eqn:E2; [|discriminate]. inversion H; subst.
    pose proof (plain_eval _ _ _ _ _ _ Sc E1) as ->.
    pose proof (plain_eval _ _ _ _ _ _ Sd E2) as ->. cbn [app].
    destruct (eval_facts _ _ _ _ _ _ E1) as (_ & _ & A3).
    destruct (eval_facts _ _ _ _ _ _ E2) as (_ & _ & B3).
    assert (edges (SDef x k ds dec) = [(x, NDef ds dec)]) as ->.
    { unfold edges. cbn. now rewrite (plain_walk ds Sd), (plain_walk dec Sc). }
    cbn [length Nat.eqb map fst].
    split; [auto|]. split; [|split; [|auto]]; intros y Hy; rewrite dget_dset.
    + destruct Hy as [<-|[]]. rewrite Nat.eqb_refl. discriminate.
    + destruct (Nat.eqb_spec y x) as [->|]; [exfalso; apply Hy; now left|].
      rewrite B3, A3; auto.
  - (* SClass *)
    destruct S as (Sb & Sk & Sc).
    destruct (eval I dec g) as [[[v g1] l1]|] eqn:E1; [|discriminate].
    destruct (eval I bases g1) as [[[w g2] l2]|] eqn:E2; [|discriminate].
    destruct (eval I kws g2) as [[[u g3] l3]|] eqn:E3; [|discriminate]. inversion H; subst.
    pose proof (plain_eval _ _ _ _ _ _ Sc E1) as ->.
    pose proof (plain_eval _ _ _ _ _ _ Sb E2) as ->.
    pose proof (plain_eval _ _ _ _ _ _ Sk E3) as ->. cbn [app].
    destruct (eval_facts _ _ _ _ _ _ E1) as (_ & _ & A3).
    destruct (eval_facts _ _ _ _ _ _ E2) as (_ & _ & B3).
    destruct (eval_facts _ _ _ _ _ _ E3) as (_ & _ & C3).
    assert (edges (SClass x k bases kws dec) = [(x, NClass bases dec)]) as ->.
    { unfold edges. cbn. now rewrite (plain_walk bases Sb), (plain_walk dec Sc). }
    cbn [length Nat.eqb map fst].
    split; [auto|]. split; [|split; [|auto]]; intros y Hy; rewrite dget_dset.
    + destruct Hy as [<-|[]]. rewrite Nat.eqb_refl. discriminate.
    + destruct (Nat.eqb_spec y x) as [->|]; [exfalso; apply Hy; now left|].
      rewrite C3, B3, A3; auto.
  - (* SImport *)
    inversion H; subst.
    split; [auto|]. split; [|split; [|auto]]; intros y Hy; rewrite dget_dset.
    + destruct Hy as [<-|[]]. rewrite Nat.eqb_refl. discriminate.
    + destruct (Nat.eqb_spec y x) as [->|]; [exfalso; apply Hy; now left|]. auto.
Qed.

Lemma firm_seen s : firm s -> seen s.
Proof.
  induction s; cbn; try tauto. destruct o; tauto.
Qed.

Lemma live_true g x : live g x = true <-> dget g x <> None.
Proof. unfold live. destruct (dget g x); split; congruence. Qed.

(** * Runs *)

(** A recorded head, seen from the table: the bound names are stamped, what was there stays there with
    its stamp or the new one; and nothing else changes if the statement is firm. *)
Definition step_ok (firmly : Prop) (now : nat) (t t' : dict sym) (g g' : env) (l : list nat) : Prop :=
  (forall x, In x l -> exists r, dget t' x = Some r /\ stamp r = now)
  /\ (forall x, In x l -> dget g' x <> None)
  /\ (forall x, ~ In x l -> dget g' x <> None <-> dget g x <> None)
  /\ (forall x r, dget t x = Some r -> exists r', dget t' x = Some r' /\ (stamp r' = stamp r \/ stamp r' = now))
  /\ (firmly -> forall x, ~ In x l -> dget t' x = dget t x).

Lemma step_head I now s g g' l t : not_block s -> seen s -> head I s g = Some (g', l) ->
  step_ok (firm s) now t (finish now (live g') s t) g g' l.
Proof.
  intros N S H. destruct (head_facts I s g g' l N S H) as (A & B & C & D).
  rewrite finish_record by auto.
  destruct (record_all_facts now (live g') (overwrites s) (used_edges s) t) as [R1 R2].
  split; [|split; [|split; [|split]]].
  - intros x Hx. apply R1; auto. apply live_true; auto.
  - auto.
  - intros x Hx. rewrite C; tauto.
  - intros x r Hr.
    destruct (in_dec Nat.eq_dec x (map fst (used_edges s))) as [i|i].
    + destruct (live g' x) eqn:L.
      * destruct (R1 x i L) as (r' & E & St). exists r'. auto.
      * exists r. rewrite R2; [auto|]. intros [_ K]. congruence.
    + exists r. rewrite R2; [auto|]. tauto.
  - intros F x Hx. apply R2. intros [K _]. apply Hx, D; auto.
Qed.

Lemma step_trans P Q now t1 t2 t3 g1 g2 g3 l1 l2 :
  step_ok P now t1 t2 g1 g2 l1 -> step_ok Q now t2 t3 g2 g3 l2 ->
  step_ok (P /\ Q) now t1 t3 g1 g3 (l1 ++ l2).
Proof.
  intros (A1 & A2 & A3 & A4 & A5) (B1 & B2 & B3 & B4 & B5).
  split; [|split; [|split; [|split]]].
  - intros x Hx. apply in_app_iff in Hx as [Hx|Hx]; [|auto].
    destruct (A1 x Hx) as (r & E & St). destruct (B4 x r E) as (r' & E' & [K|K]); exists r'; split; congruence.
  - intros x Hx. destruct (in_dec Nat.eq_dec x l2) as [i|i]; [auto|].
    apply in_app_iff in Hx as [Hx|Hx]; [|auto]. apply B3; auto.
  - intros x Hx. rewrite in_app_iff in Hx. rewrite B3, A3; tauto.
  - intros x r Hr. destruct (A4 x r Hr) as (r' & E & K). destruct (B4 x r' E) as (r'' & E' & K').
    exists r''. split; auto. destruct K', K; try (right; congruence); left; congruence.
  - intros [p q] x Hx. rewrite in_app_iff in Hx. rewrite B5, A5; tauto.
Qed.

Lemma step_weaken (P Q : Prop) now t t' g g' l :
  (Q -> P) -> step_ok P now t t' g g' l -> step_ok Q now t t' g g' l.
Proof. intros H (A1 & A2 & A3 & A4 & A5). repeat split; auto; try apply A3; auto. Qed.

Lemma step_refl P now t g : step_ok P now t t g g [].
Proof.
  split; [intros x []|]. split; [intros x []|]. split; [tauto|]. split; [|auto].
  intros x r H. exists r. auto.
Qed.

Lemma run_step I now s : forall g t g' t' l, seen s -> run I now s g t = Some (g', t', l) ->
  step_ok (firm s) now t t' g g' l.
Proof.
  induction s as [|a IHa b IHb|e|xs e|x k e|x ann o|x e body IH|e a IHa b IHb|e body IH|e o body IH
                 |x k ds dec|x k bases kws dec|x m]; intros g t g' t' l S H; cbn [run] in H.
  - inversion H; subst. apply step_refl.
  - destruct S as [Sa Sb].
    destruct (run I now a g t) as [[[g1 t1] l1]|] eqn:Ea; [|discriminate].
    destruct (run I now b g1 t1) as [[[g2 t2] l2]|] eqn:Eb; [|discriminate].
    inversion H; subst. cbn [firm]. eapply step_trans; eauto.
  - destruct (head I (SExpr e) g) as [[g1 l1]|] eqn:E; [|discriminate]. inversion H; subst.
    apply (step_head I now (SExpr e)); solve [auto|exact Logic.I].
  - destruct (head I (SAssign xs e) g) as [[g1 l1]|] eqn:E; [|discriminate]. inversion H; subst.
    apply (step_head I now (SAssign xs e)); solve [auto|exact Logic.I].
  - destruct (head I (SAug x k e) g) as [[g1 l1]|] eqn:E; [|discriminate]. inversion H; subst.
    apply (step_head I now (SAug x k e)); solve [auto|exact Logic.I].
  - destruct (head I (SAnn x ann o) g) as [[g1 l1]|] eqn:E; [|discriminate]. inversion H; subst.
    apply (step_head I now (SAnn x ann o)); solve [auto|exact Logic.I].
  - destruct (head I (SFor x e body) g) as [[g1 l1]|] eqn:E; [|discriminate].
    destruct (run I now body g1 _) as [[[g2 t2] l2]|] eqn:Eb; [|discriminate]. inversion H; subst.
    eapply step_weaken; [|eapply step_trans; [apply (step_head I now (SFor x e body)); eauto; exact Logic.I|
                                              apply IH; [apply S|exact Eb]]].
    cbn. tauto.
  - destruct (eval I e g) as [[[v g1] l1]|] eqn:E; [|discriminate].
    destruct (run I now (if v =? 0 then b else a) g1 _) as [[[g2 t2] l2]|] eqn:Eb; [|discriminate].
    inversion H; subst.
    assert (head I (SIf e a b) g = Some (g1, l1)) as Hh by (cbn; now rewrite E).
    pose proof (step_head I now (SIf e a b) g g1 l1 t Logic.I S Hh) as St.
    eapply step_weaken; [|eapply step_trans; [exact St|]].
    2: { instantiate (1 := firm (if v =? 0 then b else a)).
         destruct (v =? 0); [eapply IHb|eapply IHa]; eauto; apply S. }
    cbn. destruct (v =? 0); tauto.
  - destruct S.
  - destruct (head I (SWith e o body) g) as [[g1 l1]|] eqn:E; [|discriminate].
    destruct (run I now body g1 _) as [[[g2 t2] l2]|] eqn:Eb; [|discriminate]. inversion H; subst.
    eapply step_weaken; [|eapply step_trans; [apply (step_head I now (SWith e o body)); eauto; exact Logic.I|
                                              apply IH; [apply S|exact Eb]]].
    cbn. tauto.
  - destruct (head I (SDef x k ds dec) g) as [[g1 l1]|] eqn:E; [|discriminate]. inversion H; subst.
    apply (step_head I now (SDef x k ds dec)); solve [auto|exact Logic.I].
  - destruct (head I (SClass x k bases kws dec) g) as [[g1 l1]|] eqn:E; [|discriminate]. inversion H; subst.
    apply (step_head I now (SClass x k bases kws dec)); solve [auto|exact Logic.I].
  - destruct (head I (SImport x m) g) as [[g1 l1]|] eqn:E; [|discriminate]. inversion H; subst.
    apply (step_head I now (SImport x m)); solve [auto|exact Logic.I].
Qed.

(** * Sessions *)

Definition good (g : env) (t : dict sym) (log : list (nat * nat)) (now : nat) : Prop :=
  (forall i x, In (i, x) log -> i < now)
  /\ (forall x, dget g x <> None <-> exists i, In (i, x) log)
  /\ (forall i x, In (i, x) log -> exists r, dget t x = Some r /\ i <= stamp r < now).

Definition exact (t : dict sym) (log : list (nat * nat)) : Prop :=
  forall x r, dget t x = Some r -> In (stamp r, x) log.

Lemma In_map_pair (i now x : nat) (l : list nat) : In (i, x) (map (pair now) l) <-> i = now /\ In x l.
Proof.
  rewrite in_map_iff. split.
  - intros (y & E & H). inversion E; subst. auto.
  - intros [-> H]. exists x. auto.
Qed.

Lemma session_good I ss : forall now g t g' t' l log,
  Forall seen ss -> good g t log now -> session I now ss g t = Some (g', t', l) ->
  (exists n, good g' t' (log ++ l) n)
  /\ (Forall firm ss -> exact t log -> exact t' (log ++ l)).
Proof.
  induction ss as [|s ss IH]; intros now g t g' t' l log S G H; cbn [session] in H.
  - inversion H; subst. rewrite app_nil_r. split; eauto.
  - inversion S; subst.
    destruct (run I now s g t) as [[[g1 t1] l1]|] eqn:E1; [|discriminate].
    destruct (session I (Datatypes.S now) ss g1 t1) as [[[g2 t2] l2]|] eqn:E2; [|discriminate].
    inversion H; subst.
    destruct (run_step I now s g t g1 t1 l1 H2 E1) as (A1 & A2 & A3 & A4 & A5).
    destruct G as (G1 & G2 & G3).
    assert (good g1 t1 (log ++ map (pair now) l1) (Datatypes.S now)) as G'.
    { split; [|split].
      - intros i x Hi. apply in_app_iff in Hi as [Hi|Hi]; [apply G1 in Hi; lia|].
        apply In_map_pair in Hi as [-> _]. lia.
      - intros x. destruct (in_dec Nat.eq_dec x l1) as [i|i].
        + split; [|auto]. intros _. exists now. apply in_app_iff. right. now apply In_map_pair.
        + rewrite A3 by auto. rewrite G2. split; intros [j Hj]; exists j.
          * apply in_app_iff. now left.
          * apply in_app_iff in Hj as [Hj|Hj]; auto. apply In_map_pair in Hj. tauto.
      - intros i x Hi. apply in_app_iff in Hi as [Hi|Hi].
        + destruct (G3 i x Hi) as (r & Er & Hr). destruct (A4 x r Er) as (r' & Er' & [K|K]);
            exists r'; (split; [auto|lia]).
        + apply In_map_pair in Hi as [-> Hi]. destruct (A1 x Hi) as (r & Er & <-).
          exists r. split; [auto|lia]. }
    destruct (IH _ _ _ _ _ _ _ H3 G' E2) as [K1 K2]. rewrite app_assoc. split; [auto|].
    intros F X. inversion F; subst. apply K2; auto.
    intros x r Hr. apply in_app_iff.
    destruct (in_dec Nat.eq_dec x l1) as [i|i].
    + right. destruct (A1 x i) as (r' & Er & Es). rewrite Er in Hr. inversion Hr; subst.
      now apply In_map_pair.
    + left. rewrite A5 in Hr by auto. apply X. auto.
Qed.

(** * What is recorded for a name *)

Lemma sure_targets e : sure e -> map fst (walk e) = targets e.
Proof.
  induction e as [x|k|k a IHa b IHb|a IHa b IHb|c IHc a IHa b IHb|x e IH|k ds IHd body IHb];
    cbn [sure walk targets map fst]; intros S; auto.
  - destruct S. rewrite map_app, IHa, IHb; auto.
  - destruct S as [Sa Sb]. rewrite map_app, IHa, (plain_walk b), (plain_targets b); auto.
  - destruct S as (Sc & Sa & Sb).
    rewrite (plain_walk a), (plain_walk b), (plain_targets a), (plain_targets b); auto.
    rewrite map_app, IHc; auto.
  - now rewrite IH.
  - destruct S as [Sd Sb]. rewrite (plain_walk body), app_nil_r; auto.
Qed.

Lemma plain_sets e x d : plain e -> ~ sets_in e x d.
Proof.
  induction e; cbn; intros P H; try tauto.
Qed.

Ltac nope := exfalso; match goal with P : plain ?e, H : sets_in ?e ?x ?d |- _ => exact (plain_sets e x d P H) end.

Lemma plain_sure e : plain e -> sure e.
Proof. induction e; cbn; tauto. Qed.

Lemma sets_in_targets e x d : sets_in e x d -> In x (targets e).
Proof.
  induction e; cbn; intros H; rewrite ?in_app_iff; try tauto.
  destruct H as [[-> _]|H]; auto.
Qed.

Lemma walk_split e : forall x d, sure e -> sets_in e x d ->
  exists l1 l2, walk e = l1 ++ (x, NExpr d) :: walk d ++ l2.
Proof.
  induction e as [y|k|k a IHa b IHb|a IHa b IHb|c IHc a IHa b IHb|y e IH|k ds IHd body IHb];
    cbn [sure walk sets_in]; intros x d S H; try tauto.
  - destruct S as [Sa Sb]. destruct H as [H|H].
    + destruct (IHa x d Sa H) as (l1 & l2 & ->). exists l1, (l2 ++ walk b).
      rewrite <- app_assoc. cbn. now rewrite <- app_assoc.
    + destruct (IHb x d Sb H) as (l1 & l2 & ->). exists (walk a ++ l1), l2. now rewrite app_assoc.
  - destruct S as [Sa Sb]. destruct H as [H|H]; [|nope].
    destruct (IHa x d Sa H) as (l1 & l2 & ->). exists l1, (l2 ++ walk b).
    rewrite <- app_assoc. cbn. now rewrite <- app_assoc.
  - destruct S as (Sc & Sa & Sb).
    destruct H as [H|[H|H]]; [|destruct (plain_sets a x d Sa H)|destruct (plain_sets b x d Sb H)].
    destruct (IHc x d Sc H) as (l1 & l2 & ->). exists l1, (l2 ++ walk a ++ walk b).
    rewrite <- app_assoc. cbn. now rewrite <- app_assoc.
  - destruct H as [[-> ->]|H].
    + exists [], []. cbn. now rewrite app_nil_r.
    + destruct (IH x d S H) as (l1 & l2 & E). exists ((y, NExpr e) :: l1), l2. now rewrite E.
  - destruct S as [Sd Sb]. destruct (IHd x d Sd H) as (l1 & l2 & ->). exists l1, (l2 ++ walk body).
    rewrite <- app_assoc. cbn. now rewrite <- app_assoc.
Qed.

Lemma names_mentions e x : no_lambda e -> In x (names e) <-> mentions e x.
Proof.
  induction e; cbn; intros N; rewrite ?in_app_iff; try tauto.
  - split; [intros [->|[]]; auto|intros ->; auto].
  - rewrite IHe by auto. split; (intros [->|H]; [now left|right; auto]).
Qed.

Lemma no_lambda_sets e x d : no_lambda e -> sets_in e x d -> no_lambda d.
Proof.
  induction e; cbn; intros N H; try tauto.
  destruct H as [[_ ->]|H]; auto.
Qed.

Lemma sets_in_sub e x d y c : sets_in e x d -> sets_in d y c -> sets_in e y c.
Proof.
  induction e; cbn; intros H K; try tauto.
  destruct H as [[_ ->]|H]; auto.
Qed.

(** Where in the list the edge of a name is. *)
Definition placed (s : stmt) (x : nat) (d : expr) : Prop :=
  exists A n B, used_edges s = A ++ (x, n) :: B
    /\ (forall y, mentions d y -> In y (node_names n))
    /\ (forall y, In y (node_names n) -> exists d', sets s x d' /\ mentions d' y)
    /\ (forall y c, sets_in d y c -> In y (map fst A)).

Lemma rev_place (w l1 l2 : list edge) x d :
  w = l1 ++ (x, NExpr d) :: walk d ++ l2 ->
  rev w = (rev l2 ++ rev (walk d)) ++ (x, NExpr d) :: rev l1.
Proof.
  intros ->. rewrite rev_app_distr. cbn. rewrite rev_app_distr. now rewrite <- !app_assoc.
Qed.

Lemma sets_walk e : forall y c, sure e -> sets_in e y c -> In y (map fst (walk e)).
Proof. intros y c S H. rewrite sure_targets by auto. eapply sets_in_targets; eauto. Qed.

Lemma sure_sets e x d : sure e -> sets_in e x d -> sure d.
Proof.
  induction e; cbn; intros S H; try tauto.
  - destruct H; [tauto|]. exfalso. eapply plain_sets; [apply S|eauto].
  - destruct H as [H|[H|H]]; [tauto| |]; exfalso; eapply plain_sets; try apply H; apply S.
  - destruct H as [[_ ->]|H]; auto.
Qed.

Lemma place_expr s x d l1 l2 :
  used_edges s = rev (l1 ++ (x, NExpr d) :: walk d ++ l2) ->
  no_lambda d -> sure d -> sets s x d -> placed s x d.
Proof.
  intros E N S Hs. exists (rev l2 ++ rev (walk d)), (NExpr d), (rev l1).
  split; [rewrite E; now rewrite (rev_place _ l1 l2 x d eq_refl)|].
  split; [intros y; apply names_mentions; auto|]. split.
  - intros y Hy. exists d. split; auto. now apply names_mentions.
  - intros y c Hc. rewrite map_app, in_app_iff. right. rewrite map_rev, <- in_rev.
    eapply sets_walk; eauto.
Qed.

Lemma sets_placed s x d : not_block s -> firm s -> heads_ok s -> sets s x d -> placed s x d \/
  (exists y k bases kws dec, s = SClass y k bases kws dec /\ d = kws).
Proof.
  intros N F O H.
  destruct s as [|a b|e|xs e|x0 k e|x0 ann o|x0 e body|e a b|e body|e o body|x0 k ds dec
                |x0 k bases kws dec|x0 m];
    cbn in N; try tauto; cbn [firm heads_ok sets] in *.
  - left. destruct (walk_split e x d F H) as (l1 & l2 & E).
    apply (place_expr _ x d l1 l2); cbn; auto.
    + unfold edges. cbn. now rewrite E.
    + eapply no_lambda_sets; eauto.
    + eapply sure_sets; eauto.
  - left. destruct H as [[Hx ->]|H]; [|nope].
    apply in_split in Hx as (l1 & l2 & ->).
    exists (map (fun x => (x, NExpr e)) l1), (NExpr e), (map (fun x => (x, NExpr e)) l2).
    split; [cbn [used_edges]; now rewrite map_app|].
    split; [intros y; apply names_mentions; auto|]. split.
    + intros y Hy. exists e. split; [cbn; left; split; auto; apply in_app_iff; right; now left|].
      now apply names_mentions.
    + intros y c Hc. nope.
  - left. destruct H as [[-> ->]|H].
    + apply (place_expr _ x0 e [] []); cbn; auto. unfold edges. cbn. now rewrite app_nil_r.
    + destruct (walk_split e x d F H) as (l1 & l2 & E).
      apply (place_expr _ x d ((x0, NExpr e) :: l1) l2); cbn; auto.
      * unfold edges. cbn. now rewrite E.
      * eapply no_lambda_sets; eauto.
      * eapply sure_sets; eauto.
  - left. destruct o as [e|]; [|tauto]. destruct F as [Fa F].
    destruct H as [[-> ->]|[H|H]]; [| |nope].
    + apply (place_expr _ x0 e [] []); cbn; auto. unfold edges. cbn. now rewrite app_nil_r.
    + destruct (walk_split e x d F H) as (l1 & l2 & E).
      apply (place_expr _ x d ((x0, NExpr e) :: l1) l2); cbn; auto.
      * unfold edges. cbn. now rewrite E.
      * eapply no_lambda_sets; eauto.
      * eapply sure_sets; eauto.
  - left. destruct F as [F _]. destruct H as [[-> ->]|H]; [|nope].
    exists [], (NExpr e), []. split; [reflexivity|].
    split; [intros y; apply names_mentions; auto|]. split.
    + intros y Hy. exists e. split; [cbn; auto|]. now apply names_mentions.
    + intros y c Hc. nope.
  - left. destruct F as [F _]. destruct (walk_split e x d F H) as (l1 & l2 & E).
    apply (place_expr _ x d l1 l2); cbn; auto.
    + unfold edges. cbn. now rewrite E.
    + eapply no_lambda_sets; eauto.
    + eapply sure_sets; eauto.
  - left. destruct F as [F _]. destruct o as [x0|].
    + destruct H as [[-> ->]|H]; [|nope].
      exists [], (NExpr e), []. split; [reflexivity|].
      split; [intros y; apply names_mentions; auto|]. split.
      * intros y Hy. exists e. split; [cbn; auto|]. now apply names_mentions.
      * intros y c Hc. nope.
    + nope.
  - left. destruct F as [Fd Fc]. destruct O as [Od Oc].
    destruct H as [[-> H]|[H|H]]; [|nope|nope].
    exists [], (NDef ds dec), [].
    assert (edges (SDef x0 k ds dec) = [(x0, NDef ds dec)]) as E.
    { unfold edges. cbn. now rewrite (plain_walk ds Fd), (plain_walk dec Fc). }
    split; [cbn [used_edges]; rewrite E; reflexivity|]. cbn [node_names].
    split; [|split].
    + intros y Hy. rewrite in_app_iff, !names_mentions by auto. destruct H as [->| ->]; auto.
    + intros y Hy. rewrite in_app_iff, !names_mentions in Hy by auto. cbn [sets].
      destruct Hy; [exists ds|exists dec]; auto.
    + intros y c Hc. destruct H as [->| ->]; nope.
  - destruct F as (Fb & Fk & Fc). destruct O as (Ob & Oc & Ok).
    destruct H as [[-> H]|[H|[H|H]]];
      [|nope|nope|nope].
    assert (edges (SClass x0 k bases kws dec) = [(x0, NClass bases dec)]) as E.
    { unfold edges. cbn. now rewrite (plain_walk bases Fb), (plain_walk dec Fc). }
    destruct H as [H|[H|H]]; [left|right; exists x0, k, bases, kws, dec; auto|left].
    all: exists [], (NClass bases dec), [];
      (split; [cbn [used_edges]; rewrite E; reflexivity|]); cbn [node_names]; (split; [|split]).
    all: intros y.
    all: try (intros Hy; rewrite in_app_iff, !names_mentions by auto; subst d; auto; fail).
    all: try (intros c Hc; subst d; nope).
    all: intros Hy; rewrite in_app_iff, !names_mentions in Hy by auto; cbn [sets].
    all: destruct Hy; [exists bases|exists dec]; (split; [left; split; [reflexivity|tauto]|assumption]).
  - destruct H.
Qed.

Lemma used_targets s : not_block s -> firm s -> forall x, In x (map fst (used_edges s)) -> In x (stmt_targets s).
Proof.
  intros N F x. destruct s; cbn in N; try tauto; cbn [firm used_edges stmt_targets] in *.
  - rewrite In_edges. cbn. now rewrite sure_targets.
  - rewrite map_pair_fst, in_app_iff. auto.
  - rewrite In_edges. cbn. now rewrite sure_targets.
  - destruct o as [e|]; [|tauto]. rewrite In_edges. cbn. rewrite sure_targets; tauto.
  - cbn. tauto.
  - rewrite In_edges. cbn. rewrite sure_targets; tauto.
  - rewrite In_edges. destruct o; cbn; tauto.
  - destruct (length _ =? 1); [|intros []]. rewrite In_edges. cbn. destruct F as [F1 F2].
    rewrite (plain_walk ds), (plain_walk dec), in_app_iff; cbn; tauto.
  - destruct (length _ =? 1); [|intros []]. rewrite In_edges. cbn. destruct F as (F1 & F2 & F3).
    rewrite (plain_walk bases), (plain_walk dec), !in_app_iff; cbn; tauto.
Qed.

Lemma used_nodup s : not_block s -> firm s -> NoDup (stmt_targets s) -> NoDup (map fst (used_edges s)).
Proof.
  intros N F D. destruct s; cbn in N; try tauto; cbn [firm used_edges stmt_targets] in *;
    unfold edges in *; rewrite ?map_rev; cbn [walk_stmt] in *.
  - apply NoDup_rev. now rewrite sure_targets.
  - rewrite map_pair_fst. rewrite plain_targets, app_nil_r in D; auto.
  - apply NoDup_rev. cbn. now rewrite sure_targets.
  - destruct o as [e|]; [|tauto]. apply NoDup_rev. cbn. rewrite sure_targets; tauto.
  - cbn. repeat constructor. intros [].
  - apply NoDup_rev. rewrite sure_targets; tauto.
  - destruct o; cbn; repeat constructor. intros [].
  - destruct F as [F1 F2]. rewrite (plain_walk ds), (plain_walk dec) by auto. cbn.
    repeat constructor. intros [].
  - destruct F as (F1 & F2 & F3). rewrite (plain_walk bases), (plain_walk dec) by auto. cbn.
    repeat constructor. intros [].
Qed.

(** The dependencies that a name ends up with are those of its own edge. *)
Lemma final_deps now lv ov A x n B t :
  ~ In x (map fst B) -> lv x = true ->
  let tA := record_all now lv ov A t in
  let t' := record_all now lv ov (A ++ (x, n) :: B) t in
  dget t' x = dget (upsert now ov tA x (resolve tA n)) x.
Proof.
  intros H L tA t'. unfold t', record_all. rewrite fold_left_app. cbn [fold_left].
  fold (record_all now lv ov A t). fold tA. fold (record_all now lv ov B (record now lv ov tA (x, n))).
  destruct (record_all_facts now lv ov B (record now lv ov tA (x, n))) as [_ R].
  rewrite R by tauto. cbn. now rewrite L.
Qed.

Lemma resolve_In t n y : In y (resolve t n) <-> In y (node_names n) /\ dget t y <> None.
Proof.
  unfold resolve. rewrite filter_In. destruct (dget t y); split; intros [H K]; split; congruence.
Qed.

Lemma source_trans t s y z c : source t s y z -> (exists e, sets s z e) -> source t s z c ->
  source t s y c.
Proof.
  induction 1 as [x r d Hr Hd|x r d y Hr Hd Hs Hy IH]; intros Hz Hc.
  - eapply src_via; eauto.
  - eapply src_via; eauto.
Qed.

(** * Evaluations that agree *)

Definition agree (P : nat -> Prop) (g1 g2 : env) : Prop := forall d, P d -> dget g1 d = dget g2 d.

Lemma plain_same I e g v g' l : plain e -> eval I e g = Some (v, g', l) ->
  forall x, dget g' x = dget g x.
Proof.
  intros P E x. pose proof (plain_eval I e g v g' l P E) as ->.
  destruct (eval_facts I e g v g' [] E) as (_ & _ & A). apply A. intros [].
Qed.

Lemma eval_agree I y e : forall (P : nat -> Prop) g1 g2 v1 v2 g1' g2' l1 l2,
  sure e -> agree P g1 g2 ->
  (forall z d, sets_in e z d -> P z \/ z = y -> forall c, mentions d c -> P c) ->
  eval I e g1 = Some (v1, g1', l1) -> eval I e g2 = Some (v2, g2', l2) ->
  agree P g1' g2' /\ ((forall c, mentions e c -> P c) -> v1 = v2)
  /\ (In y (targets e) -> agree (fun c => P c \/ c = y) g1' g2').
Proof.
  induction e as [x|k|k a IHa b IHb|a IHa b IHb|c IHc a IHa b IHb|x e IH|k ds IHd body IHb];
    intros P g1 g2 v1 v2 g1' g2' l1 l2 S G C E1 E2; cbn [eval sure targets mentions sets_in] in *.
  - destruct (dget g1 x) eqn:D1; inversion E1; subst. destruct (dget g2 x) eqn:D2; inversion E2; subst.
    split; [auto|]. split; [|intros []]. intros H. pose proof (G x (H x eq_refl)). congruence.
  - inversion E1; inversion E2; subst. split; [auto|]. split; [auto|intros []].
  - destruct S as [Sa Sb].
    destruct (eval I a g1) as [[[va1 ga1] la1]|] eqn:Ea1; [|discriminate].
    destruct (eval I b ga1) as [[[vb1 gb1] lb1]|] eqn:Eb1; [|discriminate]. inversion E1; subst.
    destruct (eval I a g2) as [[[va2 ga2] la2]|] eqn:Ea2; [|discriminate].
    destruct (eval I b ga2) as [[[vb2 gb2] lb2]|] eqn:Eb2; [|discriminate]. inversion E2; subst.
    destruct (IHa P _ _ _ _ _ _ _ _ Sa G (fun z d H => C z d (or_introl H)) Ea1 Ea2) as (A1 & A2 & A3).
    destruct (IHb P _ _ _ _ _ _ _ _ Sb A1 (fun z d H => C z d (or_intror H)) Eb1 Eb2) as (B1 & B2 & B3).
    split; [auto|]. split.
    + intros H. rewrite A2, B2; auto.
    + intros H. apply in_app_iff in H as [H|H]; [|auto].
      specialize (A3 H).
      assert (C' : forall z d, sets_in b z d -> (P z \/ z = y) \/ z = y ->
                 forall c, mentions d c -> P c \/ c = y).
      { intros z d Hz K c Hc. left. apply (C z d (or_intror Hz)); tauto. }
      destruct (IHb (fun c => P c \/ c = y) _ _ _ _ _ _ _ _ Sb A3 C' Eb1 Eb2) as (B1' & _ & _). exact B1'.
  - destruct S as [Sa Sb].
    destruct (eval I a g1) as [[[va1 ga1] la1]|] eqn:Ea1; [|discriminate].
    destruct (eval I a g2) as [[[va2 ga2] la2]|] eqn:Ea2; [|discriminate].
    destruct (IHa P _ _ _ _ _ _ _ _ Sa G (fun z d H => C z d (or_introl H)) Ea1 Ea2) as (A1 & A2 & A3).
    assert (K1 : forall x, dget g1' x = dget ga1 x).
    { destruct (va1 =? 0); [inversion E1; subst; auto|].
      destruct (eval I b ga1) as [[[vb1 gb1] lb1]|] eqn:Eb1; [|discriminate]. inversion E1; subst.
      eapply plain_same; eauto. }
    assert (K2 : forall x, dget g2' x = dget ga2 x).
    { destruct (va2 =? 0); [inversion E2; subst; auto|].
      destruct (eval I b ga2) as [[[vb2 gb2] lb2]|] eqn:Eb2; [|discriminate]. inversion E2; subst.
      eapply plain_same; eauto. }
    split; [intros x Hx; rewrite K1, K2; auto|]. split.
    + intros H. assert (va1 = va2) as <- by auto.
      destruct (va1 =? 0); [congruence|].
      destruct (eval I b ga1) as [[[vb1 gb1] lb1]|] eqn:Eb1; [|discriminate]. inversion E1; subst.
      destruct (eval I b ga2) as [[[vb2 gb2] lb2]|] eqn:Eb2; [|discriminate]. inversion E2; subst.
      destruct (IHb P _ _ _ _ _ _ _ _ (plain_sure b Sb) A1 (fun z d H => C z d (or_intror H)) Eb1 Eb2)
        as (_ & B2 & _). auto.
    + intros H. rewrite (plain_targets b), app_nil_r in H by auto.
      intros x Hx. rewrite K1, K2. apply A3; auto.
  - destruct S as (Sc & Sa & Sb).
    destruct (eval I c g1) as [[[vc1 gc1] lc1]|] eqn:Ec1; [|discriminate].
    destruct (eval I c g2) as [[[vc2 gc2] lc2]|] eqn:Ec2; [|discriminate].
    destruct (IHc P _ _ _ _ _ _ _ _ Sc G (fun z d H => C z d (or_introl H)) Ec1 Ec2) as (A1 & A2 & A3).
    destruct (eval I (if vc1 =? 0 then b else a) gc1) as [[[vb1 gb1] lb1]|] eqn:Eb1; [|discriminate].
    destruct (eval I (if vc2 =? 0 then b else a) gc2) as [[[vb2 gb2] lb2]|] eqn:Eb2; [|discriminate].
    inversion E1; inversion E2; subst.
    assert (K1 : forall x, dget g1' x = dget gc1 x)
      by (eapply plain_same; [|exact Eb1]; destruct (vc1 =? 0); auto).
    assert (K2 : forall x, dget g2' x = dget gc2 x)
      by (eapply plain_same; [|exact Eb2]; destruct (vc2 =? 0); auto).
    split; [intros x Hx; rewrite K1, K2; auto|]. split.
    + intros H. assert (vc1 = vc2) as <- by auto.
      destruct (vc1 =? 0).
      * destruct (IHb P _ _ _ _ _ _ _ _ (plain_sure b Sb) A1
                    (fun z d H => C z d (or_intror (or_intror H))) Eb1 Eb2) as (_ & B2 & _). auto.
      * destruct (IHa P _ _ _ _ _ _ _ _ (plain_sure a Sa) A1
                    (fun z d H => C z d (or_intror (or_introl H))) Eb1 Eb2) as (_ & B2 & _). auto.
    + intros H. rewrite (plain_targets a), (plain_targets b), app_nil_r in H by auto.
      intros x Hx. rewrite K1, K2. apply A3; auto.
  - destruct (eval I e g1) as [[[ve1 ge1] le1]|] eqn:Ee1; [|discriminate].
    destruct (eval I e g2) as [[[ve2 ge2] le2]|] eqn:Ee2; [|discriminate].
    inversion E1; inversion E2; subst.
    destruct (IH P _ _ _ _ _ _ _ _ S G (fun z d H => C z d (or_intror H)) Ee1 Ee2) as (A1 & A2 & A3).
    assert (V : P x \/ x = y -> v1 = v2).
    { intros K. apply A2. apply (C x e); auto. }
    split; [|split].
    + intros d Hd. rewrite !dget_dset. destruct (Nat.eqb_spec d x) as [->|]; [|auto].
      rewrite V; auto.
    + intros H. apply A2. auto.
    + intros H d Hd. rewrite !dget_dset. destruct (Nat.eqb_spec d x) as [->|Ne].
      * rewrite V; auto.
      * destruct H as [->|H].
        -- destruct Hd as [Hd|Hd]; [auto|congruence].
        -- apply A3; auto.
  - destruct S as [Sd Sb].
    destruct (eval I ds g1) as [[[ve1 ge1] le1]|] eqn:Ee1; [|discriminate].
    destruct (eval I ds g2) as [[[ve2 ge2] le2]|] eqn:Ee2; [|discriminate].
    inversion E1; inversion E2; subst.
    destruct (IHd P _ _ _ _ _ _ _ _ Sd G C Ee1 Ee2) as (A1 & A2 & A3).
    split; [auto|]. split; [|auto]. intros H. rewrite A2; auto.
Qed.

(** * The claim about dependencies *)

Section Deps.
  Variables (I : interp) (now : nat) (s : stmt) (g1 g2 g1' g2' : env) (l1 l2 : list nat) (t : dict sym)
            (y : nat).
  Hypotheses (N : not_block s) (F : firm s) (O : heads_ok s) (T : tidy t s)
             (T1 : tracks t g1) (T2 : tracks t g2)
             (H1 : head I s g1 = Some (g1', l1)) (H2 : head I s g2 = Some (g2', l2)).
  Let t' := finish now (live g1') s t.
  Hypotheses (Gs : forall d, source t' s y d -> dget g1 d = dget g2 d)
             (Gy : needs_self s y -> dget g1 y = dget g2 y).

  Let P (d : nat) : Prop :=
    source t' s y d \/ (d = y /\ needs_self s y) \/ (dget t d = None /\ forall e, ~ sets s d e).

  Lemma agree_P : agree P g1 g2.
  Proof.
    intros d [H|[[-> H]|[H _]]]; auto.
    assert (forall g, tracks t g -> dget g d = None) as K.
    { intros g Tg. specialize (Tg d). destruct (dget g d); auto. destruct Tg as [Tg _].
      exfalso. apply Tg; [discriminate|exact H]. }
    rewrite !K; auto.
  Qed.

  Lemma used_live x : In x (map fst (used_edges s)) -> live g1' x = true.
  Proof.
    intros H. apply live_true.
    destruct (head_facts I s g1 g1' l1 N (firm_seen s F) H1) as (_ & B & _ & D). auto.
  Qed.

  Lemma dep_recorded z d c : sets s z d -> mentions d c -> c <> z ->
    source t' s z c \/ (dget t c = None /\ forall e, ~ sets s c e).
  Proof.
    intros Hz Hc Ne.
    destruct (sets_placed s z d N F O Hz) as [(A & n & B & E & M1 & M2 & M3)|(x & k & b & kw & dc & -> & ->)].
    2: { destruct O as (_ & _ & Ok). exfalso. exact (Ok c Hc). }
    assert (ND : NoDup (map fst (used_edges s))) by (apply used_nodup; auto; apply T).
    assert (~ In z (map fst B)) as NB.
    { rewrite E, map_app in ND. apply NoDup_remove_2 in ND. intros K. apply ND, in_app_iff. now right. }
    assert (LA : forall x, In x (map fst A) -> live g1' x = true).
    { intros x Hx. apply used_live. rewrite E, map_app, in_app_iff. now left. }
    assert (Lz : live g1' z = true).
    { apply used_live. rewrite E, map_app, in_app_iff. right. now left. }
    pose proof (final_deps now (live g1') (overwrites s) A z n B t NB Lz) as FD. cbn zeta in FD.
    rewrite <- E, <- (finish_record now (live g1') s t N) in FD. fold t' in FD.
    set (tA := record_all now (live g1') (overwrites s) A t) in *.
    destruct (record_all_facts now (live g1') (overwrites s) A t) as [R1 R2]. fold tA in R1, R2.
    destruct (dget tA c) eqn:Dc.
    - left. unfold upsert in FD. rewrite dget_dset_same in FD.
      eapply src_dep; [exact FD|]. cbn [deps]. apply In_supd. right. apply In_sdiff.
      split; [|intros [K|[]]; congruence]. apply resolve_In. split; [auto|congruence].
    - right.
      assert (~ In c (map fst A)) as NA.
      { intros K. destruct (R1 c K (LA c K)) as (r & Er & _). congruence. }
      rewrite R2 in Dc by tauto. split; [auto|]. intros e He.
      destruct T as [_ T']. destruct (T' z d c e Hz Hc He) as [K|K]; [congruence|].
      apply NA. eapply M3; eauto.
  Qed.

  Lemma closed_P z d : sets s z d -> P z \/ z = y -> forall c, mentions d c -> P c.
  Proof.
    intros Hz K c Hc.
    destruct (Nat.eq_dec c z) as [->|Ne].
    - destruct K as [K|K]; auto. subst z. right. left. split; auto. right. eauto.
    - assert (K' : source t' s y z \/ z = y).
      { destruct K as [[K|[[K _]|[_ K]]]|K]; auto. exfalso. exact (K d Hz). }
      destruct (dep_recorded z d c Hz Hc Ne) as [R|R]; [|right; right; auto].
      left. destruct K' as [K'| ->]; [|auto].
      eapply source_trans; eauto.
  Qed.

  Lemma value_determined : In y (stmt_targets s) -> dget g1' y = dget g2' y.
  Proof.
    intros Hy. pose proof agree_P as G. pose proof closed_P as C.
    pose proof T as [ND _]. pose proof Gy as Gy'. clearbody P. clear Gs Gy.
    pose proof H1 as E1. pose proof H2 as E2. clear H1 H2. clearbody t'.
    destruct s as [|a b|e|xs e|x0 k e|x0 ann o|x0 e body|e a b|e body|e o body|x0 k ds dec
                |x0 k bases kws dec|x0 m];
      cbn in N; try tauto; cbn [firm heads_ok sets stmt_targets head] in *.
    - destruct (eval I e g1) as [[[v1 ge1] le1]|] eqn:Ee1; [|discriminate]. inversion E1; subst.
      destruct (eval I e g2) as [[[v2 ge2] le2]|] eqn:Ee2; [|discriminate]. inversion E2; subst.
      destruct (eval_agree I y e P _ _ _ _ _ _ _ _ F G C Ee1 Ee2) as (_ & _ & K).
      apply K; auto.
    - destruct (eval I e g1) as [[[v1 ge1] le1]|] eqn:Ee1; [|discriminate]. inversion E1; subst.
      destruct (eval I e g2) as [[[v2 ge2] le2]|] eqn:Ee2; [|discriminate]. inversion E2; subst.
      rewrite plain_targets, app_nil_r in Hy by auto.
      assert (v1 = v2) as <-.
      { destruct (eval_agree I y e P _ _ _ _ _ _ _ _ (plain_sure e F) G
                    (fun z d H => C z d (or_intror H)) Ee1 Ee2) as (_ & K & _).
        apply K. intros c Hc. apply (C y e); auto. }
      rewrite !bind_all_get. apply memb_In in Hy. now rewrite Hy.
    - destruct (dget g1 x0) as [u1|] eqn:D1; [|discriminate].
      destruct (dget g2 x0) as [u2|] eqn:D2; [|discriminate].
      destruct (eval I e g1) as [[[v1 ge1] le1]|] eqn:Ee1; [|discriminate]. inversion E1; subst.
      destruct (eval I e g2) as [[[v2 ge2] le2]|] eqn:Ee2; [|discriminate]. inversion E2; subst.
      destruct (eval_agree I y e P _ _ _ _ _ _ _ _ F G
                    (fun z d H => C z d (or_intror H)) Ee1 Ee2) as (_ & K2 & K3).
      rewrite !dget_dset. destruct (Nat.eqb_spec y x0) as [->|Ne].
      + rewrite K2; [|intros c Hc; apply (C x0 e); auto].
        assert (needs_self (SAug x0 k e) x0) as NS by (left; reflexivity).
        specialize (Gy' NS). congruence.
      + destruct Hy as [Hy|Hy]; [congruence|]. apply K3; auto.
    - destruct o as [e|]; [|tauto]. destruct F as [Fa Fe].
      destruct (eval I e g1) as [[[v1 ge1] le1]|] eqn:Ee1; [|discriminate].
      destruct (eval I ann (dset ge1 x0 v1)) as [[[w1 ga1] la1]|] eqn:Ea1; [|discriminate].
      inversion E1; subst.
      destruct (eval I e g2) as [[[v2 ge2] le2]|] eqn:Ee2; [|discriminate].
      destruct (eval I ann (dset ge2 x0 v2)) as [[[w2 ga2] la2]|] eqn:Ea2; [|discriminate].
      inversion E2; subst.
      rewrite (plain_same _ _ _ _ _ _ Fa Ea1 y), (plain_same _ _ _ _ _ _ Fa Ea2 y).
      destruct (eval_agree I y e P _ _ _ _ _ _ _ _ Fe G
                    (fun z d H => C z d (or_intror (or_introl H))) Ee1 Ee2) as (_ & K2 & K3).
      rewrite !dget_dset. destruct (Nat.eqb_spec y x0) as [->|Ne].
      + rewrite K2; [auto|intros c Hc; apply (C x0 e); auto].
      + destruct Hy as [Hy|Hy]; [congruence|]. apply K3; auto.
    - destruct F as [Fe _].
      destruct (eval I e g1) as [[[v1 ge1] le1]|] eqn:Ee1; [|discriminate]. inversion E1; subst.
      destruct (eval I e g2) as [[[v2 ge2] le2]|] eqn:Ee2; [|discriminate]. inversion E2; subst.
      destruct (eval_agree I y e P _ _ _ _ _ _ _ _ (plain_sure e Fe) G
                    (fun z d H => C z d (or_intror H)) Ee1 Ee2) as (_ & K2 & K3).
      rewrite plain_targets in Hy by auto. destruct Hy as [->|[]].
      rewrite !dget_dset_same. rewrite K2; [auto|intros c Hc; apply (C y e); auto].
    - destruct F as [Fe _].
      destruct (eval I e g1) as [[[v1 ge1] le1]|] eqn:Ee1; [|discriminate]. inversion E1; subst.
      destruct (eval I e g2) as [[[v2 ge2] le2]|] eqn:Ee2; [|discriminate]. inversion E2; subst.
      destruct (eval_agree I y e P _ _ _ _ _ _ _ _ Fe G C Ee1 Ee2) as (_ & _ & K).
      apply K; auto.
    - destruct F as [Fe _]. destruct o as [x0|]; [|rewrite plain_targets in Hy by auto; destruct Hy].
      destruct (eval I e g1) as [[[v1 ge1] le1]|] eqn:Ee1; [|discriminate]. inversion E1; subst.
      destruct (eval I e g2) as [[[v2 ge2] le2]|] eqn:Ee2; [|discriminate]. inversion E2; subst.
      destruct (eval_agree I y e P _ _ _ _ _ _ _ _ (plain_sure e Fe) G
                    (fun z d H => C z d (or_intror H)) Ee1 Ee2) as (_ & K2 & K3).
      rewrite plain_targets in Hy by auto. destruct Hy as [->|[]].
      rewrite !dget_dset_same. rewrite K2; [auto|intros c Hc; apply (C y e); auto].
    - destruct F as [Fd Fc].
      destruct (eval I dec g1) as [[[v1 ge1] le1]|] eqn:Ee1; [|discriminate].
      destruct (eval I ds ge1) as [[[w1 gd1] ld1]|] eqn:Ed1; [|discriminate]. inversion E1; subst.
      destruct (eval I dec g2) as [[[v2 ge2] le2]|] eqn:Ee2; [|discriminate].
      destruct (eval I ds ge2) as [[[w2 gd2] ld2]|] eqn:Ed2; [|discriminate]. inversion E2; subst.
      rewrite (plain_targets ds), (plain_targets dec) in Hy by auto. destruct Hy as [->|[]].
      destruct (eval_agree I y dec P _ _ _ _ _ _ _ _ (plain_sure dec Fc) G
                    (fun z d H => C z d (or_intror (or_intror H))) Ee1 Ee2) as (G' & K2 & _).
      destruct (eval_agree I y ds P _ _ _ _ _ _ _ _ (plain_sure ds Fd) G'
                    (fun z d H => C z d (or_intror (or_introl H))) Ed1 Ed2) as (_ & J2 & _).
      rewrite !dget_dset_same. rewrite K2, J2; [auto| |].
      + intros c Hc. apply (C y ds); auto.
      + intros c Hc. apply (C y dec); auto.
    - destruct F as (Fb & Fk & Fc).
      destruct (eval I dec g1) as [[[v1 ge1] le1]|] eqn:Ee1; [|discriminate].
      destruct (eval I bases ge1) as [[[w1 gd1] ld1]|] eqn:Ed1; [|discriminate].
      destruct (eval I kws gd1) as [[[u1 gk1] lk1]|] eqn:Ek1; [|discriminate]. inversion E1; subst.
      destruct (eval I dec g2) as [[[v2 ge2] le2]|] eqn:Ee2; [|discriminate].
      destruct (eval I bases ge2) as [[[w2 gd2] ld2]|] eqn:Ed2; [|discriminate].
      destruct (eval I kws gd2) as [[[u2 gk2] lk2]|] eqn:Ek2; [|discriminate]. inversion E2; subst.
      rewrite (plain_targets bases), (plain_targets kws), (plain_targets dec) in Hy by auto.
      destruct Hy as [->|[]].
      destruct (eval_agree I y dec P _ _ _ _ _ _ _ _ (plain_sure dec Fc) G
                    (fun z d H => C z d (or_intror (or_intror (or_intror H)))) Ee1 Ee2) as (G' & K2 & _).
      destruct (eval_agree I y bases P _ _ _ _ _ _ _ _ (plain_sure bases Fb) G'
                    (fun z d H => C z d (or_intror (or_introl H))) Ed1 Ed2) as (G'' & J2 & _).
      destruct (eval_agree I y kws P _ _ _ _ _ _ _ _ (plain_sure kws Fk) G''
                    (fun z d H => C z d (or_intror (or_intror (or_introl H)))) Ek1 Ek2) as (_ & L2 & _).
      rewrite !dget_dset_same. rewrite K2, J2, L2; [auto| | |].
      + intros c Hc. apply (C y kws); auto.
      + intros c Hc. apply (C y bases); auto.
      + intros c Hc. apply (C y dec); auto.
    - inversion E1; inversion E2; subst. destruct Hy as [->|[]]. now rewrite !dget_dset_same.
  Qed.
End Deps.

(** * Nothing else is recorded, and nothing needed is forgotten *)

Lemma walk_edges e x n : sure e -> In (x, n) (walk e) -> exists d, n = NExpr d /\ sets_in e x d.
Proof.
  induction e as [y|k|k a IHa b IHb|a IHa b IHb|c IHc a IHa b IHb|y e IH|k ds IHd body IHb];
    cbn [sure walk sets_in]; rewrite ?in_app_iff; intros S H; try (destruct H; fail).
  - destruct S as [Sa Sb].
    destruct H as [H|H]; [destruct (IHa Sa H) as (d & E & K)|destruct (IHb Sb H) as (d & E & K)]; eauto.
  - destruct S as [Sa Sb]. rewrite (plain_walk b Sb) in H.
    destruct H as [H|[]]. destruct (IHa Sa H) as (d & E & K); eauto.
  - destruct S as (Sc & Sa & Sb). rewrite (plain_walk a Sa), (plain_walk b Sb) in H.
    destruct H as [H|[[]|[]]]. destruct (IHc Sc H) as (d & E & K); eauto.
  - destruct H as [H|H].
    + inversion H; subst. eauto.
    + destruct (IH S H) as (d & E & K). eauto.
  - destruct S as [Sd Sb]. rewrite (plain_walk body Sb) in H. destruct H as [H|[]].
    destruct (IHd Sd H) as (d & E & K). eauto.
Qed.

Lemma edge_sets s x n c : not_block s -> firm s -> heads_ok s -> In (x, n) (used_edges s) ->
  In c (node_names n) -> exists d, sets s x d /\ mentions d c.
Proof.
  intros N F O H Hc.
  assert (X : forall e, sure e -> no_lambda e -> In (x, n) (walk e) ->
            exists d, sets_in e x d /\ mentions d c).
  { intros e Se Ne K. destruct (walk_edges e x n Se K) as (d & -> & Hd). exists d. split; auto.
    apply names_mentions in Hc; auto. eapply no_lambda_sets; eauto. }
  destruct s as [|a b|e|xs e|x0 k e|x0 ann o|x0 e body|e a b|e body|e o body|x0 k ds dec
                |x0 k bases kws dec|x0 m]; cbn in N; try tauto;
    cbn [firm heads_ok used_edges sets] in *; unfold edges in *; rewrite <- ?in_rev in H;
    cbn [walk_stmt] in *.
  - auto.
  - apply in_map_iff in H as (y & E & Hy). inversion E; subst. exists e. split; auto.
    now apply names_mentions in Hc.
  - destruct H as [H|H].
    + inversion H; subst. exists e. split; auto. now apply names_mentions in Hc.
    + destruct (X e F O H) as (d & D & M). eauto.
  - destruct o as [e|]; [|tauto]. destruct H as [H|H].
    + inversion H; subst. exists e. split; auto. now apply names_mentions in Hc.
    + destruct F as [_ F]. destruct (X e F O H) as (d & D & M). eauto.
  - destruct H as [H|[]]. inversion H; subst. exists e. split; auto. now apply names_mentions in Hc.
  - apply (X e); tauto.
  - destruct o as [x0|]; [|destruct H].
    destruct H as [H|[]]. inversion H; subst. exists e. split; auto. now apply names_mentions in Hc.
  - destruct F as [F1 F2]. rewrite (plain_walk ds F1), (plain_walk dec F2) in H. cbn in H.
    destruct H as [H|[]]. inversion H; subst. cbn [node_names] in Hc.
    destruct O as [O1 O2]. rewrite in_app_iff, !names_mentions in Hc by auto.
    destruct Hc; [exists ds|exists dec]; auto.
  - destruct F as (F1 & F2 & F3). rewrite (plain_walk bases F1), (plain_walk dec F3) in H. cbn in H.
    destruct H as [H|[]]. inversion H; subst. cbn [node_names] in Hc.
    destruct O as (O1 & O2 & O3). rewrite in_app_iff, !names_mentions in Hc by auto.
    destruct Hc; [exists bases|exists dec]; (split; [left; split; [reflexivity|tauto]|assumption]).
  - destruct H as [H|[]]. inversion H; subst. destruct Hc.
Qed.

Lemma targets_used s : not_block s -> firm s -> forall x, In x (stmt_targets s) -> In x (map fst (used_edges s)).
Proof.
  intros N F x. destruct s; cbn in N; try tauto; cbn [firm used_edges stmt_targets] in *.
  - rewrite In_edges. cbn. now rewrite sure_targets.
  - rewrite map_pair_fst, plain_targets, app_nil_r; auto.
  - rewrite In_edges. cbn. now rewrite sure_targets.
  - destruct o as [e|]; [|tauto]. rewrite In_edges. cbn. rewrite sure_targets; tauto.
  - destruct F as [F _]. rewrite plain_targets; auto.
  - rewrite In_edges. cbn. rewrite sure_targets; tauto.
  - destruct F as [F _]. rewrite In_edges. destruct o; rewrite plain_targets by auto; cbn; tauto.
  - destruct F as [F1 F2]. unfold edges. cbn [walk_stmt].
    rewrite (plain_walk ds), (plain_walk dec), !plain_targets by auto. cbn. tauto.
  - destruct F as (F1 & F2 & F3). unfold edges. cbn [walk_stmt].
    rewrite (plain_walk bases), (plain_walk dec), !plain_targets by auto. cbn. tauto.
Qed.

Lemma nodup_edge (eds : list edge) x n n' : NoDup (map fst eds) -> In (x, n) eds -> In (x, n') eds -> n = n'.
Proof.
  induction eds as [|[z m] eds IH]; cbn; intros D H K; [destruct H|].
  inversion D as [|? ? D1 D2]; subst.
  assert (forall q, In (x, q) eds -> In x (map fst eds)) as J
    by (intros q Hq; apply in_map_iff; exists (x, q); auto).
  destruct H as [H|H], K as [K|K].
  - congruence.
  - inversion H; subst. destruct D1. eauto.
  - inversion K; subst. destruct D1. eauto.
  - auto.
Qed.

Section Only.
  Variables (I : interp) (now : nat) (s : stmt) (g g' : env) (l : list nat) (t : dict sym) (y : nat).
  Hypotheses (N : not_block s) (F : firm s) (O : heads_ok s) (D : NoDup (stmt_targets s))
             (H : head I s g = Some (g', l)) (Hy : In y (stmt_targets s)).
  Let t' := finish now (live g') s t.

  Lemma recorded : exists A n B,
    used_edges s = A ++ (y, n) :: B
    /\ (forall c, In c (node_names n) -> exists d, sets s y d /\ mentions d c)
    /\ (forall d c, sets s y d -> mentions d c -> In c (node_names n))
    /\ (let tA := record_all now (live g') (overwrites s) A t in
        dget tA y = dget t y
        /\ (forall c, dget tA c = dget t c \/ (c <> y /\ dget tA c = dget t' c))
        /\ dget t' y = dget (upsert now (overwrites s) tA y (resolve tA n)) y).
  Proof.
    pose proof (targets_used s N F y Hy) as U.
    pose proof (used_nodup s N F D) as ND.
    apply in_map_iff in U as ([z n] & E & U). cbn in E. subst z.
    pose proof U as U'. apply in_split in U as (A & B & E). exists A, n, B.
    split; [auto|]. split; [|split].
    - intros c Hc. eapply edge_sets; eauto.
    - intros d c Hd Hc.
      destruct (sets_placed s y d N F O Hd) as [(A' & n' & B' & E' & M & _)|(x & k & b & kw & dc & -> & ->)].
      + assert (n = n') as ->; [|auto].
        apply (nodup_edge (used_edges s) y); auto. rewrite E'. apply in_app_iff. right. now left.
      + destruct O as (_ & _ & Ok). destruct (Ok c Hc).
    - rewrite E, map_app in ND.
      assert (NA : ~ In y (map fst A)).
      { apply NoDup_remove_2 in ND. intros K. apply ND, in_app_iff. now left. }
      assert (NB : ~ In y (map fst B)).
      { apply NoDup_remove_2 in ND. intros K. apply ND, in_app_iff. now right. }
      assert (LV : forall x, In x (map fst (used_edges s)) -> live g' x = true).
      { intros x Hx. apply live_true.
        destruct (head_facts I s g g' l N (firm_seen s F) H) as (_ & K & _ & K'). auto. }
      assert (Ly : live g' y = true).
      { apply LV. rewrite E, map_app, in_app_iff. right. now left. }
      cbn zeta. set (tA := record_all now (live g') (overwrites s) A t).
      destruct (record_all_facts now (live g') (overwrites s) A t) as [R1 R2]. fold tA in R1, R2.
      split; [apply R2; tauto|]. split.
      + intros c. destruct (in_dec Nat.eq_dec c (map fst A)) as [i|i]; [|left; apply R2; tauto].
        right. split; [congruence|].
        unfold t'. rewrite finish_record by auto. rewrite E. unfold record_all.
        rewrite fold_left_app. cbn [fold_left]. fold (record_all now (live g') (overwrites s) A t). fold tA.
        fold (record_all now (live g') (overwrites s) B
                (record now (live g') (overwrites s) tA (y, n))).
        assert (~ In c (map fst ((y, n) :: B))) as NC.
        { intros K. clear - ND i K. induction (map fst A) as [|z zs IH]; [destruct i|].
          cbn in ND. inversion ND; subst. destruct i as [->|i]; [|auto].
          apply H1, in_app_iff. now right. }
        cbn [map fst In] in NC.
        destruct (record_all_facts now (live g') (overwrites s) B
                    (record now (live g') (overwrites s) tA (y, n))) as [_ R].
        rewrite R by tauto. cbn [record]. rewrite Ly, upsert_get.
        destruct (Nat.eqb_spec c y) as [->|]; [tauto|auto].
      + unfold t'. rewrite finish_record by auto. rewrite E.
        apply (final_deps now (live g') (overwrites s) A y n B t NB Ly).
  Qed.

  Lemma deps_only r d : dget t' y = Some r -> In d (deps r) ->
    (exists e, sets s y e /\ mentions e d)
    \/ (exists r0, dget t y = Some r0 /\ In d (deps r0)
        /\ (needs_self s y \/ (exists x k e, s = SAug x k e)
            \/ exists e c rc, sets s y e /\ mentions e c /\ (dget t c = Some rc \/ dget t' c = Some rc)
                 /\ In y (deps rc))).
  Proof.
    intros Hr Hd. destruct recorded as (A & n & B & E & M1 & M2 & Ro & Rc & Rf).
    set (tA := record_all now (live g') (overwrites s) A t) in *.
    rewrite Hr in Rf. unfold upsert in Rf. rewrite dget_dset_same in Rf. inversion Rf; subst. clear Rf.
    cbn [deps] in Hd. apply In_supd in Hd as [Hd|Hd].
    - right. rewrite Ro in Hd.
      destruct (overwrites s) eqn:Ov; cbn [andb] in Hd.
      2: { destruct (dget t y) as [r0|]; [|destruct Hd]. exists r0. split; [auto|]. split; [auto|].
           right. left. destruct s; cbn in Ov; try discriminate. eauto. }
      destruct (memb y (resolve tA n)) eqn:My; cbn [negb andb] in Hd.
      { destruct (dget t y) as [r0|] eqn:Dy; [|destruct Hd]. exists r0. split; [auto|]. split; [auto|].
        left. right. apply memb_In, resolve_In in My as [My _].
        destruct (M1 y My) as (e & He & Hm). eauto. }
      destruct (existsb _ (resolve tA n)) eqn:Ex; cbn [negb] in Hd; [|destruct Hd].
      destruct (dget t y) as [r0|] eqn:Dy; [|destruct Hd]. exists r0. split; [auto|]. split; [auto|].
      right. right. apply existsb_exists in Ex as (c & Hc & Kc).
      apply resolve_In in Hc as [Hc _]. destruct (M1 c Hc) as (e & He & Hm).
      destruct (dget tA c) as [rc|] eqn:Dc; [|discriminate]. apply memb_In in Kc.
      exists e, c, rc. split; [auto|]. split; [auto|]. split; [|auto].
      destruct (Rc c) as [K|[_ K]]; [left|right]; congruence.
    - left. apply In_sdiff in Hd as [Hd _]. apply resolve_In in Hd as [Hd _]. auto.
  Qed.

  Lemma deps_kept r0 d : needs_self s y -> dget t y = Some r0 -> In d (deps r0) ->
    exists r, dget t' y = Some r /\ In d (deps r).
  Proof.
    intros NS Hr Hd. destruct recorded as (A & n & B & E & M1 & M2 & Ro & Rc & Rf).
    set (tA := record_all now (live g') (overwrites s) A t) in *.
    unfold upsert in Rf. rewrite dget_dset_same in Rf.
    eexists. split; [exact Rf|]. cbn [deps]. apply In_supd. left. rewrite Ro, Hr.
    assert (overwrites s && negb (memb y (resolve tA n)) = false) as ->.
    { destruct NS as [NS|(e & He & Hm)].
      - destruct s; solve [tauto|reflexivity].
      - assert (memb y (resolve tA n) = true) as ->; [|now rewrite andb_false_r].
        apply memb_In, resolve_In. split; [eauto|]. rewrite Ro, Hr. discriminate. }
    cbn. exact Hd.
  Qed.
End Only.
