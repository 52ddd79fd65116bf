(** Lemmas about the frontend closure. *)
Require Import List Bool Arith Lia.
Import ListNotations.
Require Import Verif.Base Verif.Loops Verif.StoreModel Verif.StoreSpec.

Definition succ_of (edges : dict (list nat)) (x : nat) : list (res nat) := map Ok (entry edges x).

Definition rel_of (edges : dict (list nat)) (a b : nat) : Prop :=
  exists l, dget edges a = Some l /\ In b l.

Lemma In_entry edges a b : In b (entry edges a) <-> rel_of edges a b.
Proof.
  unfold entry, rel_of. destruct (dget edges a) as [l|]; split.
  - eauto.
  - intros (l' & [= <-] & I). auto.
  - intros [].
  - intros (l' & E & _). discriminate.
Qed.

Lemma edge_rel edges a b : edge (succ_of edges) a b <-> rel_of edges a b.
Proof.
  unfold edge, succ_of. rewrite <- In_entry, in_map_iff. split.
  - intros (x & [= ->] & I). auto.
  - eauto.
Qed.

Lemma reach_edge_rel edges a b : reach (edge (succ_of edges)) a b <-> reach (rel_of edges) a b.
Proof. split; apply reach_mono; intros; now apply edge_rel. Qed.

(** ** Push mode *)

Definition body (S : store) f edges := fun (c : list nat) r => helper S f edges false false r c.

Lemma helper_push S edges f : forall x c,
  helper S f edges false false x c = dfs (succ_of edges) f c x.
Proof.
  induction f as [|f IH]; intros x c; [reflexivity|]. simpl.
  destruct (memb x c) eqn:M; [reflexivity|].
  assert (A : sadd x c = c ++ [x]) by (unfold sadd; now rewrite M). rewrite A.
  unfold succ_of, entry. destruct (dget edges x) as [rel|] eqn:D; [|reflexivity].
  rewrite rfold_map. cbn [rbind].
  rewrite (rfold_ext (fun c r => helper S f edges false false r c) (dfs (succ_of edges) f)) by (intros; apply IH).
  destruct (rfold _ rel (c ++ [x])); reflexivity.
Qed.

Lemma helper_push_skip S edges f x c : helper S (Datatypes.S f) edges false true x c =
  rfold (dfs (succ_of edges) f) (entry edges x) (sadd x c).
Proof.
  simpl. unfold entry. destruct (dget edges x) as [rel|] eqn:D; [|reflexivity].
  rewrite (rfold_ext (fun c r => helper S f edges false false r c) (dfs (succ_of edges) f))
    by (intros; apply helper_push).
  destruct (rfold _ rel (sadd x c)); reflexivity.
Qed.

(** A loop of searches. *)
Lemma dfs_list edges f l : forall c c', rfold (dfs (succ_of edges) f) l c = Ok c' ->
  incl c c' /\ incl l c' /\ (NoDup c -> NoDup c') /\
  (forall y, In y c' -> ~ In y c -> exists x, In x l /\ reach (rel_of edges) x y) /\
  (forall y z, In y c' -> ~ In y c -> rel_of edges y z -> In z c').
Proof.
  induction l as [|x l IH]; simpl; intros c c' H.
  - injection H as <-. split; [apply incl_refl|]. split; [intros ? []|]. split; auto.
    split; intros; contradiction.
  - apply rbind_Ok in H. destruct H as (c1 & H1 & H2).
    pose proof (dfs_sound_complete _ _ _ _ _ H1) as (D1 & D2 & D3 & D4).
    pose proof (fun N => dfs_NoDup _ _ _ _ _ N H1) as DN.
    destruct (IH _ _ H2) as (I1 & I2 & I3 & I4 & I5).
    split; [eapply incl_tran; eauto|]. split; [intros y [<-|Y]; auto|]. split; auto. split.
    + intros y Y N. destruct (in_dec Nat.eq_dec y c1) as [i|n].
      * exists x. split; auto. apply reach_edge_rel. auto.
      * destruct (I4 y Y n) as (w & W & R). eauto.
    + intros y z Y N R. destruct (in_dec Nat.eq_dec y c1) as [i|n]; [|eauto].
      apply edge_rel in R. destruct (D4 y (Ok z) i N R) as (w & [= <-] & W). auto.
Qed.

(** The loop over the seeds: [ids] are in the closure to start with. *)
Lemma seeds_loop S edges f ids : forall c c',
  rfold (fun c x => helper S f edges false true x c) ids c = Ok c' ->
  incl c c' /\ incl ids c' /\ (NoDup c -> NoDup c') /\
  (forall y, In y c' -> ~ In y c -> exists x, In x ids /\ reach (rel_of edges) x y) /\
  (forall y z, In y c' -> (~ In y c \/ In y ids) -> rel_of edges y z -> In z c').
Proof.
  induction ids as [|x ids IH]; intros c c' H; cbn [rfold] in H.
  - injection H as <-. split; [apply incl_refl|]. split; [intros ? []|]. split; auto.
    split; intros; [contradiction|]. destruct H0 as [?|[]]. contradiction.
  - apply rbind_Ok in H. destruct H as (c1 & H1 & H2).
    destruct f as [|f]; [discriminate|]. rewrite helper_push_skip in H1.
    destruct (dfs_list _ _ _ _ _ H1) as (D1 & D2 & D3 & D4 & D5).
    destruct (IH _ _ H2) as (I1 & I2 & I3 & I4 & I5).
    assert (X : In x c1) by (apply D1, In_sadd; auto).
    split; [intros y Y; apply I1, D1, In_sadd; auto|]. split; [intros y [<-|Y]; auto|].
    split; [intros N; apply I3, D3, NoDup_sadd; auto|]. split.
    + intros y Y N. destruct (in_dec Nat.eq_dec y c1) as [i|n].
      * destruct (Nat.eq_dec y x) as [->|Ne]; [exists x; split; [now left|constructor]|].
        destruct (D4 y i) as (w & W & R); [rewrite In_sadd; tauto|].
        exists x. split; [now left|]. econstructor; eauto. now apply In_entry.
      * destruct (I4 y Y n) as (w & W & R). exists w. split; [now right|auto].
    + intros y z Y N R. destruct (Nat.eq_dec y x) as [->|Ne].
      { apply I1. apply D2. now apply In_entry. }
      destruct (in_dec Nat.eq_dec y ids) as [j|j]; [eauto|].
      destruct (in_dec Nat.eq_dec y c1) as [i|n]; [|eauto].
      destruct N as [N|[N|N]]; [|congruence|contradiction].
      apply I1. eapply D5; eauto. rewrite In_sadd. tauto.
Qed.

Lemma In_supd_nil l x : In x (supd [] l) <-> In x l.
Proof. rewrite In_supd. simpl. tauto. Qed.

Lemma seeds_exact S edges f ids c : rfold (fun c x => helper S f edges false true x c) ids (supd [] ids) = Ok c ->
  NoDup c /\ forall y, In y c <-> exists x, In x ids /\ reach (rel_of edges) x y.
Proof.
  intros H. destruct (seeds_loop _ _ _ _ _ _ H) as (A & B & C & D & E).
  split; [apply C; apply NoDup_supd; constructor|]. intros y. split.
  - intros Y. destruct (in_dec Nat.eq_dec y (supd [] ids)) as [i|n]; [|auto].
    exists y. rewrite In_supd_nil in i. split; [auto|constructor].
  - intros (x & X & R). assert (X' : In x c) by auto. clear X.
    induction R as [x|x y z Rxy R IH]; auto. apply IH. eapply E; eauto.
    destruct (in_dec Nat.eq_dec x ids) as [i|n]; [auto|]. left. now rewrite In_supd_nil.
Qed.

(** Termination. *)
Lemma dfs_list_total edges U f l c : (forall a b, In a U -> rel_of edges a b -> In b U) ->
  incl l U -> length U < f -> exists c', rfold (dfs (succ_of edges) f) l c = Ok c'.
Proof.
  intros CL I F. apply rfold_total. intros x t Ix.
  destruct (dfs_fuel (succ_of edges) U f t x) as [H|(e & y & H & R & Q)]; auto.
  - intros v w V E. apply (CL v); auto. now apply edge_rel.
  - pose proof (unvisited_le U t). lia.
  - unfold succ_of in Q. apply in_map_iff in Q. destruct Q as (? & ? & ?). discriminate.
Qed.

Lemma seeds_total S edges U f ids c : (forall a b, In a U -> rel_of edges a b -> In b U) ->
  incl ids U -> length U + 1 < f ->
  exists c', rfold (fun c x => helper S f edges false true x c) ids c = Ok c'.
Proof.
  intros CL I F. apply rfold_total. intros x t X. destruct f as [|f]; [lia|].
  rewrite helper_push_skip. apply (dfs_list_total edges U); auto; [|lia].
  intros y Y. apply (CL x); auto. now apply In_entry.
Qed.

(** ** Pull mode *)

(** [c'] is [c] with elements added at the end. *)
Definition ext (c c' : list nat) : Prop := exists l, c' = c ++ l.

Lemma ext_refl c : ext c c. Proof. exists []. now rewrite app_nil_r. Qed.
Lemma ext_trans a b c : ext a b -> ext b c -> ext a c.
Proof. intros [l ->] [m ->]. exists (l ++ m). now rewrite app_assoc. Qed.
Lemma ext_sadd x c : ext c (sadd x c).
Proof. unfold sadd. destruct (memb x c); [apply ext_refl|]. now exists [x]. Qed.
Lemma ext_incl c c' : ext c c' -> incl c c'.
Proof. intros [l ->] y Y. apply in_app_iff. auto. Qed.
Lemma ext_len c c' : ext c c' -> length c <= length c'.
Proof. intros [l ->]. rewrite app_length. lia. Qed.
Lemma ext_same c c' : ext c c' -> length c' <= length c -> c' = c.
Proof.
  intros [l ->] L. rewrite app_length in L. destruct l; [now rewrite app_nil_r|simpl in L; lia].
Qed.
Lemma ext_nth c c' i x : ext c c' -> nth_error c i = Some x -> nth_error c' i = Some x.
Proof.
  intros [l ->] H. rewrite nth_error_app1; auto. apply nth_error_Some. congruence.
Qed.

(** The parts of one call that is not cut short. *)
Lemma helper_pull_inv S f x c c' skip : helper S (Datatypes.S f) (s_parents S) true skip x c = Ok c' ->
  (skip = false /\ In x c /\ c' = c) \/
  ((skip = true \/ ~ In x c) /\ dget (s_parents S) x = None /\ c' = c) \/
  ((skip = true \/ ~ In x c) /\ exists rel c1 c2, dget (s_parents S) x = Some rel /\
     rfold (fun c r => helper S f (s_parents S) true false r c) rel c = Ok c1 /\
     c2 = (if (Nat.ltb (length c) (length c1) || out_of_date S x)%bool then sadd x c1 else c1) /\
     ((~ In x c2 /\ c' = c2) \/
      (In x c2 /\ exists c3,
         rfold (fun c r => if memb r c then Ok c
                  else if stale_parent S x r c then helper S f (s_parents S) true true r (sadd r c)
                  else Ok c) rel c2 = Ok c3 /\
         rfold (fun c p => if memb (fst p) c then
             rfold (fun c q => if (memb q c || negb (memb q (entry (s_parents S) (fst p))))%bool then Ok c
                     else helper S f (s_parents S) true true q (sadd q c)) (snd p) c
             else Ok c) (row (s_by_child S) x) c3 = Ok c'))).
Proof.
  cbn [helper]. intros H.
  assert (K : (skip = false /\ In x c) \/ (skip = true \/ ~ In x c)).
  { destruct skip; auto. destruct (in_dec Nat.eq_dec x c); auto. }
  destruct (negb skip && memb x c)%bool eqn:E.
  { injection H as <-. apply andb_true_iff in E. destruct E as [E1 E2]. apply memb_In in E2.
    destruct skip; [discriminate|]. auto. }
  assert (K' : skip = true \/ ~ In x c).
  { destruct skip; auto. simpl in E. apply memb_nIn in E. auto. }
  right. destruct (dget (s_parents S) x) as [rel|]; [|left; injection H as <-; auto]. right.
  split; auto. apply rbind_Ok in H. destruct H as (c1 & H1 & H2). cbv zeta in H2.
  cbn [andb] in H2. change (negb true) with false in H2. cbn [orb] in H2.
  exists rel, c1. eexists. split; [reflexivity|]. split; [exact H1|]. split; [reflexivity|].
  destruct (memb x _) eqn:M in H2; cbn [negb] in H2.
  - right. split; [now apply memb_In|]. apply rbind_Ok in H2. destruct H2 as (c3 & H3 & H4). eauto.
  - left. split; [now apply memb_nIn|]. now injection H2 as <-.
Qed.

(** An invariant of a call from invariants of its steps: the closure only grows, and a set
    that contains the start and is closed under parents is not left. *)
Lemma helper_pull_sound S f : forall x c c' skip,
  helper S f (s_parents S) true skip x c = Ok c' ->
  ext c c' /\ (NoDup c -> NoDup c') /\
  forall Q : nat -> Prop, Q x -> (forall y, In y c -> Q y) -> (forall a b, Q a -> parent S a b -> Q b) ->
    forall y, In y c' -> Q y.
Proof.
  induction f as [|f IH]; intros x c c' skip H; [discriminate|].
  assert (L1 : forall rel c c', rfold (fun c r => helper S f (s_parents S) true false r c) rel c = Ok c' ->
    ext c c' /\ (NoDup c -> NoDup c') /\
    forall Q : nat -> Prop, (forall r, In r rel -> Q r) -> (forall y, In y c -> Q y) ->
      (forall a b, Q a -> parent S a b -> Q b) -> forall y, In y c' -> Q y).
  { clear -IH. intros rel c c' H.
    revert c H. induction rel as [|r rel IHr]; simpl; intros c H.
    - injection H as <-. split; [apply ext_refl|auto].
    - apply rbind_Ok in H. destruct H as (c1 & H1 & H2).
      destruct (IH _ _ _ _ H1) as (A1 & A2 & A3). destruct (IHr _ H2) as (B1 & B2 & B3).
      split; [eapply ext_trans; eauto|]. split; [auto|].
      intros Q Qr Qc Qp. apply (B3 Q); auto; try (intros; apply Qr; now right). apply (A3 Q); auto; try (apply Qr; now left). }
  destruct (helper_pull_inv _ _ _ _ _ _ H) as [(_ & _ & ->)|[(_ & _ & ->)|(K & rel & c1 & c2 & D & H1 & E2 & T)]].
  - split; [apply ext_refl|auto].
  - split; [apply ext_refl|auto].
  - destruct (L1 _ _ _ H1) as (A1 & A2 & A3).
    assert (B : ext c1 c2 /\ (NoDup c1 -> NoDup c2) /\ forall y, In y c2 -> y = x \/ In y c1).
    { subst c2. destruct (_ || _)%bool.
      - split; [apply ext_sadd|]. split; [apply NoDup_sadd|]. intros y. now rewrite In_sadd.
      - split; [apply ext_refl|auto]. }
    destruct B as (B1 & B2 & B3).
    assert (PX : forall (Q : nat -> Prop), Q x -> (forall a b, Q a -> parent S a b -> Q b) ->
      forall r, In r rel -> Q r).
    { intros Q Qx Qp r R. eapply Qp; eauto. exists rel. auto. }
    destruct T as [(_ & ->)|(_ & c3 & H3 & H4)].
    + split; [eapply ext_trans; eauto|]. split; [auto|]. intros Q Qx Qc Qp y Y.
      destruct (B3 y Y) as [->|Y']; auto. exact (A3 Q (PX Q Qx Qp) Qc Qp y Y').
    + assert (C : ext c2 c3 /\ (NoDup c2 -> NoDup c3) /\
        forall Q : nat -> Prop, (forall r, In r rel -> Q r) -> (forall y, In y c2 -> Q y) ->
          (forall a b, Q a -> parent S a b -> Q b) -> forall y, In y c3 -> Q y).
      { clear -IH H3. revert c2 H3. induction rel as [|r rel IHr]; cbn [rfold]; intros c2 H.
        - injection H as <-. split; [apply ext_refl|auto].
        - apply rbind_Ok in H. destruct H as (t & H1 & H2). destruct (IHr _ H2) as (B1 & B2 & B3).
          assert (A : ext c2 t /\ (NoDup c2 -> NoDup t) /\
            forall Q : nat -> Prop, Q r -> (forall y, In y c2 -> Q y) ->
              (forall a b, Q a -> parent S a b -> Q b) -> forall y, In y t -> Q y).
          { destruct (memb r c2); [injection H1 as <-; split; [apply ext_refl|auto]|].
            destruct (stale_parent S x r c2); [|injection H1 as <-; split; [apply ext_refl|auto]].
            destruct (IH _ _ _ _ H1) as (A1 & A2 & A3).
            split; [eapply ext_trans; [apply ext_sadd|eauto]|]. split; [intros; apply A2, NoDup_sadd; auto|].
            intros Q Qr Qc Qp. apply (A3 Q); auto; try (apply Qr; now left). intros y. rewrite In_sadd. intros [->|Y]; auto. }
          destruct A as (A1 & A2 & A3).
          split; [eapply ext_trans; eauto|]. split; [auto|].
          intros Q Qr Qc Qp. apply (B3 Q); auto; try (intros; apply Qr; now right). apply (A3 Q); auto; try (apply Qr; now left). }
      destruct C as (C1 & C2 & C3).
      assert (G : ext c3 c' /\ (NoDup c3 -> NoDup c') /\
        forall Q : nat -> Prop, (forall y, In y c3 -> Q y) ->
          (forall a b, Q a -> parent S a b -> Q b) -> forall y, In y c' -> Q y).
      { clear -IH H4. revert c3 H4. generalize (row (s_by_child S) x).
        intros l. induction l as [|[k ps] l IHl]; cbn [rfold]; intros c3 H.
        - injection H as <-. split; [apply ext_refl|auto].
        - apply rbind_Ok in H. destruct H as (t & H1 & H2). destruct (IHl _ H2) as (B1 & B2 & B3).
          cbn [fst snd] in H1.
          assert (A : ext c3 t /\ (NoDup c3 -> NoDup t) /\
            forall Q : nat -> Prop, (forall y, In y c3 -> Q y) ->
              (forall a b, Q a -> parent S a b -> Q b) -> forall y, In y t -> Q y).
          { destruct (memb k c3) eqn:Mk; [|injection H1 as <-; split; [apply ext_refl|auto]].
            apply memb_In in Mk. clear H2 B1 B2 B3 IHl.
            revert c3 Mk H1. induction ps as [|q ps IHp]; cbn [rfold]; intros c3 Mk H1.
            - injection H1 as <-. split; [apply ext_refl|auto].
            - apply rbind_Ok in H1. destruct H1 as (u & H1 & H2).
              assert (A : ext c3 u /\ (NoDup c3 -> NoDup u) /\
                forall Q : nat -> Prop, (forall y, In y c3 -> Q y) ->
                  (forall a b, Q a -> parent S a b -> Q b) -> forall y, In y u -> Q y).
              { destruct (memb q c3); [injection H1 as <-; split; [apply ext_refl|auto]|]. cbn [orb] in H1.
                destruct (memb q (entry (s_parents S) k)) eqn:Mq; cbn [negb] in H1;
                  [|injection H1 as <-; split; [apply ext_refl|auto]].
                destruct (IH _ _ _ _ H1) as (A1 & A2 & A3).
                split; [eapply ext_trans; [apply ext_sadd|eauto]|]. split; [intros; apply A2, NoDup_sadd; auto|].
                intros Q Qc Qp. apply memb_In in Mq. apply In_entry in Mq.
                assert (Q q) by (eapply Qp; [apply Qc; exact Mk|exact Mq]).
                apply (A3 Q); auto; try (apply Qr; now left). intros y. rewrite In_sadd. intros [->|Y]; auto. }
              destruct A as (A1 & A2 & A3).
              destruct (IHp u) as (B1 & B2 & B3); auto; [apply (ext_incl _ _ A1); auto|].
              split; [eapply ext_trans; eauto|]. split; [auto|].
              intros Q Qc Qp. apply (B3 Q); auto; try (intros; apply Qr; now right). apply (A3 Q); auto; try (apply Qr; now left). }
          destruct A as (A1 & A2 & A3).
          split; [eapply ext_trans; eauto|]. split; [auto|].
          intros Q Qc Qp. apply (B3 Q); auto; try (intros; apply Qr; now right). apply (A3 Q); auto; try (apply Qr; now left). }
      destruct G as (G1 & G2 & G3).
      split; [eapply ext_trans; [|exact G1]; eapply ext_trans; [|exact C1]; eapply ext_trans; eauto|].
      split; [auto|].
      intros Q Qx Qc Qp. pose proof (PX Q Qx Qp) as Qr.
      apply (G3 Q); auto. apply (C3 Q); auto. intros y Y. destruct (B3 y Y) as [->|Y']; auto. exact (A3 Q Qr Qc Qp y Y').
Qed.

Lemma ext_helper S f x c c' skip : helper S f (s_parents S) true skip x c = Ok c' -> ext c c'.
Proof. intros H. apply helper_pull_sound in H. tauto. Qed.

Lemma ext_second S f x rel c c' :
  rfold (fun c r => if memb r c then Ok c
           else if stale_parent S x r c then helper S f (s_parents S) true true r (sadd r c)
           else Ok c) rel c = Ok c' -> ext c c'.
Proof.
  intros H. apply (rfold_inv _ (fun t => ext c t)) in H; auto using ext_refl.
  intros a t t' _ E H'. destruct (memb a t); [now injection H' as <-|].
  destruct (stale_parent S x a t); [|now injection H' as <-].
  apply ext_helper in H'. eapply ext_trans; [|exact H']. eapply ext_trans; [exact E|apply ext_sadd].
Qed.

Lemma ext_inner S f k ps c c' :
  rfold (fun c q => if (memb q c || negb (memb q (entry (s_parents S) k)))%bool then Ok c
           else helper S f (s_parents S) true true q (sadd q c)) ps c = Ok c' -> ext c c'.
Proof.
  intros H. apply (rfold_inv _ (fun t => ext c t)) in H; auto using ext_refl.
  intros a t t' _ E H'. destruct (_ || _)%bool; [now injection H' as <-|].
  apply ext_helper in H'. eapply ext_trans; [|exact H']. eapply ext_trans; [exact E|apply ext_sadd].
Qed.

Lemma ext_third S f l c c' :
  rfold (fun c p => if memb (fst p) c then
      rfold (fun c q => if (memb q c || negb (memb q (entry (s_parents S) (fst p))))%bool then Ok c
              else helper S f (s_parents S) true true q (sadd q c)) (snd p) c
      else Ok c) l c = Ok c' -> ext c c'.
Proof.
  intros H. apply (rfold_inv _ (fun t => ext c t)) in H; auto using ext_refl.
  intros a t t' _ E H'. destruct (memb (fst a) t); [|now injection H' as <-].
  apply ext_inner in H'. eapply ext_trans; eauto.
Qed.

Lemma rfold_steps {A} (f : list nat -> A -> res (list nat)) l : forall s s',
  (forall a t t', In a l -> f t a = Ok t' -> ext t t') -> rfold f l s = Ok s' ->
  ext s s' /\ forall a, In a l -> exists t t', f t a = Ok t' /\ ext s t /\ ext t' s'.
Proof.
  induction l as [|a l IH]; simpl; intros s s' E H.
  - injection H as <-. split; [apply ext_refl|intros ? []].
  - apply rbind_Ok in H. destruct H as (t & H1 & H2).
    assert (E1 : ext s t) by eauto. destruct (IH t s') as (I1 & I2); eauto.
    split; [eapply ext_trans; eauto|]. intros b [<-|B].
    + exists s, t. auto using ext_refl.
    + destruct (I2 b B) as (u & u' & ? & ? & ?). exists u, u'. split; [auto|]. split; [|auto].
      eapply ext_trans; eauto.
Qed.

Lemma out_of_date_spec S x : out_of_date S x = true <-> needs_run S x.
Proof.
  unfold out_of_date, needs_run. rewrite !orb_true_iff, negb_true_iff, !memb_In.
  split; intros [[[H|H]|H]|H] || intros [H|[H|[H|H]]]; auto 6.
  - left. now apply memb_nIn.
  - left. left. left. now apply memb_nIn.
Qed.

Inductive path {A} (R : A -> A -> Prop) : nat -> A -> A -> Prop :=
| path_0 x : path R 0 x x
| path_S n x y z : R x y -> path R n y z -> path R (S n) x z.

Lemma reach_path {A} (R : A -> A -> Prop) x y : reach R x y -> exists n, path R n x y.
Proof. induction 1 as [|x y z H _ [n IH]]; [exists 0; constructor|]. exists (S n). econstructor; eauto. Qed.

Lemma path_reach {A} (R : A -> A -> Prop) n x y : path R n x y -> reach R x y.
Proof. induction 1; [constructor|econstructor; eauto]. Qed.

Lemma path_inv {A} (R : A -> A -> Prop) n x a : path R n x a ->
  (n = 0 /\ x = a) \/ exists n' y, n = S n' /\ R x y /\ path R n' y a.
Proof. destruct 1; eauto 8. Qed.

(** Whatever needs to run above [x] is reached, or there is a nearer start in the closure. *)
Lemma helper_pull_complete S f : parents_listed S -> forall x c c' skip,
  helper S f (s_parents S) true skip x c = Ok c' ->
  ((exists l, dget (s_parents S) x = Some l) \/ In x c) ->
  forall n a, path (parent S) n x a -> needs_run S a ->
    (exists b m, In b c' /\ path (parent S) m b a /\ m <= n) /\
    ((skip = true \/ ~ In x c) -> In a c' \/ exists b m, In b c' /\ path (parent S) m b a /\ m < n).
Proof.
  intros PL. induction f as [|f IH]; intros x c c' skip H LX n a P N; [discriminate|].
  pose proof (ext_helper _ _ _ _ _ _ H) as EX.
  assert (BA : (In a c' \/ exists b m, In b c' /\ path (parent S) m b a /\ m < n) ->
    exists b m, In b c' /\ path (parent S) m b a /\ m <= n).
  { intros [I|(b & m & B1 & B2 & B3)]; [exists a, 0; split; [auto|split; [constructor|lia]]|].
    exists b, m. split; [auto|split; [auto|lia]]. }
  destruct (helper_pull_inv _ _ _ _ _ _ H) as [(K1 & K2 & ->)|[(K & D & ->)|(K & rel & c1 & c2 & D & H1 & E2 & T)]].
  - split; [exists x, n; auto|]. intros [?|?]; [congruence|contradiction].
  - assert (X : In a c).
    { inversion P; subst.
      - destruct LX as [[l L]|L]; [congruence|auto].
      - destruct H0 as (l & L & _). congruence. }
    split; auto.
  - assert (B : In a c' \/ exists b m, In b c' /\ path (parent S) m b a /\ m < n).
    { assert (E1 : ext c1 c') .
      { assert (ext c1 c2) by (subst c2; destruct (_ || _)%bool; [apply ext_sadd|apply ext_refl]).
        destruct T as [(_ & ->)|(_ & c3 & H3 & H4)]; auto.
        apply ext_second in H3. apply ext_third in H4. eapply ext_trans; [eauto|]. eapply ext_trans; eauto. }
      destruct (path_inv _ _ _ _ P) as [(-> & ->)|(n' & y & -> & R & P')].
      - left. assert (I : In a c2).
        { rewrite E2. rewrite (proj2 (out_of_date_spec S a) N), orb_true_r. apply In_sadd. auto. }
        destruct T as [(_ & ->)|(_ & c3 & H3 & H4)]; auto.
        apply ext_second in H3. apply ext_third in H4. apply (ext_incl _ _ H4), (ext_incl _ _ H3). auto.
      - right. destruct R as (l & L & Iy). rewrite D in L. injection L as <-.
        destruct (rfold_steps _ _ _ _ (fun a t t' _ => ext_helper S f a t t' false) H1) as (_ & ST).
        destruct (ST y Iy) as (t & t' & Hy & _ & Et).
        destruct (IH _ _ _ _ Hy) with (n := n') (a := a) as ((b & m & B1 & B2 & B3) & _); auto.
        { left. eapply PL. exists rel. eauto. }
        exists b, m. split; [apply (ext_incl _ _ E1), (ext_incl _ _ Et); auto|]. split; [auto|lia]. }
    split; auto.
Qed.

Lemma step_second S f x a t t' :
  (if memb a t then Ok t
   else if stale_parent S x a t then helper S f (s_parents S) true true a (sadd a t) else Ok t) = Ok t' ->
  ext t t'.
Proof.
  destruct (memb a t); [intros [= <-]; apply ext_refl|].
  destruct (stale_parent S x a t); [|intros [= <-]; apply ext_refl].
  intros Q. apply ext_helper in Q. eapply ext_trans; [apply ext_sadd|exact Q].
Qed.

Lemma step_third S f (a : nat * list nat) t t' :
  (if memb (fst a) t then
     rfold (fun c q => if (memb q c || negb (memb q (entry (s_parents S) (fst a))))%bool then Ok c
              else helper S f (s_parents S) true true q (sadd q c)) (snd a) t
   else Ok t) = Ok t' -> ext t t'.
Proof. destruct (memb (fst a) t); [apply ext_inner|intros [= <-]; apply ext_refl]. Qed.

Lemma step_inner S f k a t t' :
  (if (memb a t || negb (memb a (entry (s_parents S) k)))%bool then Ok t
   else helper S f (s_parents S) true true a (sadd a t)) = Ok t' -> ext t t'.
Proof.
  destruct (_ || _)%bool; [intros [= <-]; apply ext_refl|].
  intros Q. apply ext_helper in Q. eapply ext_trans; [apply ext_sadd|exact Q].
Qed.

(** What a call for a cell of the closure does about stale parents. *)
Lemma helper_pull_stale S f x c c' rel : helper S f (s_parents S) true true x c = Ok c' -> In x c ->
  dget (s_parents S) x = Some rel ->
  (forall p, In p rel -> stale_for S x p -> In p c') /\
  (forall e p, In e c -> In p rel -> stale_once_a S x e p -> In p c') /\
  (forall k p, In k c -> parent S k p -> stale_once_b S k x p -> In p c').
Proof.
  intros H X D. destruct f as [|f]; [discriminate|].
  destruct (helper_pull_inv _ _ _ _ _ _ H) as [(K1 & K2 & ->)|[(K & D' & ->)|(K & rel' & c1 & c2 & D' & H1 & E2 & T)]];
    [discriminate|congruence|].
  rewrite D in D'. injection D' as <-.
  assert (E1 : ext c c2).
  { apply rfold_steps in H1; [|intros a t t' _; apply ext_helper].
    destruct H1 as [E1 _]. eapply ext_trans; [exact E1|]. subst c2. destruct (_ || _)%bool; [apply ext_sadd|apply ext_refl]. }
  destruct T as [(N & _)|(_ & c3 & H3 & H4)]; [exfalso; apply N; apply (ext_incl _ _ E1); auto|].
  pose proof (ext_third _ _ _ _ _ H4) as E4.
  assert (S3 : forall p, In p rel -> (forall t, ext c2 t -> stale_parent S x p t = true) -> In p c').
  { intros p Ip SP. apply (ext_incl _ _ E4).
    destruct (rfold_steps _ _ _ _ (fun a t t' _ Q => step_second S f x a t t' Q) H3) as (_ & ST).
    destruct (ST p Ip) as (t & t' & Q & Et & Et'). apply (ext_incl _ _ Et').
    destruct (memb p t) eqn:M; [injection Q as <-; now apply memb_In|].
    rewrite (SP t Et) in Q. apply ext_helper in Q. apply (ext_incl _ _ Q), In_sadd. auto. }
  split; [|split].
  - intros p Ip (l & L & I). apply S3; auto. intros t _. unfold stale_parent, entry. rewrite L.
    rewrite (proj2 (memb_In _ _) I). reflexivity.
  - intros e p Ie Ip (d & l & L & I & J). apply S3; auto. intros t Et. unfold stale_parent, row. rewrite L.
    apply orb_true_iff. right. apply existsb_exists. exists (e, l). split; auto. simpl.
    apply andb_true_iff. split; apply memb_In; auto. apply (ext_incl _ _ Et), (ext_incl _ _ E1). auto.
  - intros k p Ik Pk (d & l & L & I & J). pose proof (ext_second _ _ _ _ _ _ H3) as E3.
    unfold row in H4. rewrite L in H4.
    destruct (rfold_steps _ _ _ _ (fun a t t' _ Q => step_third S f a t t' Q) H4) as (_ & ST).
    destruct (ST (k, l) I) as (t & t' & Q & Et & Et'). cbn [fst snd] in Q.
    assert (Mk : memb k t = true).
    { apply memb_In. apply (ext_incl _ _ Et), (ext_incl _ _ E3), (ext_incl _ _ E1). auto. }
    rewrite Mk in Q.
    destruct (rfold_steps _ _ _ _ (fun a t t' _ Q => step_inner S f k a t t' Q) Q) as (_ & ST2).
    destruct (ST2 p J) as (u & u' & Q2 & Eu & Eu'). apply (ext_incl _ _ Et'), (ext_incl _ _ Eu').
    destruct (memb p u) eqn:M; cbn [orb] in Q2; [injection Q2 as <-; now apply memb_In|].
    apply In_entry in Pk. rewrite (proj2 (memb_In _ _) Pk) in Q2. cbn [negb] in Q2.
    apply ext_helper in Q2. apply (ext_incl _ _ Q2), In_sadd. auto.
Qed.

(** Without stale parents, only cells above which (or at which) something needs to run. *)
Lemma helper_pull_needed S f : s_stale S = [] -> s_by_exec S = [] -> s_by_child S = [] ->
  forall x c c' skip, NoDup c -> helper S f (s_parents S) true skip x c = Ok c' ->
  forall y, In y c' -> ~ In y c -> reach (parent S) x y /\ exists z, reach (parent S) y z /\ needs_run S z.
Proof.
  intros Z1 Z2 Z3. induction f as [|f IH]; intros x c c' skip ND H y Y N; [discriminate|].
  destruct (helper_pull_inv _ _ _ _ _ _ H) as [(K1 & K2 & ->)|[(K & D' & ->)|(K & rel & c1 & c2 & D & H1 & E2 & T)]];
    try contradiction.
  assert (L1 : forall y, In y c1 -> ~ In y c -> exists r, In r rel /\ reach (parent S) r y /\
            exists z, reach (parent S) y z /\ needs_run S z).
  { clear -IH H1 ND. revert c ND H1. induction rel as [|r rel IHr]; simpl; intros c ND H y Y N.
    - injection H as <-. contradiction.
    - apply rbind_Ok in H. destruct H as (t & H1 & H2). destruct (in_dec Nat.eq_dec y t) as [i|n].
      + destruct (IH _ _ _ _ ND H1 y i N) as (A & B). exists r. auto.
      + destruct (IHr t) with (y := y) as (q & A & B); auto.
        { apply helper_pull_sound in H1. destruct H1 as (_ & H1 & _). auto. }
        exists q. auto. }
  assert (PR : forall r, In r rel -> parent S x r) by (intros r R; exists rel; auto).
  assert (C2 : c' = c2).
  { destruct T as [(_ & ->)|(_ & c3 & H3 & H4)]; auto.
    unfold row in H4. rewrite Z3 in H4. simpl in H4. injection H4 as <-.
    apply (rfold_inv _ (fun t => t = c2)) in H3; auto.
    intros a t t' _ -> Q. destruct (memb a c2); [now injection Q as <-|].
    unfold stale_parent, row, entry in Q. rewrite Z1, Z2 in Q. simpl in Q. now injection Q as <-. }
  subst c'. subst c2.
  destruct (in_dec Nat.eq_dec y c1) as [i|n].
  { destruct (L1 y i N) as (r & R1 & R2 & R3). split; auto. econstructor; eauto. }
  destruct (Nat.ltb (length c) (length c1) || out_of_date S x)%bool eqn:E; [|contradiction].
  apply In_sadd in Y. destruct Y as [->|Y]; [|contradiction]. split; [constructor|].
  apply orb_true_iff in E. destruct E as [E|E].
  - apply Nat.ltb_lt in E.
    assert (exists w, In w c1 /\ ~ In w c) as (w & W1 & W2).
    { assert (N1 : NoDup c1).
      { apply (rfold_inv _ (fun t => NoDup t)) in H1; auto.
        intros a t t' _ NT Q. apply helper_pull_sound in Q. destruct Q as (_ & Q & _). auto. }
      apply rfold_steps in H1; [|intros a t t' _; apply ext_helper]. destruct H1 as [[l ->] _].
      destruct l as [|w l]; [rewrite app_nil_r in E; lia|]. exists w. split; [apply in_app_iff; right; now left|].
      intros W. eapply NoDup_remove_2; eauto. apply in_app_iff. auto. }
    destruct (L1 w W1 W2) as (r & R1 & R2 & z & Z4 & Z5). exists z. split; auto.
    econstructor; [apply PR; eauto|]. eapply reach_trans; eauto.
  - exists x. split; [constructor|]. now apply out_of_date_spec.
Qed.

(** ** Termination of pull mode *)

Lemma rfold_total_inv {A T} (f : T -> A -> res T) (P : T -> Prop) l : forall s, P s ->
  (forall a t, In a l -> P t -> exists t', f t a = Ok t' /\ P t') ->
  exists s', rfold f l s = Ok s' /\ P s'.
Proof.
  induction l as [|a l IH]; simpl; intros s Hs H; [eauto|].
  destruct (H a s) as (t & E & Ht); auto. rewrite E. simpl. apply IH; auto.
Qed.

Lemma unvisited_sadd U r c : In r U -> ~ In r c -> unvisited U (sadd r c) < unvisited U c.
Proof.
  intros I N. apply (unvisited_lt (fun _ => [])) with r; auto.
  - intros y Y. apply In_sadd. auto.
  - apply In_sadd. auto.
Qed.

Lemma helper_in S U f x c c' skip : (forall a b, In a U -> parent S a b -> In b U) ->
  helper S f (s_parents S) true skip x c = Ok c' -> In x U -> incl c U -> incl c' U.
Proof.
  intros CL H X I. apply helper_pull_sound in H. destruct H as (_ & _ & H).
  intros y Y. apply (H (fun z => In z U)); auto.
Qed.

Lemma helper_pull_total S U : (forall a b, In a U -> parent S a b -> In b U) -> no_circles S ->
  forall f x c skip stack, In x U -> incl c U -> NoDup stack -> incl stack U ->
  (forall s, In s stack -> reach1 (parent S) s x) ->
  unvisited U c * (length U + 1) + (length U - length stack) < f ->
  exists c', helper S f (s_parents S) true skip x c = Ok c'.
Proof.
  intros CL NC. induction f as [|f IH]; intros x c skip stack X CU ND IS RS F; [lia|].
  assert (NX : ~ In x stack) by (intros I; eapply NC; eauto).
  assert (LS : length stack < length U).
  { assert (N' : NoDup (x :: stack)) by (constructor; auto).
    assert (incl (x :: stack) U) by (intros y [<-|Y]; auto).
    pose proof (NoDup_incl_length N' H). simpl in *. lia. }
  assert (UP : forall r t sk, parent S x r -> ext c t -> incl t U ->
    exists t', helper S f (s_parents S) true sk r t = Ok t' /\ ext c t' /\ incl t' U).
  { intros r t sk R E I.
    destruct (IH r t sk (x :: stack)) as (t' & H); eauto.
    - constructor; auto.
    - intros y [<-|Y]; auto.
    - intros s [<-|Y]; [econstructor; [eauto|constructor]|]. eapply reach1_trans_r; eauto. now apply reach_one.
    - simpl. pose proof (unvisited_mono U c t (ext_incl _ _ E)). nia.
    - exists t'. split; [auto|]. split; [eapply ext_trans; eauto using ext_helper|]. eapply helper_in; eauto. }
  cbn [helper]. destruct (negb skip && memb x c)%bool; [eauto|]. cbv zeta.
  destruct (dget (s_parents S) x) as [rel|] eqn:D; [|eauto].
  assert (PR : forall r, In r rel -> parent S x r) by (intros r R; exists rel; auto).
  destruct (rfold_total_inv (fun c r => helper S f (s_parents S) true false r c)
    (fun t => ext c t /\ incl t U) rel c) as (c1 & H1 & E1 & I1).
  { split; [apply ext_refl|auto]. }
  { intros r t R [E I]. apply UP; auto. }
  rewrite H1. cbn [rbind andb orb]. change (negb true) with false. cbn [orb].
  set (c2 := if (_ || _)%bool then sadd x c1 else c1).
  assert (E2 : ext c c2 /\ incl c2 U).
  { unfold c2. destruct (_ || _)%bool; [|auto]. split; [eapply ext_trans; [eauto|apply ext_sadd]|].
    intros y. rewrite In_sadd. intros [->|Y]; auto. }
  destruct (negb (memb x c2)); [eauto|].
  assert (BIG : forall q t, In q U -> ext c t -> incl t U -> memb q t = false ->
    exists t', helper S f (s_parents S) true true q (sadd q t) = Ok t' /\ ext c t' /\ incl t' U).
  { intros q t Q E I M. apply memb_nIn in M.
    assert (incl (sadd q t) U) by (intros y; rewrite In_sadd; intros [->|Y]; auto).
    destruct (IH q (sadd q t) true []) as (t' & H'); auto.
    - constructor.
    - intros ? [].
    - intros ? [].
    - pose proof (unvisited_mono U c t (ext_incl _ _ E)). pose proof (unvisited_sadd U q t Q M). simpl. nia.
    - exists t'. split; auto. split; [|eapply helper_in; eauto].
      eapply ext_trans; [exact E|]. eapply ext_trans; [apply ext_sadd|]. eapply ext_helper; eauto. }
  edestruct (rfold_total_inv (fun c r => if memb r c then Ok c
                         else if stale_parent S x r c
                              then helper S f (s_parents S) true true r (sadd r c)
                              else Ok c)
    (fun t => ext c t /\ incl t U) rel c2) as (c3 & H3 & E3 & I3); auto.
  { intros r t R [E I]. destruct (memb r t) eqn:M; [eauto|].
    destruct (stale_parent S x r t); [|eauto]. apply BIG; eauto. }
  rewrite H3. cbn [rbind].
  edestruct (rfold_total_inv (fun c p =>
                    if memb (fst p) c then
                      rfold (fun c q =>
                        if (memb q c || negb (memb q (entry (s_parents S) (fst p))))%bool then Ok c
                        else helper S f (s_parents S) true true q (sadd q c)) (snd p) c
                    else Ok c)
    (fun t => ext c t /\ incl t U) (row (s_by_child S) x) c3) as (c4 & H4 & E4 & I4); auto.
  2:{ rewrite H4. eauto. }
  intros p t _ [E I]. destruct (memb (fst p) t) eqn:Mp; [|eauto]. apply memb_In in Mp.
  apply rfold_total_inv; auto. intros q u _ [E' I'].
  destruct (memb q u) eqn:M; cbn [orb]; [eauto|].
  destruct (memb q (entry (s_parents S) (fst p))) eqn:Mq; cbn [negb]; [|eauto].
  apply BIG; auto. apply memb_In in Mq. apply In_entry in Mq. apply (CL (fst p)); auto.
Qed.

(** ** The loop over the growing set *)

Lemma pull_loop_each S f n : forall i c c', pull_loop S f n i c = Ok c' ->
  ext c c' /\ (NoDup c -> NoDup c') /\
  (forall Q : nat -> Prop, (forall y, In y c -> Q y) -> (forall a b, Q a -> parent S a b -> Q b) ->
     forall y, In y c' -> Q y) /\
  forall j x, i <= j -> nth_error c' j = Some x ->
    exists t t', helper S f (s_parents S) true true x t = Ok t' /\ ext c t /\ ext t c' /\ ext t' c' /\ j < length t.
Proof.
  induction n as [|n IH]; intros i c c' H; [discriminate|]. simpl in H.
  destruct (nth_error c i) as [x|] eqn:E.
  - apply rbind_Ok in H. destruct H as (c1 & H1 & H2).
    pose proof (helper_pull_sound _ _ _ _ _ _ H1) as (E1 & N1 & Q1).
    destruct (IH _ _ _ H2) as (E2 & N2 & Q2 & J2).
    split; [eapply ext_trans; eauto|]. split; [auto|]. split.
    + intros Q Qc Qp. apply (Q2 Q); auto. apply (Q1 Q); auto. apply Qc. eapply nth_error_In; eauto.
    + intros j y L Y. destruct (Nat.eq_dec i j) as [<-|Ne].
      * assert (y = x).
        { apply (ext_nth _ _ _ _ (ext_trans _ _ _ E1 E2)) in E. congruence. }
        subst y. exists c, c1. split; [auto|]. split; [apply ext_refl|]. split; [eapply ext_trans; eauto|].
        split; [auto|]. apply nth_error_Some. congruence.
      * destruct (J2 j y) as (t & t' & A & B & C & D & F); [lia|auto|].
        exists t, t'. split; [auto|]. split; [eapply ext_trans; eauto|]. auto.
  - injection H as <-. split; [apply ext_refl|]. split; [auto|]. split; [auto|].
    intros j x L X. exfalso. apply nth_error_None in E.
    assert (j < length c) by (apply nth_error_Some; congruence). lia.
Qed.

(** What holds of the closure after pull mode. *)
Lemma pull_loop_closed S f n c c' : pull_loop S f n 0 c = Ok c' ->
  (forall x p, In x c' -> parent S x p -> stale_for S x p -> In p c') /\
  (maps_agree S -> forall x e p, In x c' -> In e c' -> parent S x p ->
     (exists l, dget (s_parents S) e = Some l) -> stale_once_a S x e p -> In p c') /\
  (parents_listed S -> forall x a, In x c' -> reach (parent S) x a -> needs_run S a -> In a c').
Proof.
  intros H. destruct (pull_loop_each _ _ _ _ _ _ H) as (E & _ & _ & J).
  assert (IDX : forall x, In x c' -> exists j, nth_error c' j = Some x) by (intros; now apply In_nth_error).
  assert (INT : forall t j k y, ext t c' -> j < length t -> k <= j -> nth_error c' k = Some y -> In y t).
  { intros t j k y Et Lj Lk Y. destruct (nth_error t k) as [y'|] eqn:T.
    - apply (ext_nth _ _ _ _ Et) in T as T'. assert (y = y') by congruence. subst. eapply nth_error_In; eauto.
    - apply nth_error_None in T. lia. }
  split; [|split].
  - intros x p X P SF. destruct (IDX x X) as (j & Hj). destruct (J j x) as (t & t' & A & B & C & D & L); [lia|auto|].
    destruct P as (rel & R & Ip). destruct (helper_pull_stale _ _ _ _ _ _ A (INT _ _ _ _ C L (le_n j) Hj) R) as (S1 & _).
    apply (ext_incl _ _ D). auto.
  - intros MA x e p X Ee P (le & Le) SO.
    destruct (IDX x X) as (j & Hj). destruct (IDX e Ee) as (k & Hk).
    destruct (Nat.le_gt_cases k j) as [KJ|KJ].
    + destruct (J j x) as (t & t' & A & B & C & D & L); [lia|auto|].
      destruct P as (rel & R & Ip). destruct (helper_pull_stale _ _ _ _ _ _ A (INT _ _ _ _ C L (le_n j) Hj) R) as (_ & S2 & _).
      apply (ext_incl _ _ D). apply (S2 e); auto. eapply INT; eauto.
    + destruct (J k e) as (t & t' & A & B & C & D & L); [lia|auto|].
      destruct (helper_pull_stale _ _ _ _ _ _ A (INT _ _ _ _ C L (le_n k) Hk) Le) as (_ & _ & S3).
      apply (ext_incl _ _ D). apply (S3 x); auto; [|now apply MA]. eapply INT; [exact C|exact L| |exact Hj]. lia.
  - intros PL x a X R N. apply reach_path in R. destruct R as (m & R). revert x X R.
    induction m as [m IH] using lt_wf_ind. intros x X R.
    destruct (IDX x X) as (j & Hj). destruct (J j x) as (t & t' & A & B & C & D & L); [lia|auto|].
    destruct (helper_pull_complete S f PL _ _ _ _ A (or_intror (INT _ _ _ _ C L (le_n j) Hj)) m a R N) as (_ & K).
    destruct (K (or_introl eq_refl)) as [I|(b & m' & B1 & B2 & B3)]; [apply (ext_incl _ _ D); auto|].
    eapply (IH m' B3 b); auto. apply (ext_incl _ _ D). auto.
Qed.

Lemma pull_loop_needed S f n : s_stale S = [] -> s_by_exec S = [] -> s_by_child S = [] ->
  forall i c c', NoDup c -> pull_loop S f n i c = Ok c' -> forall y, In y c' -> ~ In y c ->
  exists z, reach (parent S) y z /\ needs_run S z.
Proof.
  intros Z1 Z2 Z3. induction n as [|n IH]; intros i c c' ND H y Y N; [discriminate|]. simpl in H.
  destruct (nth_error c i) as [x|] eqn:E; [|injection H as <-; contradiction].
  apply rbind_Ok in H. destruct H as (c1 & H1 & H2).
  pose proof (helper_pull_sound _ _ _ _ _ _ H1) as (E1 & N1 & Q1).
  destruct (in_dec Nat.eq_dec y c1) as [j|j].
  - destruct (helper_pull_needed S f Z1 Z2 Z3 _ _ _ _ ND H1 y j N) as (_ & K). exact K.
  - exact (IH _ _ _ (N1 ND) H2 y Y j).
Qed.

Lemma pull_loop_total S U f : (forall a b, In a U -> parent S a b -> In b U) -> no_circles S ->
  length U * (length U + 1) + length U < f ->
  forall n i c, incl c U -> NoDup c -> length U < n + i -> i <= length c ->
  exists c', pull_loop S f n i c = Ok c' /\ incl c' U.
Proof.
  intros CL NC F. induction n as [|n IH]; intros i c I ND L Li.
  - pose proof (NoDup_incl_length ND I). lia.
  - simpl. destruct (nth_error c i) as [x|] eqn:E; [|eauto].
    assert (X : In x U) by (apply I; eapply nth_error_In; eauto).
    destruct (helper_pull_total S U CL NC f x c true []) as (c1 & H1); auto.
    + constructor.
    + intros ? [].
    + intros ? [].
    + simpl. pose proof (unvisited_le U c). nia.
    + rewrite H1. simpl. pose proof (helper_pull_sound _ _ _ _ _ _ H1) as (E1 & N1 & _).
      pose proof (ext_len _ _ E1). assert (i < length c) by (apply nth_error_Some; congruence).
      apply IH; auto; [|lia|lia]. eapply helper_in; eauto.
Qed.

(** ** The rounds *)

Lemma rounds_total S U f : (forall a b, In a U -> parent S a b -> In b U) ->
  (forall a b, In a U -> child S a b -> In b U) -> (s_pull S = true -> no_circles S) ->
  length U * (length U + 1) + length U + 1 < f ->
  forall n parents ids c, incl ids U -> incl c U -> NoDup c -> ids = c -> length U < n + length c ->
  exists c', rounds S f n parents ids c = Ok c'.
Proof.
  intros CP CC NC F. induction n as [|n IH]; intros parents ids c IU CU ND E L.
  - pose proof (NoDup_incl_length ND CU). lia.
  - cbn [rounds].
    set (edges := if parents then s_parents S else s_children S).
    assert (CE : forall a b, In a U -> rel_of edges a b -> In b U).
    { unfold edges. destruct parents; auto. }
    destruct (seeds_total S edges U f ids c CE IU) as (c1 & H1); [nia|].
    rewrite H1. cbn [rbind]. destruct (seeds_loop _ _ _ _ _ _ H1) as (A & B & C & D & _).
    destruct (parents || negb (s_pull S))%bool eqn:PP; [eauto|].
    apply orb_false_iff in PP. destruct PP as [-> PP]. apply negb_false_iff in PP.
    assert (C1 : incl c1 U).
    { intros y Y. destruct (in_dec Nat.eq_dec y c) as [i|i]; auto. destruct (D y Y i) as (x & X & R).
      clear -X R IU CE. assert (X' : In x U) by auto. clear X. induction R; eauto. }
    destruct (pull_loop_total S U f CP (NC PP)) with (n := f) (i := 0) (c := c1) as (c2 & H2 & I2); auto; try nia.
    rewrite H2. cbn [rbind]. destruct (pull_loop_each _ _ _ _ _ _ H2) as (E2 & N2 & _).
    destruct (Nat.eqb (length ids) (length c2) || negb (s_cousins S))%bool eqn:Q; [eauto|].
    apply orb_false_iff in Q. destruct Q as [Q _]. apply Nat.eqb_neq in Q.
    apply IH; auto. subst ids.
    pose proof (NoDup_incl_length ND A). pose proof (ext_len _ _ E2). lia.
Qed.

Lemma raw_total S U f start inclusive parents : (forall a b, In a U -> parent S a b -> In b U) ->
  (forall a b, In a U -> child S a b -> In b U) -> (s_pull S = true -> parents = false -> no_circles S) ->
  incl start U ->
  length U * (length U + 1) + length U + 2 < f ->
  exists c, raw_closure S f start inclusive parents = Ok c.
Proof.
  intros CP CC NC SU F. unfold raw_closure.
  enough (exists c, rounds S f f parents start (supd [] start) = Ok c) as (c & ->) by (simpl; eauto).
  assert (NS : NoDup (supd [] start)) by (apply NoDup_supd; constructor).
  assert (IS : incl (supd [] start) U) by (intros y; rewrite In_supd_nil; auto).
  destruct f as [|f]; [lia|]. cbn [rounds].
  set (edges := if parents then s_parents S else s_children S).
  assert (CE : forall a b, In a U -> rel_of edges a b -> In b U).
  { unfold edges. destruct parents; auto. }
  destruct (seeds_total S edges U (Datatypes.S f) start (supd [] start) CE SU) as (c1 & H1); [nia|].
  rewrite H1. cbn [rbind]. destruct (seeds_loop _ _ _ _ _ _ H1) as (A & B & C & D & _).
  destruct (parents || negb (s_pull S))%bool eqn:PP; [eauto|].
  apply orb_false_iff in PP. destruct PP as [-> PP]. apply negb_false_iff in PP.
  assert (C1 : incl c1 U).
  { intros y Y. destruct (in_dec Nat.eq_dec y (supd [] start)) as [i|i]; auto. destruct (D y Y i) as (x & X & R).
    clear -X R SU CE. assert (X' : In x U) by auto. clear X. induction R; eauto. }
  destruct (pull_loop_total S U (Datatypes.S f) CP (NC PP eq_refl)) with (n := Datatypes.S f) (i := 0) (c := c1)
    as (c2 & H2 & I2); auto; try nia.
  rewrite H2. cbn [rbind]. destruct (pull_loop_each _ _ _ _ _ _ H2) as (E2 & N2 & _).
  destruct (Nat.eqb (length start) (length c2) || negb (s_cousins S))%bool eqn:Q; [eauto|].
  apply (rounds_total S U (Datatypes.S f)); auto; nia.
Qed.

Lemma rounds_push S f n parents ids c c' : (parents || negb (s_pull S))%bool = true ->
  rounds S f n parents ids c = Ok c' ->
  rfold (fun c x => helper S f (if parents then s_parents S else s_children S) false true x c) ids c = Ok c'.
Proof.
  intros P H. destruct n; [discriminate|]. cbn [rounds] in H.
  apply rbind_Ok in H. destruct H as (c1 & H1 & H2). rewrite P in H2. now injection H2 as <-.
Qed.

Lemma rounds_pull S f : s_pull S = true -> forall n ids c C,
  rounds S f n false ids c = Ok C -> (forall y, In y ids <-> In y c) -> NoDup c ->
  NoDup C /\ incl c C /\
  (exists c1, pull_loop S f f 0 c1 = Ok C) /\
  (forall y z, In y c -> reach (child S) y z -> In z C) /\
  (s_cousins S = true -> NoDup ids -> forall y z, In y C -> child S y z -> In z C) /\
  (forall Q : nat -> Prop, (forall y, In y c -> Q y) -> (forall a b, Q a -> child S a b -> Q b) ->
     (forall a b, Q a -> parent S a b -> Q b) -> forall y, In y C -> Q y) /\
  (s_cousins S = false -> forall y, In y C -> exists x a, In x c /\ reach (child S) x a /\ reach (parent S) a y).
Proof.
  intros P. induction n as [|n IH]; intros ids c C H SAME ND; [discriminate|]. cbn [rounds] in H.
  apply rbind_Ok in H. destruct H as (c1 & H1 & H). rewrite P in H. cbn [orb negb] in H.
  apply rbind_Ok in H. destruct H as (c2 & H2 & H).
  destruct (seeds_loop _ _ _ _ _ _ H1) as (A & B & D & E & F).
  destruct (pull_loop_each _ _ _ _ _ _ H2) as (E2 & N2 & Q2 & _).
  pose proof (ext_incl _ _ E2) as I2.
  assert (SQ : forall Q : nat -> Prop, (forall y, In y c -> Q y) -> (forall a b, Q a -> child S a b -> Q b) ->
     forall y, In y c1 -> Q y).
  { intros Q Qc Qs y Y. destruct (in_dec Nat.eq_dec y c) as [i|i]; auto.
    destruct (E y Y i) as (x & X & R). apply SAME in X. apply Qc in X. clear -X R Qs.
    induction R; auto. apply IHR. eapply Qs; eauto. }
  assert (CH : forall y z, In y c -> reach (child S) y z -> In z c2).
  { intros y z Y R. apply I2. assert (Y' : In y c1) by auto. clear Y.
    induction R as [|y w z Yw R IHR]; auto. apply IHR. eapply F; eauto.
    destruct (in_dec Nat.eq_dec y c) as [i|i]; [right; now apply SAME|auto]. }
  destruct (Nat.eqb (length ids) (length c2) || negb (s_cousins S))%bool eqn:T.
  - injection H as <-. split; [auto|]. split; [intros y Y; auto|]. split; [eauto|]. split; [auto|]. split; [|split].
    + intros CO NI y z Y R. rewrite CO in T. cbn [negb] in T. rewrite orb_false_r in T. apply Nat.eqb_eq in T.
      assert (Y' : In y ids).
      { assert (incl ids c2) by (intros w W; apply I2; auto).
        assert (LE : length c2 <= length ids) by lia. exact (NoDup_length_incl NI LE H y Y). }
      apply I2. apply (F y z); [apply B; auto|right; auto|exact R].
    + intros Q Qc Qs Qp. apply (Q2 Q); auto. exact (SQ Q Qc Qs).
    + intros _. apply (Q2 (fun y => exists x a, In x c /\ reach (child S) x a /\ reach (parent S) a y)).
      * intros y Y.
        assert (K : exists x, In x c /\ reach (child S) x y).
        { destruct (in_dec Nat.eq_dec y c) as [i|i]; [exists y; split; [auto|constructor]|].
          destruct (E y Y i) as (x & X & R). exists x. split; [now apply SAME|auto]. }
        destruct K as (x & X & R). exists x, y. split; [auto|]. split; [auto|constructor].
      * intros a b (x & w & X & R & R2) Pab. exists x, w. split; [auto|]. split; [auto|].
        eapply reach_trans; [eauto|]. now apply reach_one.
  - apply orb_false_iff in T. destruct T as [_ T]. apply negb_false_iff in T.
    destruct (IH c2 c2 C H) as (K1 & K2 & K3 & K4 & K5 & K6 & K7); [tauto|auto|].
    split; [auto|]. split; [intros y Y; auto|]. split; [auto|]. split; [|split; [|split]].
    + intros y z Y R. apply K2. eapply CH; eauto.
    + intros _ _. apply K5; auto.
    + intros Q Qc Qs Qp. apply (K6 Q); auto. apply (Q2 Q); auto. exact (SQ Q Qc Qs).
    + congruence.
Qed.

(** Nothing is pulled for lack of being up to date. *)
Lemma rounds_needed S f : s_pull S = true -> s_cousins S = false ->
  s_stale S = [] -> s_by_exec S = [] -> s_by_child S = [] ->
  forall n ids c C, rounds S f n false ids c = Ok C -> (forall y, In y ids <-> In y c) -> NoDup c ->
  forall y, In y C -> (exists x, In x c /\ reach (child S) x y) \/ (exists z, reach (parent S) y z /\ needs_run S z).
Proof.
  intros P CO Z1 Z2 Z3 n ids c C H SAME ND y Y. destruct n; [discriminate|]. cbn [rounds] in H.
  apply rbind_Ok in H. destruct H as (c1 & H1 & H). rewrite P, CO in H. cbn [orb negb] in H.
  apply rbind_Ok in H. destruct H as (c2 & H2 & H). rewrite orb_true_r in H. injection H as <-.
  destruct (seeds_loop _ _ _ _ _ _ H1) as (A & B & D & E & F).
  destruct (in_dec Nat.eq_dec y c1) as [j|j].
  - left. destruct (in_dec Nat.eq_dec y c) as [i|i]; [exists y; split; [auto|constructor]|].
    destruct (E y j i) as (x & X & R). exists x. split; [now apply SAME|auto].
  - right. eapply (pull_loop_needed S f f Z1 Z2 Z3 0 c1); eauto.
Qed.

(** ** Dependency order *)

Lemma is_code_spec S x : is_code S x = true <-> dget (s_cells S) x = Some true.
Proof. unfold is_code. destruct (dget (s_cells S) x) as [[]|]; split; congruence. Qed.

Definition after_all S (o : list nat) : Prop :=
  forall l1 y l2 z, o = l1 ++ y :: l2 -> code_child S y z -> In z l2.

Definition topo_inv S (stack : list nat) (st : list nat * list nat) : Prop :=
  NoDup (fst st) /\ (forall y, In y (fst st) -> is_code S y = true) /\
  (forall y, In y (snd st) <-> In y (fst st) \/ In y stack) /\
  (forall y, In y (fst st) -> ~ In y stack) /\ after_all S (fst st).

Lemma topo_visit_inv S : (forall x, ~ reach1 (code_child S) x x) ->
  forall f x st st' stack, topo_visit S f st x = Ok st' -> topo_inv S stack st ->
  (is_code S x = true -> forall s, In s stack -> reach1 (code_child S) s x) ->
  topo_inv S stack st' /\ incl (fst st) (fst st') /\ (is_code S x = true -> In x (fst st')).
Proof.
  intros AC. induction f as [|f IH]; intros x st st' stack H I ST; [discriminate|]. cbn [topo_visit] in H.
  destruct (memb x (snd st)) eqn:M; cbn [orb] in H.
  { injection H as <-. split; [auto|]. split; [apply incl_refl|]. intros C. apply memb_In in M.
    destruct I as (_ & _ & I & _). apply I in M. destruct M as [M|M]; [auto|].
    exfalso. apply (AC x). auto. }
  destruct (is_code S x) eqn:C; cbn [negb] in H.
  2:{ injection H as <-. split; [auto|]. split; [apply incl_refl|discriminate]. }
  apply rmap_Ok in H. destruct H as ((o1 & s1) & H & E). cbn [fst snd] in E. subst st'.
  destruct I as (I1 & I2 & I3 & I4 & I5). specialize (ST eq_refl).
  assert (NX : ~ In x (snd st)) by (now apply memb_nIn).
  assert (NO : ~ In x (fst st)) by (intros K; apply NX; apply I3; auto).
  assert (NS : ~ In x stack) by (intros K; apply NX; apply I3; auto).
  assert (L : forall l st0 st1, (forall r, In r l -> child S x r) ->
     rfold (topo_visit S f) l st0 = Ok st1 -> topo_inv S (x :: stack) st0 ->
     topo_inv S (x :: stack) st1 /\ incl (fst st0) (fst st1) /\
     forall r, In r l -> is_code S r = true -> In r (fst st1)).
  { induction l as [|r l IHl]; intros st0 st1 HC Hf Hi; cbn [rfold] in Hf.
    - injection Hf as <-. split; [auto|]. split; [apply incl_refl|intros ? []].
    - apply rbind_Ok in Hf. destruct Hf as (st2 & Hf1 & Hf2).
      destruct (IH _ _ _ (x :: stack) Hf1 Hi) as (J1 & J2 & J3).
      { intros Cr s Is. assert (R : code_child S x r).
        { split; [apply HC; left; auto|]. split; now apply is_code_spec. }
        destruct Is as [<-|Is]; [econstructor; [eauto|constructor]|].
        eapply reach1_trans_r; [apply ST; auto|]. now apply reach_one. }
      destruct (IHl st2 st1) as (K1 & K2 & K3); auto.
      { intros; apply HC; right; auto. }
      split; [auto|]. split; [intros y Y; auto|]. intros q [<-|Q] Cq; auto. }
  destruct (L (entry (s_children S) x) _ _ (fun r => proj1 (In_entry _ _ _)) H) as ((K1 & K2 & K3 & K4 & K5) & J2 & J3).
  { cbn [fst snd]. split; [auto|]. split; [auto|]. split; [|split].
    - intros y. cbn [fst snd]. rewrite In_sadd, I3. simpl. intuition congruence.
    - intros y Y [<-|Y']; [auto|]. eapply I4; eauto.
    - auto. }
  cbn [fst snd] in *. split; [|split].
  - split; [|split; [|split; [|split]]]; cbn [fst snd].
    + constructor; auto. intros Y. apply (K4 _ Y). left; auto.
    + intros y [<-|Y]; auto.
    + intros y. rewrite K3. simpl. tauto.
    + intros y [<-|Y] W; [auto|]. apply (K4 _ Y). right; auto.
    + intros l1 y l2 z E R. destruct l1 as [|w l1]; injection E as -> ->.
      * destruct R as (Rc & _ & Rz). apply J3; [now apply In_entry|now apply is_code_spec].
      * eapply K5; eauto.
  - intros y Y. right. auto.
  - intros _. left; auto.
Qed.

Lemma topo_spec S f o : (forall x, ~ reach1 (code_child S) x x) -> topo_order S f = Ok o ->
  NoDup o /\ (forall x, In x o <-> dget (s_cells S) x = Some true) /\ after_all S o.
Proof.
  intros AC H. unfold topo_order in H. apply rmap_Ok in H. destruct H as (st & H & <-).
  assert (L : forall l st0 st1, rfold (topo_visit S f) l st0 = Ok st1 -> topo_inv S [] st0 ->
     topo_inv S [] st1 /\ incl (fst st0) (fst st1) /\ forall r, In r l -> is_code S r = true -> In r (fst st1)).
  { induction l as [|r l IHl]; intros st0 st1 Hf Hi; cbn [rfold] in Hf.
    - injection Hf as <-. split; [auto|]. split; [apply incl_refl|intros ? []].
    - apply rbind_Ok in Hf. destruct Hf as (st2 & Hf1 & Hf2).
      destruct (topo_visit_inv S AC _ _ _ _ [] Hf1 Hi) as (J1 & J2 & J3); [intros _ ? []|].
      destruct (IHl st2 st1) as (K1 & K2 & K3); auto.
      split; [auto|]. split; [intros y Y; auto|]. intros q [<-|Q] Cq; auto. }
  destruct (L _ _ _ H) as ((K1 & K2 & K3 & K4 & K5) & J2 & J3).
  { split; [constructor|]. split; [intros ? []|]. split; [simpl; tauto|]. split; [intros ? []|].
    intros [|? ?] ? ? ? E; discriminate. }
  split; [auto|]. split; [|auto]. intros x. split.
  - intros X. apply is_code_spec. auto.
  - intros X. apply J3; [|now apply is_code_spec]. eapply dget_Some_key; eauto.
Qed.

Lemma topo_visit_total S : forall f x st, unvisited (dkeys (s_cells S)) (snd st) < f ->
  exists st', topo_visit S f st x = Ok st' /\ incl (snd st) (snd st').
Proof.
  induction f as [|f IH]; intros x st F; [lia|]. cbn [topo_visit].
  destruct (memb x (snd st)) eqn:M; cbn [orb]; [eexists; split; [reflexivity|apply incl_refl]|].
  destruct (is_code S x) eqn:C; cbn [negb]; [|eexists; split; [reflexivity|apply incl_refl]].
  destruct (rfold_total_inv (topo_visit S f) (fun t => incl (sadd x (snd st)) (snd t))
     (entry (s_children S) x) (fst st, sadd x (snd st))) as (st1 & H & I).
  - cbn [snd]. apply incl_refl.
  - intros r t _ I. destruct (IH r t) as (t' & H & I').
    + apply memb_nIn in M. apply is_code_spec in C. apply dget_Some_key in C.
      pose proof (unvisited_sadd _ _ _ C M). pose proof (unvisited_mono (dkeys (s_cells S)) _ _ I). lia.
    + exists t'. split; [auto|]. intros y Y; auto.
  - rewrite H. cbn [rmap]. eexists. split; [reflexivity|]. cbn [snd]. intros y Y. apply I. apply In_sadd. auto.
Qed.

Lemma topo_total S f : length (s_cells S) < f -> exists o, topo_order S f = Ok o.
Proof.
  intros F. unfold topo_order.
  destruct (rfold_total_inv (topo_visit S f) (fun _ => True) (dkeys (s_cells S)) ([], [])) as (st & H & _); auto.
  - intros a t _ _. destruct (topo_visit_total S f a t) as (t' & H & _); [|eauto].
    pose proof (unvisited_le (dkeys (s_cells S)) (snd t)). unfold dkeys in *. rewrite map_length in *. lia.
  - rewrite H. simpl. eauto.
Qed.

(** ** Lists in order *)

Lemma precedes_in l a b : precedes l a b -> In a l /\ In b l.
Proof.
  intros (l1 & l2 & l3 & ->). split; apply in_app_iff; right; [left; auto|right; apply in_app_iff; right; left; auto].
Qed.

Lemma in_after l a b : NoDup l -> (forall l1 l2, l = l1 ++ a :: l2 -> In b l2) -> In a l -> precedes l a b.
Proof.
  intros N H A. apply in_split in A. destruct A as (l1 & l2 & ->).
  pose proof (H l1 l2 eq_refl) as B. apply in_split in B. destruct B as (l3 & l4 & ->).
  exists l1, l3, l4. auto.
Qed.

Lemma NoDup_split_eq (l1 l2 l3 l4 : list nat) a : NoDup (l1 ++ a :: l2) -> l1 ++ a :: l2 = l3 ++ a :: l4 -> l1 = l3 /\ l2 = l4.
Proof.
  revert l3. induction l1 as [|x l1 IH]; intros [|y l3] N E; simpl in *.
  - injection E as ->. auto.
  - injection E as <- E. subst l2. inversion N; subst. exfalso. apply H1. apply in_app_iff. right. left; auto.
  - injection E as E' E. subst. inversion N; subst. exfalso. apply H1. apply in_app_iff. right. left; auto.
  - injection E as <- E. inversion N; subst. destruct (IH l3 H2 E) as [-> ->]. auto.
Qed.

Lemma precedes_trans l a b c : NoDup l -> precedes l a b -> precedes l b c -> precedes l a c.
Proof.
  intros N (l1 & l2 & l3 & E1) (m1 & m2 & m3 & E2).
  assert (E3 : l = (l1 ++ a :: l2) ++ b :: l3) by (rewrite <- app_assoc; exact E1).
  rewrite E3 in N. rewrite E3 in E2. apply NoDup_split_eq in E2; auto. destruct E2 as [_ ->].
  exists l1, (l2 ++ b :: m2), m3. rewrite E1. rewrite <- app_assoc. reflexivity.
Qed.

Lemma topo_precedes S o : NoDup o -> (forall x, In x o <-> dget (s_cells S) x = Some true) -> after_all S o ->
  forall a b, reach1 (code_child S) a b -> precedes o a b.
Proof.
  intros N I A.
  assert (ST : forall a b, code_child S a b -> precedes o a b).
  { intros a b R. apply in_after; auto; [intros; eapply A; eauto|]. apply I. apply R. }
  intros a c R. destruct R as [a b c R1 R2].
  revert a R1. induction R2 as [b|b d c R R2 IH]; intros a R1; auto.
  eapply precedes_trans; [exact N|apply ST; eauto|]. apply IH; auto.
Qed.

Lemma index_of_lt l : forall a b, NoDup l -> precedes l a b ->
  exists i j, index_of a l = Some i /\ index_of b l = Some j /\ i < j.
Proof.
  induction l as [|x l IH]; intros a b N (l1 & l2 & l3 & E); [destruct l1; discriminate|].
  inversion N as [|? ? Nx Nl]; subst. destruct l1 as [|y l1]; injection E as -> E.
  - simpl. rewrite Nat.eqb_refl. destruct (Nat.eqb_spec b a) as [->|Ne].
    { exfalso. apply Nx. rewrite E. apply in_app_iff. right. left; auto. }
    assert (K : exists j, index_of b l = Some j).
    { rewrite E. clear. induction l2 as [|z l2 IH]; simpl; [rewrite Nat.eqb_refl; eauto|].
      destruct (Nat.eqb b z); [eauto|]. destruct IH as (j & ->). simpl. eauto. }
    destruct K as (j & K). rewrite K. exists 0, (Datatypes.S j). repeat split. lia.
  - destruct (IH a b Nl) as (i & j & A & B & L); [exists l1, l2, l3; auto|].
    assert (Na : a <> y).
    { intros ->. apply Nx. rewrite E. apply in_app_iff. right. left; auto. }
    assert (Nb : b <> y).
    { intros ->. apply Nx. rewrite E. apply in_app_iff. right. right. apply in_app_iff. right. left; auto. }
    simpl. apply Nat.eqb_neq in Na, Nb. rewrite Na, Nb, A, B.
    exists (Datatypes.S i), (Datatypes.S j). repeat split. lia.
Qed.

Lemma index_of_In l x : In x l -> exists i, index_of x l = Some i.
Proof.
  induction l as [|y l IH]; intros []; simpl.
  - subst. rewrite Nat.eqb_refl. eauto.
  - destruct (Nat.eqb x y); [eauto|]. destruct (IH H) as (i & ->). simpl. eauto.
Qed.

Lemma In_place key x l : forall y, In y (place key x l) <-> y = x \/ In y l.
Proof.
  induction l as [|z l IH]; intros y; simpl; [intuition congruence|].
  destruct (before_by key z x); simpl; [rewrite IH|]; intuition congruence.
Qed.

Lemma In_sort key l y : In y (sort_by key l) <-> In y l.
Proof.
  induction l as [|x l IH]; simpl; [tauto|]. rewrite In_place, IH. intuition congruence.
Qed.

Lemma NoDup_place key x l : NoDup l -> ~ In x l -> NoDup (place key x l).
Proof.
  induction l as [|z l IH]; intros N X; simpl; [constructor; auto|].
  destruct (before_by key z x); [|constructor; auto].
  inversion N; subst. constructor; [|apply IH; simpl in X; auto].
  rewrite In_place. intros [->|]; [apply X; left; auto|auto].
Qed.

Lemma NoDup_sort key l : NoDup l -> NoDup (sort_by key l).
Proof.
  induction l as [|x l IH]; intros N; simpl; [auto|]. inversion N; subst.
  apply NoDup_place; auto. now rewrite In_sort.
Qed.

Definition le_by (key : nat -> option nat) (a b : nat) : Prop :=
  exists i j, key a = Some i /\ key b = Some j /\ i <= j.

Inductive sorted_by (key : nat -> option nat) : list nat -> Prop :=
  | sorted_nil : sorted_by key []
  | sorted_cons x l : (forall y, In y l -> le_by key x y) -> sorted_by key l -> sorted_by key (x :: l).

Lemma sorted_place key x l : (forall y, y = x \/ In y l -> exists i, key y = Some i) ->
  sorted_by key l -> sorted_by key (place key x l).
Proof.
  intros K H. induction H as [|z l Z H IH]; simpl.
  - constructor; [intros ? []|constructor].
  - destruct (K x (or_introl eq_refl)) as (i & Ki). destruct (K z (or_intror (or_introl eq_refl))) as (j & Kj).
    unfold before_by. rewrite Kj, Ki. destruct (Nat.ltb_spec j i) as [L|L].
    + constructor.
      * intros y. rewrite In_place. intros [->|Y]; [exists j, i; repeat split; auto; lia|auto].
      * apply IH. intros y [->|Y]; apply K; simpl; auto.
    + constructor; [|constructor; auto]. intros y [<-|Y]; [exists i, j; auto|].
      destruct (Z y Y) as (a & b & A & B & Lab). rewrite A in Kj. injection Kj as ->.
      exists i, b. repeat split; auto. lia.
Qed.

Lemma sorted_sort key l : (forall y, In y l -> exists i, key y = Some i) -> sorted_by key (sort_by key l).
Proof.
  induction l as [|x l IH]; intros K; simpl; [constructor|]. apply sorted_place.
  - intros y. rewrite In_sort. intros [->|Y]; apply K; simpl; auto.
  - apply IH. intros y Y. apply K. right; auto.
Qed.

Lemma sorted_precedes_le key l : sorted_by key l -> forall a b, precedes l a b -> le_by key a b.
Proof.
  induction 1 as [|x l X H IH]; intros a b (l1 & l2 & l3 & E); [destruct l1; discriminate|].
  destruct l1 as [|y l1]; injection E as -> ->.
  - apply X. apply in_app_iff. right. left; auto.
  - apply IH. exists l1, l2, l3. auto.
Qed.

Lemma sorted_precedes key l a b i j : sorted_by key l -> In a l -> In b l ->
  key a = Some i -> key b = Some j -> i < j -> precedes l a b.
Proof.
  intros H. induction H as [|x l X H IH]; intros A B Ka Kb L; [destruct A|].
  destruct A as [->|A].
  - destruct B as [->|B]; [rewrite Ka in Kb; injection Kb as ->; lia|].
    apply in_split in B. destruct B as (l2 & l3 & ->). exists [], l2, l3. auto.
  - destruct B as [->|B].
    + destruct (X a A) as (p & q & P & Q & PQ). rewrite P in Kb. rewrite Q in Ka.
      injection Kb as ->. injection Ka as ->. lia.
    + destruct (IH A B Ka Kb L) as (l1 & l2 & l3 & ->). exists (x :: l1), l2, l3. auto.
Qed.

Lemma ids_to_cells_spec S f ids l : ids_to_cells S f ids = Ok l ->
  (NoDup ids -> NoDup l) /\ (forall y, In y l <-> In y ids /\ known S y).
Proof.
  intros H. unfold ids_to_cells in H. apply rmap_Ok in H. destruct H as (key & _ & <-). split.
  - intros N. apply NoDup_sort. apply NoDup_filter. now apply NoDup_filter.
  - intros y. rewrite In_sort, !filter_In. unfold known, dhas.
    destruct (dget (s_cells S) y) as [b|]; destruct (dget (s_order S) y) as [i|]; split.
    all: try (intros ((Y & A) & B); try discriminate; split; eauto).
    all: intros (Y & (b' & B) & (i' & I)); try discriminate; auto.
Qed.

Lemma shown_loop S f l : forall c c', rfold (fun c x => helper S f (s_parents S) false false x (sdiff c [x])) l c = Ok c' ->
  incl l c -> NoDup c -> (forall y z, In y c -> ~ In y l -> parent S y z -> In z c) ->
  NoDup c' /\ incl c c' /\ (forall y z, In y c' -> parent S y z -> In z c') /\
  (forall y, In y c' -> In y c \/ exists x, In x c /\ reach (parent S) x y).
Proof.
  induction l as [|x l IH]; intros c c' H IL N CL; cbn [rfold] in H.
  - injection H as <-. split; [auto|]. split; [apply incl_refl|]. split; [|auto].
    intros y z Y P. apply (CL y z); auto.
  - apply rbind_Ok in H. destruct H as (c1 & H1 & H2). rewrite helper_push in H1.
    assert (N0 : NoDup (sdiff c [x])) by (unfold sdiff; now apply NoDup_filter).
    pose proof (dfs_NoDup _ _ _ _ _ N0 H1) as N1.
    pose proof (dfs_sound_complete _ _ _ _ _ H1) as (A & X & R & C1).
    assert (I1 : incl c c1).
    { intros y Y. destruct (Nat.eq_dec y x) as [->|Ne]; [auto|]. apply A. apply In_sdiff. split; [auto|].
      intros [E|[]]; congruence. }
    assert (XC : In x c) by (apply IL; left; auto).
    destruct (IH c1 c' H2) as (K1 & K2 & K3 & K4); auto.
    + intros y Y. apply I1. apply IL. right; auto.
    + intros y z Y NY P. destruct (in_dec Nat.eq_dec y (sdiff c [x])) as [i|i].
      * apply In_sdiff in i. destruct i as [i i']. apply I1. apply (CL y z); auto.
        intros [E|E]; [apply i'; left; auto|auto].
      * destruct (C1 y (Ok z) Y i) as (z' & E & Z); [|injection E as ->; auto].
        unfold succ_of. apply in_map. now apply In_entry.
    + split; [auto|]. split; [intros y Y; auto|]. split; [auto|].
      assert (L : forall y, In y c1 -> In y c \/ reach (parent S) x y).
      { intros y Y. destruct (in_dec Nat.eq_dec y (sdiff c [x])) as [i|i].
        - left. apply In_sdiff in i. tauto.
        - right. apply reach_edge_rel. auto. }
      intros y Y. destruct (K4 y Y) as [I|(w & W & Rw)].
      * destruct (L y I); eauto.
      * destruct (L w W) as [I|Rx]; eauto. right. exists x. split; [auto|]. eapply reach_trans; eauto.
Qed.

Definition all_ids (S : store) (start : list nat) : list nat :=
  start ++ concat (dvals (s_children S)) ++ concat (dvals (s_parents S)).

Lemma rel_of_vals edges a b : rel_of edges a b -> In b (concat (dvals edges)).
Proof.
  intros (l & D & I). apply in_concat. exists l. split; [|auto].
  apply dget_In in D. unfold dvals. apply in_map_iff. exists (a, l). auto.
Qed.

Lemma all_ids_closed S start : (forall a b, In a (all_ids S start) -> parent S a b -> In b (all_ids S start)) /\
  (forall a b, In a (all_ids S start) -> child S a b -> In b (all_ids S start)) /\ incl start (all_ids S start).
Proof.
  unfold all_ids. split; [|split].
  - intros a b _ P. apply rel_of_vals in P. rewrite !in_app_iff. auto.
  - intros a b _ P. apply rel_of_vals in P. rewrite !in_app_iff. auto.
  - intros a A. apply in_app_iff. auto.
Qed.

Lemma ids_to_cells_total S f ids : length (s_cells S) < f -> exists l, ids_to_cells S f ids = Ok l.
Proof.
  intros F. unfold ids_to_cells. destruct (s_any_order S); [|simpl; eauto].
  destruct (topo_total S f F) as (o & ->). simpl. eauto.
Qed.
