(** Proofs about the exported metadata. *)
Require Import List Arith Bool Lia.
Import ListNotations.
Require Import Verif.Base Verif.Loops Verif.DagModel Verif.DagSpec.

(** Tables. *)
Lemma get_add : forall d k v k' x, In x (get (add d k v) k') <-> (k' = k /\ x = v) \/ In x (get d k').
Proof.
  intros d k v k' x. unfold add, get at 1. destruct (Nat.eq_dec k' k) as [->|N].
  - rewrite dget_dset_same, In_sadd. tauto.
  - rewrite dget_dset_other by auto. fold (get d k'). tauto.
Qed.
Lemma get_key : forall d k x, In x (get d k) -> In k (dkeys d).
Proof. intros d k x H. unfold get in H. destruct (dget d k) eqn:E; [eapply dget_Some_key; eauto|destruct H]. Qed.

Lemma uses_fold : forall imp t us b, let b' := fold_left (on_use imp t) us b in
  (forall c x, In x (get (t_imports b') c) <-> In x (get (t_imports b) c) \/ (imp = true /\ x = t /\ exists p, In (c, p) us)) /\
  (forall c x, In x (get (t_inputs b') c) <-> In x (get (t_inputs b) c) \/ (imp = false /\ x = t /\ exists p, In (c, p) us /\ c <> p)) /\
  (forall p x, In x (get (t_outputs b') p) <-> In x (get (t_outputs b) p) \/ (imp = false /\ x = t /\ exists c, In (c, p) us /\ c <> p)) /\
  (forall c p, In p (get (t_parents b') c) <-> In p (get (t_parents b) c) \/ (imp = false /\ In (c, p) us /\ c <> p)) /\
  (forall c p, In c (get (t_children b') p) <-> In c (get (t_children b) p) \/ (imp = false /\ In (c, p) us /\ c <> p)).
Proof.
  intros imp t us. induction us as [|[u a] us IH]; intros b; cbn [fold_left].
  - cbv zeta. repeat apply conj; intros y z; (split; [auto|]); intros [H|H]; auto; exfalso.
    + destruct H as (_ & _ & q & []).
    + destruct H as (_ & _ & q & [] & _).
    + destruct H as (_ & _ & q & [] & _).
    + destruct H as (_ & [] & _).
    + destruct H as (_ & [] & _).
  - specialize (IH (on_use imp t b (u, a))). cbv zeta in IH |- *. destruct IH as (A & B & C & D & E).
    repeat apply conj.
    + intros c x. rewrite A. unfold on_use. destruct imp; cbn [t_imports].
      * rewrite get_add. split.
        -- intros [[(-> & ->)|H]|(_ & -> & p & H)]; auto; right; (split; [auto|split; [auto|]]); [exists a; left; auto|exists p; right; auto].
        -- intros [H|(_ & -> & p & [H|H])]; auto. { injection H as -> ->. auto. } right. eauto.
      * destruct (u =? a); cbn [negb t_imports]; split; intros [H|(H & _)]; auto; discriminate.
    + intros c x. rewrite B. unfold on_use. destruct imp; cbn [t_inputs].
      * split; intros [H|(H & _)]; auto; discriminate.
      * destruct (Nat.eqb_spec u a) as [->|N]; cbn [negb t_inputs].
        -- split; intros [H|(_ & -> & p & H & K)]; auto; right; (split; [auto|split; [auto|]]); exists p; split; auto; [right; auto|].
           destruct H as [H|H]; auto. injection H as -> ->. congruence.
        -- rewrite get_add. split.
           ++ intros [[(-> & ->)|H]|(_ & -> & p & H & K)]; auto; right; (split; [auto|split; [auto|]]); [exists a; split; [left|]; auto|exists p; split; [right|]; auto].
           ++ intros [H|(_ & -> & p & [H|H] & K)]; auto. { injection H as -> ->. auto. } right. eauto 6.
    + intros p x. rewrite C. unfold on_use. destruct imp; cbn [t_outputs].
      * split; intros [H|(H & _)]; auto; discriminate.
      * destruct (Nat.eqb_spec u a) as [->|N]; cbn [negb t_outputs].
        -- split; intros [H|(_ & -> & c & H & K)]; auto; right; (split; [auto|split; [auto|]]); exists c; split; auto; [right; auto|].
           destruct H as [H|H]; auto. injection H as -> ->. congruence.
        -- rewrite get_add. split.
           ++ intros [[(-> & ->)|H]|(_ & -> & c & H & K)]; auto; right; (split; [auto|split; [auto|]]); [exists u; split; [left|]; auto|exists c; split; [right|]; auto].
           ++ intros [H|(_ & -> & c & [H|H] & K)]; auto. { injection H as -> ->. auto. } right. eauto 6.
    + intros c p. rewrite D. unfold on_use. destruct imp; cbn [t_parents].
      * split; intros [H|(H & _)]; auto; discriminate.
      * destruct (Nat.eqb_spec u a) as [->|N]; cbn [negb t_parents].
        -- split; intros [H|(_ & H & K)]; auto; right; (split; [auto|]); split; auto; [right; auto|].
           destruct H as [H|H]; auto. injection H as -> ->. congruence.
        -- rewrite get_add. split.
           ++ intros [[(-> & ->)|H]|(_ & H & K)]; auto; right; (split; [auto|]); split; auto; [left|right]; auto.
           ++ intros [H|(_ & [H|H] & K)]; auto. injection H as -> ->. auto.
    + intros c p. rewrite E. unfold on_use. destruct imp; cbn [t_children].
      * split; intros [H|(H & _)]; auto; discriminate.
      * destruct (Nat.eqb_spec u a) as [->|N]; cbn [negb t_children].
        -- split; intros [H|(_ & H & K)]; auto; right; (split; [auto|]); split; auto; [right; auto|].
           destruct H as [H|H]; auto. injection H as -> ->. congruence.
        -- rewrite get_add. split.
           ++ intros [[(-> & ->)|H]|(_ & H & K)]; auto; right; (split; [auto|]); split; auto; [left|right]; auto.
           ++ intros [H|(_ & [H|H] & K)]; auto. injection H as -> ->. auto.
Qed.

Lemma updates_fold : forall t cs b, let b' := fold_left (on_update t) cs b in
  t_imports b' = t_imports b /\ t_inputs b' = t_inputs b /\ t_parents b' = t_parents b /\ t_children b' = t_children b /\
  (forall c x, In x (get (t_outputs b') c) <-> In x (get (t_outputs b) c) \/ (x = t /\ In c cs)).
Proof.
  intros t cs. induction cs as [|a cs IH]; intros b; cbn [fold_left].
  - simpl. repeat split; tauto.
  - specialize (IH (on_update t b a)). cbv zeta in IH |- *. destruct IH as (A & B & C & D & E).
    repeat apply conj; auto. intros c x. rewrite E. unfold on_update. cbn [t_outputs]. rewrite get_add. simpl. intuition (subst; auto).
Qed.

(** Top level. *)
Lemma first_accessible_spec : forall st l r, first_accessible st l = Ok r ->
  match r with
  | None => forall k, In k l -> exists sk, dget (symbols st) k = Some sk /\ s_accessible sk = false
  | Some j => exists l1 l2 sj, l = l1 ++ j :: l2 /\ (forall k, In k l1 -> exists sk, dget (symbols st) k = Some sk /\ s_accessible sk = false) /\
                dget (symbols st) j = Some sj /\ s_accessible sj = true
  end.
Proof.
  intros st l. induction l as [|i l IH]; intros r H; simpl in H.
  - injection H as <-. intros k [].
  - apply (proj1 (rbind_Ok _ _ _)) in H. destruct H as (s & S & H). unfold sym in S. apply of_option_Ok in S.
    destruct (s_accessible s) eqn:A.
    + injection H as <-. exists [], l, s. split; auto. split; [intros k []|auto].
    + specialize (IH r H). destruct r as [j|].
      * destruct IH as (l1 & l2 & sj & -> & P & Q). exists (i :: l1), l2, sj. split; auto. split; auto. intros k [<-|K]; eauto.
      * intros k [<-|K]; eauto.
Qed.
Lemma first_accessible_val : forall st l1 j l2 sj, (forall k, In k l1 -> exists sk, dget (symbols st) k = Some sk /\ s_accessible sk = false) ->
  dget (symbols st) j = Some sj -> s_accessible sj = true -> first_accessible st (l1 ++ j :: l2) = Ok (Some j).
Proof.
  intros st l1 j l2 sj H J A. induction l1 as [|i l1 IH]; simpl.
  - unfold sym. rewrite J. simpl. rewrite A. reflexivity.
  - destruct (H i (or_introl eq_refl)) as (s & S & F). unfold sym at 1. rewrite S. simpl. rewrite F. apply IH. intros k K. apply H. right. auto.
Qed.

Lemma top_held : forall fuel st i t, top_level fuel st i = Ok (Some t) -> held_by st i t.
Proof.
  induction fuel as [|fuel IH]; intros st i t H; simpl in H; [discriminate|].
  apply (proj1 (rbind_Ok _ _ _)) in H. destruct H as (s & S & H). unfold sym in S. apply of_option_Ok in S.
  destruct (s_ns s) as [o|] eqn:N; [|injection H as <-; eapply held_top; eauto].
  apply (proj1 (rbind_Ok _ _ _)) in H. destruct H as (a & F & H). apply first_accessible_spec in F. destruct a as [j|]; [|discriminate].
  destruct F as (l1 & l2 & sj & E & P & J & A). eapply held_in; eauto.
Qed.
Lemma held_top_level : forall st i t, held_by st i t -> forall fuel r, top_level fuel st i = Ok r -> r = Some t.
Proof.
  intros st i t H. induction H as [i s S N|i s o l1 j l2 sj t S N E P J A H IH]; intros [|fuel] r R; simpl in R; try discriminate.
  - unfold sym in R. rewrite S in R. simpl in R. rewrite N in R. congruence.
  - unfold sym in R. rewrite S in R. simpl in R. rewrite N, E in R. rewrite (first_accessible_val st l1 j l2 sj P J A) in R. simpl in R. eauto.
Qed.

(** Which symbols are looked at. *)
Lemma covered_spec : forall st n l b, covered st n l = Ok b ->
  if b then exists j sj stmt, In j l /\ dget (symbols st) j = Some sj /\ s_kind sj = KImport stmt /\ s_name sj = n
  else forall j sj stmt, In j l -> dget (symbols st) j = Some sj -> s_kind sj = KImport stmt -> s_name sj <> n.
Proof.
  intros st n l. induction l as [|i l IH]; intros b H; simpl in H.
  - injection H as <-. intros j sj stmt [].
  - apply (proj1 (rbind_Ok _ _ _)) in H. destruct H as (s & S & H). unfold sym in S. apply of_option_Ok in S.
    destruct (is_import s && (s_name s =? n)) eqn:A.
    + injection H as <-. apply andb_true_iff in A. destruct A as (A & B). apply Nat.eqb_eq in B. unfold is_import in A.
      destruct (s_kind s) as [stmt| |] eqn:K; try discriminate. exists i, s, stmt. simpl. auto.
    + specialize (IH b H). destruct b.
      * destruct IH as (j & sj & stmt & I & R). exists j, sj, stmt. simpl. tauto.
      * intros j sj stmt [<-|I] J K; eauto. rewrite S in J. injection J as <-. unfold is_import in A. rewrite K in A. simpl in A. apply Nat.eqb_neq in A. auto.
Qed.

Lemma looked_shown : forall st t s b, dget (symbols st) t = Some s -> looked_at st s = Ok b -> (b = true <-> shown st t).
Proof.
  intros st t s b S H. unfold looked_at in H. destruct (negb (s_accessible s) || s_anon s || (s_name s =? n_underscore)) eqn:C.
  - injection H as <-. split; [discriminate|]. intros (s' & S' & A & B & N & _). rewrite S in S'. injection S' as <-.
    rewrite A, B in C. apply Nat.eqb_neq in N. rewrite N in C. discriminate.
  - apply orb_false_iff in C. destruct C as (C & N). apply orb_false_iff in C. destruct C as (A & B). apply negb_false_iff in A. apply Nat.eqb_neq in N.
    unfold is_module in H. destruct (s_kind s) as [stmt| |] eqn:K.
    + injection H as <-. split; auto. intros _. exists s. repeat (split; [auto|]). congruence.
    + apply (proj1 (rmap_Ok _ _ _)) in H. destruct H as (c & H & <-). apply covered_spec in H. destruct c; simpl.
      * split; [discriminate|]. intros (s' & S' & _ & _ & _ & M). rewrite S in S'. injection S' as <-.
        destruct H as (j & sj & stmt & I & J & Q & R). exfalso. eapply (M K); eauto.
      * split; auto. intros _. exists s. repeat (split; [auto|]). auto.
    + injection H as <-. split; auto. intros _. exists s. repeat (split; [auto|]). congruence.
Qed.

(** The whole loop. *)
Definition used_in (st : state) (l : list nat) (c p t : nat) : Prop :=
  exists i s, In i l /\ dget (symbols st) i = Some s /\ held_by st i t /\ shown st t /\ (In (c, p) (s_used s) \/ In (c, p) (s_live s)).
Definition updated_in (st : state) (l : list nat) (c t : nat) : Prop :=
  exists i s, In i l /\ dget (symbols st) i = Some s /\ held_by st i t /\ shown st t /\ In c (s_updated s).

Lemma used_in_cons : forall st i l c p t, used_in st (i :: l) c p t <-> used_in st [i] c p t \/ used_in st l c p t.
Proof.
  intros. split.
  - intros (j & s & [->|I] & R); [left|right]; exists j, s; simpl; auto.
  - intros [(j & s & [->|[]] & R)|(j & s & I & R)]; exists j, s; simpl; auto.
Qed.
Lemma updated_in_cons : forall st i l c t, updated_in st (i :: l) c t <-> updated_in st [i] c t \/ updated_in st l c t.
Proof.
  intros. split.
  - intros (j & s & [->|I] & R); [left|right]; exists j, s; simpl; auto.
  - intros [(j & s & [->|[]] & R)|(j & s & I & R)]; exists j, s; simpl; auto.
Qed.

Definition grows (st : state) (l : list nat) (b b' : tables) : Prop :=
  (forall c x, In x (get (t_imports b') c) <-> In x (get (t_imports b) c) \/ (imported st x /\ exists p, used_in st l c p x)) /\
  (forall c x, In x (get (t_inputs b') c) <-> In x (get (t_inputs b) c) \/ (~ imported st x /\ exists p, used_in st l c p x /\ c <> p)) /\
  (forall c x, In x (get (t_outputs b') c) <-> In x (get (t_outputs b) c) \/ (~ imported st x /\ ((exists d, used_in st l d c x /\ d <> c) \/ updated_in st l c x))) /\
  (forall c p, In p (get (t_parents b') c) <-> In p (get (t_parents b) c) \/ (c <> p /\ exists t, ~ imported st t /\ used_in st l c p t)) /\
  (forall c p, In c (get (t_children b') p) <-> In c (get (t_children b) p) \/ (c <> p /\ exists t, ~ imported st t /\ used_in st l c p t)).

Lemma imported_dec : forall st t s, dget (symbols st) t = Some s -> (imported st t <-> is_import s = true).
Proof.
  intros st t s S. unfold imported, is_import. split.
  - intros (s' & stmt & S' & K). rewrite S in S'. injection S' as <-. rewrite K. auto.
  - destruct (s_kind s) as [stmt| |] eqn:K; try discriminate. intros _. eauto.
Qed.

Lemma grows_none : forall st i b, (forall c p t, ~ used_in st [i] c p t) -> (forall c t, ~ updated_in st [i] c t) -> grows st [i] b b.
Proof.
  intros st i b U V. unfold grows. repeat apply conj; intros; (split; [auto|]); intros [H|H]; auto; exfalso.
  - destruct H as (_ & p & H). eapply U; eauto.
  - destruct H as (_ & p & H & _). eapply U; eauto.
  - destruct H as (_ & [(d & H & _)|H]); [eapply U|eapply V]; eauto.
  - destruct H as (_ & t & _ & H). eapply U; eauto.
  - destruct H as (_ & t & _ & H). eapply U; eauto.
Qed.

Lemma grows_one : forall fuel st b i b', on_symbol fuel st b i = Ok b' -> grows st [i] b b'.
Proof.
  intros fuel st b i b' H. unfold on_symbol in H.
  apply (proj1 (rbind_Ok _ _ _)) in H. destruct H as (s & S & H). unfold sym in S. apply of_option_Ok in S.
  apply (proj1 (rbind_Ok _ _ _)) in H. destruct H as (top & T & H). destruct top as [t|].
  2:{ injection H as <-. apply grows_none.
      - intros c p t (j & s' & [<-|[]] & _ & HB & _). pose proof (held_top_level _ _ _ HB _ _ T). discriminate.
      - intros c t (j & s' & [<-|[]] & _ & HB & _). pose proof (held_top_level _ _ _ HB _ _ T). discriminate. }
  apply (proj1 (rbind_Ok _ _ _)) in H. destruct H as (ts & TS & H). unfold sym in TS. apply of_option_Ok in TS.
  apply (proj1 (rbind_Ok _ _ _)) in H. destruct H as (look & L & H).
  pose proof (looked_shown st t ts look TS L) as SH.
  assert (UI : forall c p x, used_in st [i] c p x <-> x = t /\ shown st t /\ In (c, p) (s_used s ++ s_live s)).
  { intros c p x. rewrite in_app_iff. split.
    - intros (j & s' & [<-|[]] & S' & HB & W & I). pose proof (held_top_level _ _ _ HB _ _ T) as E. injection E as <-.
      rewrite S in S'. injection S' as <-. auto.
    - intros (-> & W & I). exists i, s. split; [left; auto|]. split; auto. split; [eapply top_held; eauto|]. auto. }
  assert (VI : forall c x, updated_in st [i] c x <-> x = t /\ shown st t /\ In c (s_updated s)).
  { intros c x. split.
    - intros (j & s' & [<-|[]] & S' & HB & W & I). pose proof (held_top_level _ _ _ HB _ _ T) as E. injection E as <-.
      rewrite S in S'. injection S' as <-. auto.
    - intros (-> & W & I). exists i, s. split; [left; auto|]. split; auto. split; [eapply top_held; eauto|]. auto. }
  destruct look.
  2:{ injection H as <-. assert (~ shown st t) by (intros W; apply SH in W; discriminate). apply grows_none.
      - intros c p x U. apply UI in U. tauto.
      - intros c x U. apply VI in U. tauto. }
  cbv zeta in H. assert (W : shown st t) by (apply SH; auto). clear SH.
  pose proof (imported_dec st t ts TS) as ID.
  pose proof (uses_fold (is_import ts) t (s_used s ++ s_live s) b) as UF. cbv zeta in UF.
  set (b1 := fold_left (on_use (is_import ts) t) (s_used s ++ s_live s) b) in *. destruct UF as (A & B & C & D & E).
  destruct (is_import ts) eqn:IM.
  - injection H as <-. assert (I : imported st t) by (apply ID; auto). unfold grows. repeat apply conj.
    + intros c x. rewrite A. split; intros [Q|Q]; auto; right.
      * destruct Q as (_ & -> & p & Q). split; auto. exists p. apply UI. auto.
      * destruct Q as (_ & p & Q). apply UI in Q. destruct Q as (-> & _ & Q). eauto.
    + intros c x. rewrite B. split; intros [Q|Q]; auto.
      * destruct Q as (Q & _). discriminate.
      * destruct Q as (N & p & Q & _). apply UI in Q. destruct Q as (-> & _). contradiction.
    + intros c x. rewrite C. split; intros [Q|Q]; auto.
      * destruct Q as (Q & _). discriminate.
      * destruct Q as (N & [(d & Q & _)|Q]); [apply UI in Q|apply VI in Q]; destruct Q as (-> & _); contradiction.
    + intros c p. rewrite D. split; intros [Q|Q]; auto.
      * destruct Q as (Q & _). discriminate.
      * destruct Q as (_ & x & N & Q). apply UI in Q. destruct Q as (-> & _). contradiction.
    + intros c p. rewrite E. split; intros [Q|Q]; auto.
      * destruct Q as (Q & _). discriminate.
      * destruct Q as (_ & x & N & Q). apply UI in Q. destruct Q as (-> & _). contradiction.
  - injection H as <-. assert (I : ~ imported st t) by (rewrite ID; discriminate).
    pose proof (updates_fold t (s_updated s) b1) as UP. cbv zeta in UP.
    set (b2 := fold_left (on_update t) (s_updated s) b1) in *. destruct UP as (A2 & B2 & D2 & E2 & C2).
    unfold grows. rewrite A2, B2, D2, E2. repeat apply conj.
    + intros c x. rewrite A. split; intros [Q|Q]; auto.
      * destruct Q as (Q & _). discriminate.
      * destruct Q as (N & p & Q). apply UI in Q. destruct Q as (-> & _). contradiction.
    + intros c x. rewrite B. split; intros [Q|Q]; auto; right.
      * destruct Q as (_ & -> & p & Q & K). split; auto. exists p. split; auto. apply UI. auto.
      * destruct Q as (_ & p & Q & K). apply UI in Q. destruct Q as (-> & _ & Q). eauto 12.
    + intros c x. rewrite C2, C. split.
      * intros [[Q|Q]|Q]; auto; right.
        -- destruct Q as (_ & -> & d & Q & K). split; auto. left. exists d. split; auto. apply UI. auto.
        -- destruct Q as (-> & Q). split; auto. right. apply VI. auto.
      * intros [Q|(_ & [(d & Q & K)|Q])]; auto.
        -- apply UI in Q. destruct Q as (-> & _ & Q). left. right. eauto 12.
        -- apply VI in Q. destruct Q as (-> & _ & Q). auto.
    + intros c p. rewrite D. split; intros [Q|Q]; auto; right.
      * destruct Q as (_ & Q & K). split; auto. exists t. split; auto. apply UI. auto.
      * destruct Q as (K & x & _ & Q). apply UI in Q. tauto.
    + intros c p. rewrite E. split; intros [Q|Q]; auto; right.
      * destruct Q as (_ & Q & K). split; auto. exists t. split; auto. apply UI. auto.
      * destruct Q as (K & x & _ & Q). apply UI in Q. tauto.
Qed.

Lemma grows_cons : forall st i l b b1 b2, grows st [i] b b1 -> grows st l b1 b2 -> grows st (i :: l) b b2.
Proof.
  intros st i l b b1 b2 (A & B & C & D & E) (A' & B' & C' & D' & E'). unfold grows. repeat apply conj.
  - intros c x. rewrite A', A. setoid_rewrite (used_in_cons st i l). split.
    + intros [[H|(I & p & H)]|(I & p & H)]; eauto 12.
    + intros [H|(I & p & [H|H])]; eauto 12.
  - intros c x. rewrite B', B. setoid_rewrite (used_in_cons st i l). split.
    + intros [[H|(I & p & H & K)]|(I & p & H & K)]; eauto 12.
    + intros [H|(I & p & [H|H] & K)]; eauto 12.
  - intros c x. rewrite C', C. setoid_rewrite (used_in_cons st i l). setoid_rewrite (updated_in_cons st i l). split.
    + intros [[H|(I & [(d & H & K)|H])]|(I & [(d & H & K)|H])]; eauto 12.
    + intros [H|(I & [(d & [H|H] & K)|[H|H]])]; eauto 12.
  - intros c p. rewrite D', D. setoid_rewrite (used_in_cons st i l). split.
    + intros [[H|(K & t & I & H)]|(K & t & I & H)]; eauto 12.
    + intros [H|(K & t & I & [H|H])]; eauto 12.
  - intros c p. rewrite E', E. setoid_rewrite (used_in_cons st i l). split.
    + intros [[H|(K & t & I & H)]|(K & t & I & H)]; eauto 12.
    + intros [H|(K & t & I & [H|H])]; eauto 12.
Qed.

Lemma grows_all : forall fuel st l b b', rfold (on_symbol fuel st) l b = Ok b' -> grows st l b b'.
Proof.
  intros fuel st l. induction l as [|i l IH]; intros b b' H; simpl in H.
  - injection H as <-. unfold grows. repeat apply conj; intros; (split; [auto|]); intros [H|H]; auto; exfalso.
    + destruct H as (_ & p & j & s & [] & _).
    + destruct H as (_ & p & (j & s & [] & _) & _).
    + destruct H as (_ & [(d & (j & s & [] & _) & _)|(j & s & [] & _)]).
    + destruct H as (_ & t & _ & j & s & [] & _).
    + destruct H as (_ & t & _ & j & s & [] & _).
  - apply (proj1 (rbind_Ok _ _ _)) in H. destruct H as (b1 & H1 & H2). eapply grows_cons; [eapply grows_one; eauto|eauto].
Qed.

(** The result. *)
Lemma entries : forall st b l md0 md, rfold (fun md c => rmap (dset md c) (entry st b c)) l md0 = Ok md ->
  (forall c, In c l -> exists m, entry st b c = Ok m) /\
  (forall c m, dget md c = Some m <-> (In c l /\ entry st b c = Ok m) \/ (~ In c l /\ dget md0 c = Some m)).
Proof.
  intros st b l. induction l as [|a l IH]; intros md0 md H; simpl in H.
  - injection H as <-. split; [intros c []|]. intros c m. simpl. tauto.
  - apply (proj1 (rbind_Ok _ _ _)) in H. destruct H as (md1 & H1 & H2). apply (proj1 (rmap_Ok _ _ _)) in H1. destruct H1 as (e & E & <-).
    destruct (IH _ _ H2) as (P & Q). split.
    + intros c [<-|I]; eauto.
    + intros c m. rewrite Q. destruct (in_dec Nat.eq_dec c l) as [I|I].
      * simpl. tauto.
      * destruct (Nat.eq_dec c a) as [->|N].
        -- rewrite dget_dset_same. split.
           ++ intros [(X & _)|(_ & X)]; [contradiction|]. injection X as <-. left. simpl. auto.
           ++ intros [(_ & X)|(X & _)]; [|exfalso; apply X; left; auto]. right. split; auto. congruence.
        -- rewrite dget_dset_other by auto. simpl. split.
           ++ intros [(X & _)|(_ & X)]; [contradiction|]. right. split; auto. intros [Z|Z]; congruence.
           ++ intros [([X|X] & _)|(X & Y)]; [congruence|contradiction|auto].
Qed.

Lemma describe_spec : forall st l d, describe st l = Ok d -> forall n, In n (dkeys d) <-> exists i, In i l /\ named st i n.
Proof.
  intros st l d H n. unfold describe in H.
  enough (G : forall d0, rfold (fun d i => rmap (fun s => dset d (s_name s) (s_type s)) (sym st i)) l d0 = Ok d ->
    (In n (dkeys d) <-> In n (dkeys d0) \/ exists i, In i l /\ named st i n)).
  { rewrite (G _ H). simpl. tauto. }
  clear H. induction l as [|i l IH]; intros d0 H; simpl in H.
  - injection H as <-. simpl. split; auto. intros [|(i & [] & _)]; auto.
  - apply (proj1 (rbind_Ok _ _ _)) in H. destruct H as (d1 & H1 & H2). apply (proj1 (rmap_Ok _ _ _)) in H1. destruct H1 as (s & S & <-).
    unfold sym in S. apply of_option_Ok in S. rewrite (IH _ H2), dkeys_dset_In. split.
    + intros [[->|K]|(j & J & K)]; auto; right; [exists i|exists j]; simpl; split; auto. exists s. auto.
    + intros [K|(j & [<-|J] & K)]; auto; [|right; eauto]. left. left. destruct K as (s' & S' & K). rewrite S in S'. injection S' as <-. auto.
Qed.

Lemma imports_spec : forall st l acc r, rfold (fun acc i => rbind (sym st i) (fun s => rmap (fun x => acc ++ [x]) (import_of s))) l acc = Ok r ->
  forall x, In x r <-> In x acc \/ exists i s, In i l /\ dget (symbols st) i = Some s /\ import_of s = Ok x.
Proof.
  intros st l. induction l as [|i l IH]; intros acc r H x; simpl in H.
  - injection H as <-. split; auto. intros [|(i & s & [] & _)]; auto.
  - apply (proj1 (rbind_Ok _ _ _)) in H. destruct H as (acc1 & H1 & H2).
    apply (proj1 (rbind_Ok _ _ _)) in H1. destruct H1 as (s & S & H1). apply (proj1 (rmap_Ok _ _ _)) in H1. destruct H1 as (y & Y & <-).
    unfold sym in S. apply of_option_Ok in S. rewrite (IH _ _ H2), in_app_iff. simpl. split.
    + intros [[K|[<-|[]]]|(j & s' & J & R)]; auto; right; [exists i, s|exists j, s']; simpl; auto.
    + intros [K|(j & s' & [<-|J] & S' & R)]; auto; [|right; eauto]. rewrite S in S'. injection S' as <-. left. right. left. congruence.
Qed.

Definition empty := mkTab [] [] [] [] [].
Lemma created : forall fuel st md, create_dag_metadata fuel st = Ok md -> exists b,
  grows st (all_symbols st) empty b /\ (forall c m, dget md c = Some m <-> In c (relevant b) /\ entry st b c = Ok m) /\
  (forall c, In c (relevant b) -> exists m, dget md c = Some m).
Proof.
  intros fuel st md H. unfold create_dag_metadata in H. apply (proj1 (rbind_Ok _ _ _)) in H. destruct H as (b & B & H).
  exists b. split; [apply (grows_all fuel); auto|]. destruct (entries _ _ _ _ _ H) as (P & Q).
  assert (R : forall c m, dget md c = Some m <-> In c (relevant b) /\ entry st b c = Ok m).
  { intros c m. rewrite Q. simpl. split; [intros [X|(_ & X)]; [auto|discriminate]|auto]. }
  split; auto. intros c I. destruct (P c I) as (m & E). exists m. apply R. auto.
Qed.
Lemma entry_fields : forall st b c m, entry st b c = Ok m -> m_parents m = get (t_parents b) c /\ m_children m = get (t_children b) c /\
  (forall n, In n (dkeys (m_inputs m)) <-> exists i, In i (get (t_inputs b) c) /\ named st i n) /\
  (forall n, In n (dkeys (m_outputs m)) <-> exists i, In i (get (t_outputs b) c) /\ named st i n) /\
  (forall x, In x (m_imports m) <-> exists i s, In i (get (t_imports b) c) /\ dget (symbols st) i = Some s /\ import_of s = Ok x).
Proof.
  intros st b c m H. unfold entry in H. apply (proj1 (rbind_Ok _ _ _)) in H. destruct H as (im & IM & H).
  apply (proj1 (rbind_Ok _ _ _)) in H. destruct H as (ins & INS & H). apply (proj1 (rbind_Ok _ _ _)) in H. destruct H as (outs & OUTS & H).
  injection H as <-. cbn [m_parents m_children m_inputs m_outputs m_imports]. split; auto. split; auto. split; [apply describe_spec; auto|].
  split; [apply describe_spec; auto|]. intros x. rewrite (imports_spec _ _ _ _ IM). simpl. tauto.
Qed.

Lemma rel_imports : forall b c x, In x (get (t_imports b) c) -> In c (relevant b).
Proof. intros. unfold relevant. rewrite !In_supd. apply get_key in H. tauto. Qed.
Lemma rel_inputs : forall b c x, In x (get (t_inputs b) c) -> In c (relevant b).
Proof. intros. unfold relevant. rewrite !In_supd. apply get_key in H. tauto. Qed.
Lemma rel_outputs : forall b c x, In x (get (t_outputs b) c) -> In c (relevant b).
Proof. intros. unfold relevant. rewrite !In_supd. apply get_key in H. tauto. Qed.
Lemma rel_parents : forall b c x, In x (get (t_parents b) c) -> In c (relevant b).
Proof. intros. unfold relevant. rewrite !In_supd. apply get_key in H. tauto. Qed.
Lemma rel_children : forall b c x, In x (get (t_children b) c) -> In c (relevant b).
Proof. intros. unfold relevant. rewrite !In_supd. apply get_key in H. tauto. Qed.

Lemma exact : forall fuel st md, create_dag_metadata fuel st = Ok md ->
  (forall c x, imports md c x <-> exists t s p, uses st c p t /\ imported st t /\ dget (symbols st) t = Some s /\ import_of s = Ok x) /\
  (forall c n, input md c n <-> exists t p, uses st c p t /\ c <> p /\ ~ imported st t /\ named st t n) /\
  (forall c n, output md c n <-> exists t, ~ imported st t /\ named st t n /\ (updates st c t \/ exists d, uses st d c t /\ d <> c)) /\
  (forall c p, parent md c p <-> c <> p /\ exists t, uses st c p t /\ ~ imported st t) /\
  (forall c p, child md p c <-> c <> p /\ exists t, uses st c p t /\ ~ imported st t).
Proof.
  intros fuel st md H. destruct (created _ _ _ H) as (b & (A & B & C & D & E) & Q & P). cbn [empty t_imports t_inputs t_outputs t_parents t_children] in *.
  assert (Z : forall c x, In x (get [] c) <-> False) by (intros; unfold get; simpl; tauto).
  setoid_rewrite Z in A. setoid_rewrite Z in B. setoid_rewrite Z in C. setoid_rewrite Z in D. setoid_rewrite Z in E.
  repeat apply conj.
  - intros c x. split.
    + intros (m & M & I). apply Q in M. destruct M as (_ & M). apply entry_fields in M. destruct M as (_ & _ & _ & _ & M). apply M in I.
      destruct I as (t & s & I & S & X). apply A in I. destruct I as [[]|(I & p & U)]. exists t, s, p. auto.
    + intros (t & s & p & U & I & S & X). assert (G : In t (get (t_imports b) c)) by (apply A; right; eauto).
      destruct (P c (rel_imports _ _ _ G)) as (m & M). exists m. split; auto. apply Q in M. destruct M as (_ & M). apply entry_fields in M.
      destruct M as (_ & _ & _ & _ & M). apply M. eauto.
  - intros c n. split.
    + intros (m & M & I). apply Q in M. destruct M as (_ & M). apply entry_fields in M. destruct M as (_ & _ & M & _ & _). apply M in I.
      destruct I as (t & I & N). apply B in I. destruct I as [[]|(I & p & U & K)]. exists t, p. auto.
    + intros (t & p & U & K & I & N). assert (G : In t (get (t_inputs b) c)) by (apply B; right; eauto).
      destruct (P c (rel_inputs _ _ _ G)) as (m & M). exists m. split; auto. apply Q in M. destruct M as (_ & M). apply entry_fields in M.
      destruct M as (_ & _ & M & _ & _). apply M. eauto.
  - intros c n. split.
    + intros (m & M & I). apply Q in M. destruct M as (_ & M). apply entry_fields in M. destruct M as (_ & _ & _ & M & _). apply M in I.
      destruct I as (t & I & N). apply C in I. destruct I as [[]|(I & [U|U])]; exists t; auto.
    + intros (t & I & N & U). assert (G : In t (get (t_outputs b) c)) by (apply C; right; split; auto; tauto).
      destruct (P c (rel_outputs _ _ _ G)) as (m & M). exists m. split; auto. apply Q in M. destruct M as (_ & M). apply entry_fields in M.
      destruct M as (_ & _ & _ & M & _). apply M. eauto.
  - intros c p. split.
    + intros (m & M & I). apply Q in M. destruct M as (_ & M). apply entry_fields in M. destruct M as (M & _). rewrite M in I.
      apply D in I. destruct I as [[]|(K & t & N & U)]. split; auto. exists t. auto.
    + intros (K & t & U & N). assert (G : In p (get (t_parents b) c)) by (apply D; right; eauto).
      destruct (P c (rel_parents _ _ _ G)) as (m & M). exists m. split; auto. apply Q in M. destruct M as (_ & M). apply entry_fields in M.
      destruct M as (M & _). rewrite M. auto.
  - intros c p. split.
    + intros (m & M & I). apply Q in M. destruct M as (_ & M). apply entry_fields in M. destruct M as (_ & M & _). rewrite M in I.
      apply E in I. destruct I as [[]|(K & t & N & U)]. split; auto. exists t. auto.
    + intros (K & t & U & N). assert (G : In c (get (t_children b) p)) by (apply E; right; eauto).
      destruct (P p (rel_children _ _ _ G)) as (m & M). exists m. split; auto. apply Q in M. destruct M as (_ & M). apply entry_fields in M.
      destruct M as (_ & M & _). rewrite M. auto.
Qed.

(** It never fails on sound tables. *)
Lemma in_aliases : forall st o i, In i (aliases_of st o) -> In i (all_symbols st).
Proof.
  intros st o i H. unfold aliases_of in H. destruct (dget (aliases st) o) as [l|] eqn:E; [|destruct H].
  unfold all_symbols. apply in_concat. exists l. split; auto. apply dget_In in E. unfold dvals. change l with (snd (o, l)). apply in_map. auto.
Qed.

Lemma first_accessible_total : forall st l, (forall i, In i l -> exists s, dget (symbols st) i = Some s) -> exists r, first_accessible st l = Ok r.
Proof.
  intros st l. induction l as [|i l IH]; intros H; simpl; [eauto|]. destruct (H i (or_introl eq_refl)) as (s & S). unfold sym. rewrite S. simpl.
  destruct (s_accessible s); [eauto|]. apply IH. intros j J. apply H. right. auto.
Qed.
Lemma covered_total : forall st n l, (forall i, In i l -> exists s, dget (symbols st) i = Some s) -> exists r, covered st n l = Ok r.
Proof.
  intros st n l. induction l as [|i l IH]; intros H; simpl; [eauto|]. destruct (H i (or_introl eq_refl)) as (s & S). unfold sym. rewrite S. simpl.
  destruct (is_import s && (s_name s =? n)); [eauto|]. apply IH. intros j J. apply H. right. auto.
Qed.
Lemma top_total : forall st rank, sound st rank -> forall fuel i, rank i < fuel -> In i (all_symbols st) ->
  exists r, top_level fuel st i = Ok r /\ forall t, r = Some t -> In t (all_symbols st).
Proof.
  intros st rank (A & _ & C). induction fuel as [|fuel IH]; intros i L I; [lia|]. simpl. destruct (A i I) as (s & S). unfold sym. rewrite S. simpl.
  destruct (s_ns s) as [o|] eqn:N; [|exists (Some i); split; auto; intros t T; congruence].
  destruct (first_accessible_total st (aliases_of st o)) as (r & R); [intros j J; apply A; eapply in_aliases; eauto|].
  rewrite R. simpl. destruct r as [j|]; [|exists None; split; auto; discriminate].
  apply first_accessible_spec in R. destruct R as (l1 & l2 & sj & E & _).
  assert (J : In j (aliases_of st o)) by (rewrite E, in_app_iff; right; left; auto).
  apply IH; [|eapply in_aliases; eauto]. pose proof (C i s o j S N J). lia.
Qed.

Lemma on_symbol_total : forall st rank fuel b i, sound st rank -> rank i < fuel -> In i (all_symbols st) -> exists b', on_symbol fuel st b i = Ok b'.
Proof.
  intros st rank fuel b i W L I. unfold on_symbol. destruct (top_total st rank W fuel i L I) as (r & R & T). destruct W as (A & _ & _).
  destruct (A i I) as (s & S). unfold sym. rewrite S. cbn [of_option rbind]. rewrite R. cbn [rbind]. destruct r as [t|]; [|eauto].
  destruct (A t (T t eq_refl)) as (ts & TS). rewrite TS. cbn [of_option rbind].
  assert (X : exists look, looked_at st ts = Ok look).
  { unfold looked_at. destruct (negb _ || _ || _); [eauto|]. destruct (is_module ts); [|eauto].
    destruct (covered_total st (s_name ts) (aliases_of st (s_obj ts))) as (c & C); [intros j J; apply A; eapply in_aliases; eauto|]. rewrite C. simpl. eauto. }
  destruct X as (look & X). rewrite X. simpl. destruct look; eauto.
Qed.

Lemma held_exists : forall st i t, held_by st i t -> exists s, dget (symbols st) t = Some s.
Proof. intros st i t H. induction H; eauto. Qed.

Lemma describe_total : forall st l, (forall i, In i l -> exists s, dget (symbols st) i = Some s) -> exists d, describe st l = Ok d.
Proof.
  intros st l. unfold describe. generalize (@nil (nat * nat)). induction l as [|i l IH]; intros d H; simpl; [eauto|].
  destruct (H i (or_introl eq_refl)) as (s & S). unfold sym at 1. rewrite S. simpl. apply IH. intros j J. apply H. right. auto.
Qed.
Lemma imports_total : forall st l acc, (forall i, In i l -> exists s x, dget (symbols st) i = Some s /\ import_of s = Ok x) ->
  exists r, rfold (fun acc i => rbind (sym st i) (fun s => rmap (fun x => acc ++ [x]) (import_of s))) l acc = Ok r.
Proof.
  intros st l. induction l as [|i l IH]; intros acc H; simpl; [eauto|].
  destruct (H i (or_introl eq_refl)) as (s & x & S & X). unfold sym at 1. rewrite S. simpl. rewrite X. simpl. apply IH. intros j J. apply H. right. auto.
Qed.

Lemma original_total : forall names x a, In a names -> bound_name a = x -> exists y, original names x = Ok y.
Proof.
  intros names x a I B. unfold original. destruct (find (fun a => bound_name a =? x) names) eqn:F; simpl; [eauto|].
  apply find_none with (x := a) in F; auto. apply Nat.eqb_neq in F. contradiction.
Qed.
Lemma import_total : forall st rank i s k, sound st rank -> dget (symbols st) i = Some s -> s_kind s = KImport k -> exists x, import_of s = Ok x.
Proof.
  intros st rank i s k (_ & B & _) S K. destruct (B i s k S K) as (stmt & a & -> & N & I & E). unfold import_of. rewrite K.
  destruct stmt as [l|[m|] l]; simpl in I.
  - destruct (original_total l (s_name s) a I E) as (y & ->). simpl. eauto.
  - destruct (original_total l (s_name s) a I E) as (y & ->). simpl. eauto.
  - exfalso. apply (N l). auto.
Qed.

Lemma create_total : forall st rank fuel, sound st rank -> (forall i, In i (all_symbols st) -> rank i < fuel) -> exists md, create_dag_metadata fuel st = Ok md.
Proof.
  intros st rank fuel W L. unfold create_dag_metadata.
  assert (X : forall l b, (forall i, In i l -> In i (all_symbols st)) -> exists b', rfold (on_symbol fuel st) l b = Ok b').
  { induction l as [|i l IH]; intros b H; simpl; [eauto|]. destruct (on_symbol_total st rank fuel b i W) as (b1 & B1); [apply L; apply H; left; auto|apply H; left; auto|]. rewrite B1. simpl. apply IH. intros j J. apply H. right. auto. }
  destruct (X (all_symbols st) (mkTab [] [] [] [] [])) as (b & B); auto. rewrite B. cbn [rbind].
  apply grows_all in B. destruct B as (G1 & G2 & G3 & _). cbn [t_imports t_inputs t_outputs] in *.
  assert (Z : forall c x, In x (get [] c) -> False) by (intros c x []).
  assert (HE : forall i l c p t, used_in st l c p t -> i = t -> exists s, dget (symbols st) i = Some s).
  { intros i l c p t (j & s & _ & _ & H & _) ->. eapply held_exists; eauto. }
  assert (E : forall c, exists m, entry st b c = Ok m).
  { intros c. unfold entry.
    destruct (imports_total st (get (t_imports b) c) []) as (im & IM).
    { intros t T. apply G1 in T. destruct T as [T|((s & k & S & K) & p & U)]; [destruct (Z _ _ T)|].
      destruct (import_total st rank t s k W S K) as (x & X'). eauto. }
    destruct (describe_total st (get (t_inputs b) c)) as (ins & INS).
    { intros t T. apply G2 in T. destruct T as [T|(_ & p & U & _)]; [destruct (Z _ _ T)|]. eapply HE; eauto. }
    destruct (describe_total st (get (t_outputs b) c)) as (outs & OUTS).
    { intros t T. apply G3 in T. destruct T as [T|(_ & [(d & U & _)|(j & s & _ & _ & U & _)])]; [destruct (Z _ _ T)|eapply HE; eauto|eapply held_exists; eauto]. }
    rewrite IM, INS, OUTS. simpl. eauto. }
  generalize (@nil (nat * metadata)). induction (relevant b) as [|c l IH]; intros md; simpl; [eauto|]. destruct (E c) as (m & M). rewrite M. simpl. apply IH.
Qed.

(** Imports. *)
Lemma original_unique : forall names x y, NoDup (map bound_name names) -> original names x = Ok y -> binds_in names x y.
Proof.
  intros names x y N H. unfold original in H. apply of_option_Ok in H. destruct (find (fun a => bound_name a =? x) names) as [[y' a]|] eqn:F; [|discriminate].
  injection H as ->. apply find_some in F. destruct F as (I & B). apply Nat.eqb_eq in B. apply in_split in I. destruct I as (l1 & l2 & ->).
  exists l1, a, l2. split; auto. split; auto. intros b J K. rewrite map_app in N. apply NoDup_remove_2 in N. apply N. cbn [map]. rewrite B, <- K.
  apply in_app_iff. right. apply in_map. auto.
Qed.
