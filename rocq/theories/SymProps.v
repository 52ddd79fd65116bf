(** C24: dependency edges between symbols.  C25: [deps], [users], [rdeps], [rusers]. *)
Require Import List Bool Arith Lia.
Import ListNotations.
Require Import Verif.Base Verif.SymModel Verif.SymSpec Verif.SymProofs.

(** ** C24 *)

(** After any history, the dependency edge between two symbols that have not been collected
    is recorded at both ends, with the same times. *)
Theorem C24_symmetric : forall l g gone, hist l g gone ->
  forall s p, ~ In s gone -> ~ In p gone -> dget (g_par g s) p = dget (g_chd g p) s.
Proof. intros l g gone H s p. apply (gi_sym _ _ (hist_inv _ _ _ H)). Qed.
Print Assumptions C24_symmetric.

(** No symbol depends on itself. *)
Theorem C24_no_self : forall l g gone, hist l g gone ->
  forall s, ~ parent_of g s s /\ ~ child_of g s s.
Proof.
  intros l g gone H s. pose proof (hist_inv _ _ _ H) as I. split; intros [t P].
  - exact (gi_self _ _ I s t P).
  - exact (gi_self' _ _ I s t P).
Qed.
Print Assumptions C24_no_self.

(** Only symbols that exist are linked, and a symbol that is still in use is not linked to
    one that was collected. *)
Theorem C24_no_ghosts : forall l g gone, hist l g gone ->
  forall s p, parent_of g s p \/ child_of g s p ->
    In p (g_syms g) /\ (~ In s gone -> ~ In p gone).
Proof.
  intros l g gone H s p [E|E]; split.
  - destruct E as [t E]. apply (gi_known _ _ (hist_inv _ _ _ H)) in E. tauto.
  - intros N. eapply live_parent; eauto.
  - destruct E as [t E]. apply (gi_known' _ _ (hist_inv _ _ _ H)) in E. tauto.
  - intros N. eapply live_child; eauto.
Qed.
Print Assumptions C24_no_ghosts.

(** An overwriting update leaves exactly the new dependencies — provided the symbol is not
    among them and none of them depends on it; see [C24_overwrite_refuted]. *)
Theorem C24_overwrite_exact_partial : forall l g gone, hist l g gone ->
  forall s ds now, ~ In s ds -> (forall d, In d ds -> ~ parent_of g d s) ->
  forall p, parent_of (update_deps g false s ds true now) s p <-> In p ds.
Proof.
  intros l g gone H s ds now Ns Nd p. pose proof (hist_inv _ _ _ H) as I.
  destruct (update_spec g s ds true now (gi_wf _ _ I)) as (_ & _ & P & _).
  unfold parent_of. rewrite P, Nat.eqb_refl, overwrites_true by auto.
  assert (D : (In p ds /\ p <> s) <-> In p ds).
  { split; [tauto|]. intros A. split; auto. intros ->. contradiction. }
  simpl. destruct (memb p ds && negb (p =? s))%bool eqn:E.
  - apply isdep_spec in E. destruct (dget (g_par g s) p); simpl; split; intros; eauto; tauto.
  - apply isdep_false in E. simpl. split; [|tauto].
    destruct (dget (g_par g s) p); intros [t X]; discriminate.
Qed.
Print Assumptions C24_overwrite_exact_partial.

(** The claim without the proviso is false: with [a] first built from [z], then [b] from
    [a], the assignment [a = b] overwrites the value of [a], yet [a] goes on depending on
    [z] (and now the graph has a cycle). The same happens for [a = f(a)]. *)
Theorem C24_overwrite_refuted :
  (exists l g gone s d z now, hist l g gone /\ z <> d /\ s <> d /\
     parent_of (update_deps g false s [d] true now) s z) /\
  (exists l g gone s z now, hist l g gone /\ z <> s /\
     parent_of (update_deps g false s [s] true now) s z).
Proof.
  assert (H0 : hist ([] ++ [New 0] ++ [New 1]) (op_step (op_step g_init (New 0)) (New 1)) []).
  { apply (Hi_new [New 0]); [|simpl; intuition lia]. apply (Hi_new []); [constructor|auto]. }
  assert (H1 : hist (([New 0] ++ [New 1]) ++ [Update false 1 [0] true 1])
     (op_step (op_step (op_step g_init (New 0)) (New 1)) (Update false 1 [0] true 1)) []).
  { apply Hi_update; [exact H0|]. simpl. intuition lia. }
  split.
  - set (g1 := op_step (op_step (op_step g_init (New 0)) (New 1)) (Update false 1 [0] true 1)) in *.
    assert (H2 : hist ((([New 0] ++ [New 1]) ++ [Update false 1 [0] true 1]) ++ [New 2])
       (op_step g1 (New 2)) []).
    { apply Hi_new; [exact H1|]. simpl. intuition lia. }
    assert (H3 : hist (((([New 0] ++ [New 1]) ++ [Update false 1 [0] true 1]) ++ [New 2]) ++
        [Update false 2 [1] true 2])
       (op_step (op_step g1 (New 2)) (Update false 2 [1] true 2)) []).
    { apply Hi_update; [exact H2|]. simpl. intuition lia. }
    do 3 eexists. exists 1, 2, 0, 3. split; [exact H3|]. split; [lia|]. split; [lia|].
    exists [1]. reflexivity.
  - do 3 eexists. exists 1, 0, 2. split; [exact H1|]. split; [lia|]. exists [1]. reflexivity.
Qed.
Print Assumptions C24_overwrite_refuted.

(** Whatever the update, overwriting or not, every new dependency other than the symbol
    itself is recorded, and nothing is invented. *)
Theorem C24_update_bounds : forall l g gone, hist l g gone ->
  forall s ds ow now p,
    (In p ds -> p <> s -> parent_of (update_deps g false s ds ow now) s p) /\
    (parent_of (update_deps g false s ds ow now) s p ->
       parent_of g s p \/ (In p ds /\ p <> s)).
Proof.
  intros l g gone H s ds ow now p. pose proof (hist_inv _ _ _ H) as I.
  destruct (update_spec g s ds ow now (gi_wf _ _ I)) as (_ & _ & P & _).
  unfold parent_of. rewrite P, Nat.eqb_refl. split.
  - intros A B. assert (E : (memb p ds && negb (p =? s))%bool = true) by now apply isdep_spec.
    rewrite E. simpl. rewrite andb_false_r. destruct (dget (g_par g s) p); eauto.
  - intros [t X]. destruct (dget (g_par g s) p) eqn:E; [eauto|].
    destruct (memb p ds && _)%bool eqn:Q; [|discriminate]. right. now apply isdep_spec.
Qed.
Print Assumptions C24_update_bounds.

(** A mutating update only adds: the parents afterwards are the earlier ones and the new
    dependencies, and an edge that was there keeps its times. *)
Theorem C24_mutate_adds : forall l g gone, hist l g gone ->
  forall s ds now p,
    (parent_of (update_deps g false s ds false now) s p <->
       parent_of g s p \/ (In p ds /\ p <> s)) /\
    (forall t, dget (g_par g s) p = Some t ->
       dget (g_par (update_deps g false s ds false now) s) p = Some t).
Proof.
  intros l g gone H s ds now p. pose proof (hist_inv _ _ _ H) as I.
  destruct (update_spec g s ds false now (gi_wf _ _ I)) as (_ & _ & P & _).
  unfold parent_of. rewrite P, Nat.eqb_refl. unfold overwrites; simpl. split.
  - split.
    + intros [t X]. destruct (dget (g_par g s) p) eqn:E; [eauto|].
      destruct (memb p ds && _)%bool eqn:Q; [|discriminate]. right. now apply isdep_spec.
    + intros [[t X]|X]; [rewrite X; eauto|]. apply isdep_spec in X. rewrite X.
      destruct (dget (g_par g s) p); eauto.
  - intros t ->. reflexivity.
Qed.
Print Assumptions C24_mutate_adds.

(** An update of [s] leaves the dependencies of every other symbol alone; one that is
    skipped changes nothing. *)
Theorem C24_others_untouched : forall l g gone, hist l g gone ->
  forall skip s ds ow now a, a <> s \/ skip = true ->
    forall p, dget (g_par (update_deps g skip s ds ow now) a) p = dget (g_par g a) p.
Proof.
  intros l g gone H skip s ds ow now a N p. pose proof (hist_inv _ _ _ H) as I.
  destruct skip; [reflexivity|]. destruct N as [N|]; [|discriminate].
  destruct (update_spec g s ds ow now (gi_wf _ _ I)) as (_ & _ & P & _).
  rewrite P. destruct (Nat.eqb_spec a s); [contradiction|reflexivity].
Qed.
Print Assumptions C24_others_untouched.

(** Collecting a symbol removes it from its neighbours and changes no edge between other
    symbols. *)
Theorem C24_collect : forall l g gone, hist l g gone ->
  forall s, ~ In s gone ->
  forall a b, a <> s -> b <> s -> ~ In a gone -> ~ In b gone ->
    ~ parent_of (collect g s) a s /\ ~ child_of (collect g s) a s /\
    dget (g_par (collect g s) a) b = dget (g_par g a) b /\
    dget (g_chd (collect g s) a) b = dget (g_chd g a) b.
Proof.
  intros l g gone H s Ns a b Na Nb Ga Gb. pose proof (hist_inv _ _ _ H) as I.
  destruct (collect_spec g s (gi_wf _ _ I)) as (_ & Q & P).
  apply Nat.eqb_neq in Na. apply Nat.eqb_neq in Nb.
  split; [|split; [|split]].
  - intros [t X]. rewrite P, Nat.eqb_refl, dget_memb, Q, Na in X. cbn [andb] in X.
    rewrite <- (gi_sym _ _ I a s) in X by auto. destruct (dget (g_par g a) s); discriminate.
  - intros [t X]. rewrite Q, Nat.eqb_refl, dget_memb in X. cbn [andb] in X.
    rewrite (gi_sym _ _ I s a) in X by auto. destruct (dget (g_chd g a) s); discriminate.
  - rewrite P, Nb. reflexivity.
  - rewrite Q, Nb. reflexivity.
Qed.
Print Assumptions C24_collect.

(** ** C25 *)

(** [deps] and [users] list the direct neighbours. *)
Theorem C25_direct : forall l g gone, hist l g gone -> forall anon x y,
  (In y (deps g anon x) <-> parent_of g x y /\ anon y = false) /\
  (In y (users g anon x) <-> child_of g x y /\ anon y = false).
Proof.
  intros l g gone H anon x y. unfold deps, users. rewrite !filter_In, !negb_true_iff.
  split; (split; intros [A B]; split; auto;
    [now apply key_dget|destruct A as [t A]; eapply dget_Some_key; eauto]).
Qed.
Print Assumptions C25_direct.

(** [rdeps x] completes, on cyclic graphs too, and lists once each exactly the
    non-anonymous symbols, other than [x], reached from [x] by one or more steps to a
    parent; [rusers x] likewise for children. *)
Theorem C25_exact : forall l g gone, hist l g gone ->
  forall anon x, In x (g_syms g) -> exists ds us,
    rdeps g anon x = Ok ds /\ rusers g anon x = Ok us /\ NoDup ds /\ NoDup us /\
    (forall y, In y ds <-> reach1 (parent_of g) x y /\ y <> x /\ anon y = false) /\
    (forall y, In y us <-> reach1 (child_of g) x y /\ y <> x /\ anon y = false).
Proof.
  intros l g gone H anon x Hx.
  destruct (rdeps_spec l g gone anon x H Hx) as (ds & A & B & C).
  destruct (rusers_spec l g gone anon x H Hx) as (us & D & E & F).
  exists ds, us. split; auto. split; auto. split; auto. split; auto. split; intros y.
  - rewrite C. split; intros (P & Q & R); split; auto.
    + now apply reach_ne; auto.
    + now apply reach1_reach.
  - rewrite F. split; intros (P & Q & R); split; auto.
    + now apply reach_ne; auto.
    + now apply reach1_reach.
Qed.
Print Assumptions C25_exact.

(** [y] is among the users of [x] exactly when [x] is among the dependencies of [y]. *)
Theorem C25_inverse : forall l g gone, hist l g gone ->
  forall anon x y, In x (g_syms g) -> In y (g_syms g) -> ~ In x gone -> ~ In y gone ->
  anon x = false -> anon y = false ->
  forall us ds, rusers g anon x = Ok us -> rdeps g anon y = Ok ds ->
  (In y us <-> In x ds).
Proof.
  intros l g gone H anon x y Hx Hy Gx Gy Ax Ay us ds U D.
  destruct (rdeps_spec l g gone anon y H Hy) as (ds' & A & _ & C).
  destruct (rusers_spec l g gone anon x H Hx) as (us' & B & _ & E).
  rewrite A in D. injection D as ->. rewrite B in U. injection U as ->.
  rewrite C, E. split; intros (P & Q & _); split; auto.
  - eapply reach_down; eauto.
  - eapply reach_up; eauto.
Qed.
Print Assumptions C25_inverse.

(** ** The hypotheses are met *)

(** [z]; [a = f(z)]; [b = g(a)]; [a.append(b)], which closes a cycle; then a temporary is
    made from [b] and collected. *)
Definition cyc_ops : list op :=
  [New 0; New 1; Update false 1 [0] true 1; New 2; Update false 2 [1] true 2;
   Update false 1 [2] false 3; New 3; Update false 3 [2; 0] true 4; Collect 3].
Definition cyc := fold_left op_step cyc_ops g_init.

Example cyc_hist : hist cyc_ops cyc [3].
Proof.
  unfold cyc, cyc_ops.
  apply (Hi_collect [New 0; New 1; Update false 1 [0] true 1; New 2; Update false 2 [1] true 2;
   Update false 1 [2] false 3; New 3; Update false 3 [2; 0] true 4]);
    [|simpl; auto 10|simpl; tauto].
  apply (Hi_update [New 0; New 1; Update false 1 [0] true 1; New 2; Update false 2 [1] true 2;
   Update false 1 [2] false 3; New 3]); [|simpl; intuition lia].
  apply (Hi_new [New 0; New 1; Update false 1 [0] true 1; New 2; Update false 2 [1] true 2;
   Update false 1 [2] false 3]); [|simpl; intuition lia].
  apply (Hi_update [New 0; New 1; Update false 1 [0] true 1; New 2; Update false 2 [1] true 2]);
    [|simpl; intuition lia].
  apply (Hi_update [New 0; New 1; Update false 1 [0] true 1; New 2]); [|simpl; intuition lia].
  apply (Hi_new [New 0; New 1; Update false 1 [0] true 1]); [|simpl; intuition lia].
  apply (Hi_update [New 0; New 1]); [|simpl; intuition lia].
  apply (Hi_new [New 0]); [|simpl; intuition lia].
  apply (Hi_new []); [constructor|simpl; auto].
Qed.

Example cyc_edges : parent_of cyc 1 2 /\ parent_of cyc 2 1 /\ child_of cyc 0 1 /\
  ~ child_of cyc 2 3 /\ parent_of cyc 3 2.
Proof.
  split; [|split; [|split; [|split]]]; try (eexists; vm_compute; reflexivity).
  intros [t X]. vm_compute in X. discriminate.
Qed.

Example cyc_queries :
  rdeps cyc (fun _ => false) 2 = Ok [1; 0] /\ rusers cyc (fun _ => false) 0 = Ok [1; 2] /\
  rdeps cyc (Nat.eqb 1) 2 = Ok [0].
Proof. vm_compute. auto. Qed.

Example cyc_overwrite : ~ In 2 [0] /\ (forall d, In d [0] -> ~ parent_of cyc d 2) /\
  parent_of cyc 2 1 /\ ~ parent_of (update_deps cyc false 2 [0] true 9) 2 1.
Proof.
  split; [simpl; lia|]. split.
  - intros d [<-|[]] [t X]. vm_compute in X. discriminate.
  - split; [apply cyc_edges|]. intros [t X]. vm_compute in X. discriminate.
Qed.
