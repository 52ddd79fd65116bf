(** Invariants of the session model (properties C03, C04, C05, C07, C15). *)
Require Import List ZArith Bool Arith Lia.
Import ListNotations.
Require Import Verif.Base Verif.SessionModel Verif.SessionSpec.

(** * Edge sets *)

Definition ewf (e : edges) : Prop :=
  dwf e /\ forall k l, dget e k = Some l -> l <> [].

Lemma ewf_nil : ewf [].
Proof. split; [constructor|]. discriminate. Qed.

Lemma has_nil k sym : ~ has [] k sym.
Proof. intros (l & H & _). discriminate. Qed.

Lemma has_key e k sym : has e k sym -> In k (dkeys e).
Proof. intros (l & H & _). eapply dget_Some_key; eauto. Qed.

Lemma key_has e k : ewf e -> In k (dkeys e) -> exists sym, has e k sym.
Proof.
  intros [_ N] H. apply key_dget in H. destruct H as [l H].
  pose proof (N _ _ H). destruct l as [|a l]; [congruence|].
  exists a, (a :: l). split; auto. left; auto.
Qed.

Lemma has_edge_add e k syms k' sym :
  has (edge_add e k syms) k' sym <-> has e k' sym \/ (k' = k /\ In sym syms).
Proof.
  unfold has, edge_add. rewrite dget_dset. destruct (Nat.eqb_spec k' k) as [->|N].
  - split.
    + intros (l & [= <-] & H). apply In_supd in H. destruct H as [H|H]; auto.
      destruct (dget e k) eqn:E; [|inversion H]. left; eauto.
    + intros [(l & E & H)|[_ H]].
      * rewrite E. eexists; split; eauto. apply In_supd; auto.
      * eexists; split; eauto. apply In_supd; auto.
  - split; [intros (l & E & H); left; eauto|].
    intros [H|[E _]]; [auto|congruence].
Qed.

Lemma ewf_edge_add e k syms : ewf e -> syms <> [] -> ewf (edge_add e k syms).
Proof.
  intros [W N] H. split; [now apply dwf_dset|].
  intros k' l. unfold edge_add. rewrite dget_dset.
  destruct (Nat.eqb_spec k' k); [|apply N].
  intros [= <-]. apply supd_nonempty; auto.
Qed.

Lemma has_edge_remove e k syms k' sym :
  ewf e ->
  (has (edge_remove e k syms) k' sym <-> has e k' sym /\ ~ (k' = k /\ In sym syms)).
Proof.
  intros [W N]. unfold edge_remove. destruct (dget e k) as [old|] eqn:E.
  - pose proof (N _ _ E) as NE. apply is_nil_false in NE. rewrite NE.
    destruct (is_nil (sdiff old syms)) eqn:R.
    + apply is_nil_true in R. unfold has. rewrite dget_ddel; auto.
      destruct (Nat.eqb_spec k' k) as [->|Nk].
      * split; [intros (l & H & _); discriminate|].
        intros [(l & H & I) X]. rewrite E in H. injection H as <-.
        exfalso. assert (In sym (sdiff old syms)) by (apply In_sdiff; split; auto).
        rewrite R in H. inversion H.
      * split; [intros H; split; auto; intros [? _]; congruence|tauto].
    + unfold has. rewrite dget_dset. destruct (Nat.eqb_spec k' k) as [->|Nk].
      * split.
        -- intros (l & [= <-] & H). apply In_sdiff in H. split; [exists old; tauto|tauto].
        -- intros [(l & H & I) X]. rewrite E in H. injection H as <-.
           eexists; split; eauto. apply In_sdiff; split; auto.
      * split; [intros H; split; auto; intros [? _]; congruence|tauto].
  - split; [|tauto]. intros H. split; auto. intros [-> _].
    destruct H as (l & H & _). congruence.
Qed.

Lemma ewf_edge_remove e k syms : ewf e -> ewf (edge_remove e k syms).
Proof.
  intros [W N]. unfold edge_remove. destruct (dget e k) as [old|] eqn:E; [|split; auto].
  destruct (is_nil old); [split; auto|].
  destruct (is_nil (sdiff old syms)) eqn:R.
  - split; [now apply dwf_ddel|]. intros k' l. rewrite dget_ddel; auto.
    destruct (Nat.eqb k' k); [discriminate|apply N].
  - split; [now apply dwf_dset|]. intros k' l. rewrite dget_dset.
    destruct (Nat.eqb k' k); [|apply N]. intros [= <-]. now apply is_nil_false.
Qed.

Lemma has_inherit prev : dwf prev -> forall own syms k sym,
  has (inherit_edges own prev syms) k sym <->
  has own k sym \/ (In sym syms /\ has prev k sym).
Proof.
  unfold inherit_edges.
  induction prev as [|[k0 l0] prev IH]; intros W own syms k sym; simpl.
  - split; auto. intros [|[_ (l & H & _)]]; auto. discriminate.
  - inversion W as [|? ? Nin W']; subst. rewrite IH by auto.
    assert (HP : has ((k0, l0) :: prev) k sym <->
                 (k = k0 /\ In sym l0) \/ (k <> k0 /\ has prev k sym)).
    { unfold has. simpl. destruct (Nat.eqb_spec k k0).
      - split; [intros (l & [= <-] & H); auto|].
        intros [[_ H]|[H _]]; [eauto|congruence].
      - split; [intros H; right; auto|]. intros [[H _]|[_ H]]; [congruence|auto]. }
    assert (HN : has prev k sym -> k <> k0).
    { intros H ->. apply Nin. eapply has_key; eauto. }
    assert (HI : In sym (sinter syms l0) <-> In sym syms /\ In sym l0) by apply In_sinter.
    destruct (is_nil (sinter syms l0)) eqn:E.
    + apply is_nil_true in E. rewrite E in HI. simpl in HI. rewrite HP.
      split; [intros [|[]]; auto; right; split; auto|].
      intros [|[H [[_ H']|[_ H']]]]; auto. exfalso. tauto.
    + rewrite has_edge_add, HP, HI. clear - HN. tauto.
Qed.

Lemma ewf_inherit prev : forall own syms, ewf own -> ewf (inherit_edges own prev syms).
Proof.
  unfold inherit_edges.
  induction prev as [|[k0 l0] prev IH]; intros own syms W; simpl; auto.
  apply IH. destruct (is_nil (sinter syms l0)) eqn:E; auto.
  apply ewf_edge_add; auto. now apply is_nil_false.
Qed.

(** * Contexts *)

Lemma ctx_eqb_spec a b : reflect (a = b) (ctx_eqb a b).
Proof. destruct a, b; simpl; constructor; congruence. Qed.

Lemma ctx_eqb_refl a : ctx_eqb a a = true.
Proof. now destruct a. Qed.

(** * Dicts keyed by counters *)

Lemma zget_zset {V} (d : list (Z * V)) k v k' :
  zget (zset d k v) k' = if Z.eqb k' k then Some v else zget d k'.
Proof.
  induction d as [|[k0 v0] d IH]; simpl.
  - destruct (Z.eqb k' k); auto.
  - destruct (Z.eqb_spec k k0); subst; simpl.
    + destruct (Z.eqb_spec k' k0); auto.
    + rewrite IH. destruct (Z.eqb_spec k' k0); auto.
      subst. destruct (Z.eqb_spec k0 k); auto. congruence.
Qed.

(** * Well-formed registries *)

Record WF (s : sess) : Prop := {
  wf_cur : dwf (cur s);
  wf_last : forall i u, dget (cur s) i = Some u ->
     exists v, nth_error (heap s) u = Some v /\ c_id v = i /\
     forall u' v', nth_error (heap s) u' = Some v' -> c_id v' = i -> u' <= u;
  wf_known : forall u v, nth_error (heap s) u = Some v -> In (c_id v) (dkeys (cur s));
  wf_prev : forall u v, nth_error (heap s) u = Some v ->
     match c_prev v with
     | Some w => w < u /\
         (exists pv, nth_error (heap s) w = Some pv /\ c_id pv = c_id v /\
            c_history v = c_history pv ++ [c_ctr v] /\ (-1 < c_ctr v)%Z) /\
         forall w' pv', w < w' < u -> nth_error (heap s) w' = Some pv' ->
                        c_id pv' <> c_id v
     | None =>
         c_history v = (if (-1 <? c_ctr v)%Z then [c_ctr v] else []) /\
         forall w' pv', w' < u -> nth_error (heap s) w' = Some pv' -> c_id pv' <> c_id v
     end;
  wf_par : forall u v x, nth_error (heap s) u = Some v -> ewf (c_par v x);
  wf_chd : forall x, dwf (ch s x);
  wf_ch : forall x i, ewf (children_of s x i);
  wf_counter : (0 <= counter s)%Z;
  wf_ctr_le : forall u v, nth_error (heap s) u = Some v ->
     (-1 <= c_ctr v <= counter s)%Z /\ c_ctr v <> 0%Z;
  wf_ctr_lt : forall u v u' v', nth_error (heap s) u = Some v ->
     nth_error (heap s) u' = Some v' -> u < u' -> (-1 < c_ctr v')%Z ->
     (c_ctr v < c_ctr v')%Z;
  wf_by : forall k u, zget (by_ctr s) k = Some u <->
     (exists v, nth_error (heap s) u = Some v /\ c_ctr v = k /\ (-1 < k)%Z)
}.

(** The previous version of the current version of [c] lists [p] as a parent. *)
Definition prev_lists (s : sess) (x : ctx) (c p sym : nat) : Prop :=
  exists u v w pv, current s c u v /\ c_prev v = Some w /\
    nth_error (heap s) w = Some pv /\ has (c_par pv x) p sym.

Lemma current_fun s i u v u' v' :
  current s i u v -> current s i u' v' -> u = u' /\ v = v'.
Proof. intros [A B] [C D]. rewrite A in C. injection C as <-. rewrite B in D.
  injection D as <-. auto. Qed.

Lemma current_id s i u v : WF s -> current s i u v -> c_id v = i.
Proof. intros W [A B]. destruct (wf_last _ W _ _ A) as (v' & C & D & _). congruence. Qed.

Lemma current_inj s i j u v w : WF s -> current s i u v -> current s j u w -> i = j.
Proof.
  intros W A B. pose proof (current_id _ _ _ _ W A). pose proof (current_id _ _ _ _ W B).
  destruct A, B. congruence.
Qed.

Lemma is_current_spec s u c :
  nth_error (heap s) u = Some c -> is_current s u c = true -> current s (c_id c) u c.
Proof.
  unfold is_current. intros H. destruct (dget (cur s) (c_id c)) eqn:E; [|discriminate].
  intros X. apply Nat.eqb_eq in X. subst. split; auto.
Qed.

Lemma obj_Ok s u c : obj s u = Ok c <-> nth_error (heap s) u = Some c.
Proof. unfold obj, of_option. destruct (nth_error (heap s) u); split; congruence. Qed.

Lemma from_id_Ok s i u : from_id s i = Ok u <-> dget (cur s) i = Some u.
Proof. unfold from_id, of_option. destruct (dget (cur s) i); split; congruence. Qed.

Lemma at_counter_Ok s k u : at_counter s k = Ok u <-> zget (by_ctr s) k = Some u.
Proof. unfold at_counter, of_option. destruct (zget (by_ctr s) k); split; congruence. Qed.

(** Changing the parents of one current cell. *)
Lemma heap_set_cell s u c u' :
  nth_error (heap s) u <> None ->
  nth_error (heap (set_cell s u c)) u' =
  if Nat.eqb u' u then Some c else nth_error (heap s) u'.
Proof.
  intros H. simpl. rewrite nth_error_lset. apply nth_error_Some in H.
  destruct (Nat.eqb_spec u' u); auto. subst.
  apply Nat.ltb_lt in H. now rewrite H.
Qed.

Lemma WF_set_par s u c x e :
  WF s -> nth_error (heap s) u = Some c -> ewf e ->
  WF (set_cell s u (with_par c x e)).
Proof.
  intros W H E.
  assert (HN : forall u', nth_error (heap (set_cell s u (with_par c x e))) u' =
     if Nat.eqb u' u then Some (with_par c x e) else nth_error (heap s) u').
  { intros. apply heap_set_cell. congruence. }
  (* every object keeps its fields other than the parents *)
  assert (F : forall u' v', nth_error (heap (set_cell s u (with_par c x e))) u' = Some v' ->
     exists v0, nth_error (heap s) u' = Some v0 /\ c_id v' = c_id v0 /\
       c_ctr v' = c_ctr v0 /\ c_prev v' = c_prev v0 /\ c_history v' = c_history v0).
  { intros u' v'. rewrite HN. destruct (Nat.eqb_spec u' u).
    - intros [= <-]. subst. exists c. auto.
    - intros. exists v'. auto. }
  assert (B : forall u' v0, nth_error (heap s) u' = Some v0 ->
     exists v', nth_error (heap (set_cell s u (with_par c x e))) u' = Some v' /\
       c_id v' = c_id v0 /\ c_ctr v' = c_ctr v0 /\ c_prev v' = c_prev v0 /\
       c_history v' = c_history v0).
  { intros u' v0 H0. rewrite HN. destruct (Nat.eqb_spec u' u).
    - subst. rewrite H in H0. injection H0 as <-. exists (with_par c x e).
      repeat split; auto.
    - exists v0. repeat split; auto. }
  constructor.
  - apply W.
  - intros i u' D. simpl in D. destruct (wf_last _ W _ _ D) as (v & A1 & A2 & A3).
    destruct (B _ _ A1) as (v' & B1 & B2 & _). exists v'. repeat split; auto; try congruence.
    intros w v'' G1 G2. destruct (F _ _ G1) as (v0 & F1 & F2 & _). eapply A3; eauto. congruence.
  - intros u' v' G. destruct (F _ _ G) as (v0 & F1 & F2 & _). simpl. rewrite F2.
    eapply wf_known; eauto.
  - intros u' v' G. destruct (F _ _ G) as (v0 & F1 & F2 & F3 & F4 & F5).
    pose proof (wf_prev _ W _ _ F1) as P. rewrite F4.
    destruct (c_prev v0) as [w|].
    + destruct P as (P1 & (pv & P2 & P3 & P4 & P5) & P6). split; auto. split.
      * destruct (B _ _ P2) as (pv' & B1 & B2 & B3 & B4 & B5).
        exists pv'. repeat split; auto; try congruence.
      * intros w' pv' R G'. destruct (F _ _ G') as (v1 & K1 & K2 & _).
        rewrite K2, F2. eapply P6; eauto.
    + destruct P as [P1 P2]. split; [rewrite F5, F3; auto|].
      intros w' pv' R G'. destruct (F _ _ G') as (v1 & K1 & K2 & _).
      rewrite K2, F2. eapply P2; eauto.
  - intros u' v' y. rewrite HN. destruct (Nat.eqb_spec u' u).
    + intros [= <-]. simpl. destruct (ctx_eqb y x); auto. eapply wf_par; eauto.
    + eapply wf_par; eauto.
  - apply W.
  - apply W.
  - apply W.
  - intros u' v' G. destruct (F _ _ G) as (v0 & F1 & F2 & F3 & _). simpl. rewrite F3.
    eapply wf_ctr_le; eauto.
  - intros a va b vb G1 G2. destruct (F _ _ G1) as (v0 & F1 & F2 & F3 & _).
    destruct (F _ _ G2) as (v1 & K1 & K2 & K3 & _). rewrite F3, K3. eapply wf_ctr_lt; eauto.
  - intros k u'. simpl. rewrite (wf_by _ W). split.
    + intros (v & G1 & G2 & G3). destruct (B _ _ G1) as (v' & B1 & B2 & B3 & _).
      exists v'. repeat split; auto. congruence.
    + intros (v & G1 & G2 & G3). destruct (F _ _ G1) as (v0 & F1 & F2 & F3 & _).
      exists v0. repeat split; auto. congruence.
Qed.

Lemma WF_set_children s x i e : WF s -> ewf e -> WF (set_children s x i e).
Proof.
  intros W E. destruct W. constructor; simpl; auto.
  - intros y. destruct (ctx_eqb_spec y x); auto. now apply dwf_dset.
  - intros y j. unfold children_of. simpl. destruct (ctx_eqb_spec y x).
    + rewrite dget_dset. destruct (Nat.eqb j i); auto. apply (wf_ch0 y j).
    + apply (wf_ch0 y j).
Qed.

Lemma current_set_par s i u c x e j w d :
  WF s -> current s i u c ->
  (current (set_cell s u (with_par c x e)) j w d <->
   (j = i /\ w = u /\ d = with_par c x e) \/ (j <> i /\ current s j w d)).
Proof.
  intros W C. pose proof C as [C1 C2].
  unfold current. rewrite heap_set_cell by congruence. simpl.
  destruct (Nat.eq_dec j i) as [->|N].
  - split.
    + intros [A B]. rewrite C1 in A. injection A as <-. rewrite Nat.eqb_refl in B.
      injection B as <-. auto.
    + intros [(_ & -> & ->)|[X _]]; [|congruence]. rewrite Nat.eqb_refl. auto.
  - split.
    + intros [A B]. right. split; auto. split; auto.
      destruct (Nat.eqb_spec w u); auto. subst. exfalso.
      destruct (wf_last _ W _ _ A) as (v' & A1 & A2 & _).
      pose proof (current_id _ _ _ _ W C). congruence.
    + intros [[X _]|[_ [A B]]]; [congruence|]. split; auto.
      destruct (Nat.eqb_spec w u); auto. subst. exfalso.
      pose proof (current_id _ _ _ _ W C).
      destruct (wf_last _ W _ _ A) as (v' & A1 & A2 & _). congruence.
Qed.

Lemma parent_set_par s i u c x e y j p sym :
  WF s -> current s i u c ->
  (lists_parent (set_cell s u (with_par c x e)) y j p sym <->
   if (ctx_eqb y x && Nat.eqb j i)%bool then has e p sym else lists_parent s y j p sym).
Proof.
  intros W C. unfold lists_parent. split.
  - intros (w & d & A & B). apply (current_set_par s i u c x e) in A; auto.
    destruct A as [(-> & -> & ->)|[N A]].
    + rewrite Nat.eqb_refl, andb_true_r. simpl in B. destruct (ctx_eqb y x); auto.
      eauto.
    + apply Nat.eqb_neq in N. rewrite N, andb_false_r. eauto.
  - destruct (Nat.eqb_spec j i).
    + subst. rewrite andb_true_r. intros H.
      exists u, (with_par c x e). split; [apply (proj2 (current_set_par s i u c x e _ _ _ W C)); auto|].
      simpl. destruct (ctx_eqb y x); auto.
      destruct H as (w & d & A & B). destruct (current_fun _ _ _ _ _ _ C A) as [-> ->]. auto.
    + rewrite andb_false_r. intros (w & d & A & B). exists w, d. split; auto.
      apply (proj2 (current_set_par s i u c x e _ _ _ W C)); auto.
Qed.

Lemma prev_set_par s i u c x e y j p sym :
  WF s -> current s i u c ->
  (prev_lists (set_cell s u (with_par c x e)) y j p sym <-> prev_lists s y j p sym).
Proof.
  intros W C.
  (* the previous version of a current cell is never itself current *)
  assert (NC : forall j w d v, current s j w d -> c_prev d = Some v -> v <> u).
  { intros j' w d v A B ->. destruct A as [A1 A2].
    pose proof (wf_prev _ W _ _ A2) as P. rewrite B in P.
    destruct P as (P1 & (pv & P2 & P3 & _) & _).
    destruct (wf_last _ W _ _ A1) as (d' & D1 & D2 & D3).
    destruct C as [C1 C2]. destruct (wf_last _ W _ _ C1) as (c' & E1 & E2 & E3).
    assert (j' = i) by congruence. subst j'. assert (u = w) by congruence. lia. }
  assert (HN : forall w, nth_error (heap (set_cell s u (with_par c x e))) w =
     if Nat.eqb w u then Some (with_par c x e) else nth_error (heap s) w).
  { intros. apply heap_set_cell. destruct C. congruence. }
  unfold prev_lists. split.
  - intros (w & d & v & pv & A & B & G & H).
    apply (current_set_par s i u c x e) in A; auto.
    rewrite HN in G. destruct A as [(-> & -> & ->)|[N A]].
    + simpl in B. destruct (Nat.eqb_spec v u).
      * subst. exfalso. eapply NC; eauto.
      * exists u, c, v, pv. auto.
    + destruct (Nat.eqb_spec v u).
      * subst. exfalso. eapply NC; eauto.
      * exists w, d, v, pv. auto.
  - intros (w & d & v & pv & A & B & G & H).
    pose proof (NC _ _ _ _ A B) as N. apply Nat.eqb_neq in N.
    destruct (Nat.eq_dec j i) as [->|Nj].
    + destruct (current_fun _ _ _ _ _ _ C A) as [-> ->].
      exists w, (with_par d x e), v, pv. repeat split; auto.
      * apply A.
      * rewrite HN, Nat.eqb_refl. auto.
      * rewrite HN, N. auto.
    + exists w, d, v, pv. split; [apply (proj2 (current_set_par s i u c x e _ _ _ W C)); auto|].
      repeat split; auto. rewrite HN, N. auto.
Qed.

Lemma child_set_cell s u c x p i sym :
  lists_child (set_cell s u c) x p i sym <-> lists_child s x p i sym.
Proof. reflexivity. Qed.

Lemma child_set_children s x q e y p i sym :
  lists_child (set_children s x q e) y p i sym <->
  if (ctx_eqb y x && Nat.eqb p q)%bool then has e i sym else lists_child s y p i sym.
Proof.
  unfold lists_child, children_of. simpl. destruct (ctx_eqb_spec y x); simpl.
  - rewrite dget_dset. destruct (Nat.eqb p q); reflexivity.
  - reflexivity.
Qed.

Lemma parent_set_children s x q e y j p sym :
  lists_parent (set_children s x q e) y j p sym <-> lists_parent s y j p sym.
Proof. reflexivity. Qed.

Lemma prev_set_children s x q e y j p sym :
  prev_lists (set_children s x q e) y j p sym <-> prev_lists s y j p sym.
Proof. reflexivity. Qed.
