(** Slicing the cells of a session. *)
Require Import String Ascii List ZArith Bool Arith Lia Sorted Permutation.
Import ListNotations.
Require Import Verif.Base Verif.TimestampModel Verif.TimestampProofs Verif.SessionModel
  Verif.SessionSpec Verif.SessionProofs Verif.SessionInv Verif.SessionLog Verif.SessionMore
  Verif.SliceModel Verif.SliceSpec Verif.SliceProofs.
Local Open Scope nat_scope.

Definition as_sobj (text : nat -> string) (u : nat) (v : cellv) : sobj :=
  mkSobj (mkTs (c_ctr v) (-1)) (c_prev v) false (text u) (c_par v).

Lemma nth_combine_seq {A} (l : list A) : forall n u,
  nth_error (combine (seq n (length l)) l) u =
  option_map (fun a => (n + u, a)) (nth_error l u).
Proof.
  induction l as [|a l IH]; intros n [|u]; simpl; auto.
  - now rewrite Nat.add_0_r.
  - rewrite IH. destruct (nth_error l u); simpl; auto. f_equal. f_equal. lia.
Qed.

Section World.
  Variables (s : sess) (text : nat -> string) (sk : list (Z * Z)).
  Let w := cell_world s text sk.

  Lemma nth_cell_world u :
    nth_error (objs w) u = option_map (as_sobj text u) (nth_error (heap s) u).
  Proof.
    unfold w, cell_world. simpl. rewrite nth_error_map, nth_combine_seq.
    destruct (nth_error (heap s) u); reflexivity.
  Qed.

  Lemma cell_world_inv u o : nth_error (objs w) u = Some o ->
    exists v, nth_error (heap s) u = Some v /\ o = as_sobj text u v.
  Proof.
    rewrite nth_cell_world. destruct (nth_error (heap s) u); simpl; [|discriminate].
    intros [= <-]. eauto.
  Qed.

  Lemma cell_world_nth u v : nth_error (heap s) u = Some v ->
    nth_error (objs w) u = Some (as_sobj text u v).
  Proof. intros H. rewrite nth_cell_world, H. reflexivity. Qed.

  Lemma length_cell_world : length (objs w) = length (heap s).
  Proof.
    unfold w, cell_world. simpl. rewrite map_length, combine_length, seq_length. lia.
  Qed.

  Lemma tget_by_ctr k : tget (by_ts w) (mkTs k (-1)) = zget (by_ctr s) k.
  Proof.
    unfold w, cell_world. simpl. induction (by_ctr s) as [|[k' u] d IH]; simpl; auto.
    unfold ts_eqb. simpl. rewrite andb_true_r. rewrite IH. reflexivity.
  Qed.

  Lemma tget_by_ts_inv t u : tget (by_ts w) t = Some u ->
    zget (by_ctr s) (cell_num t) = Some u.
  Proof.
    intros H. assert (E : stmt_num t = (-1)%Z).
    { revert H. unfold w, cell_world. simpl.
      induction (by_ctr s) as [|[k' u'] d IH]; simpl; [discriminate|].
      destruct (ts_eqb t (mkTs k' (-1))) eqn:Q; auto.
      apply ts_eqb_eq in Q. subst t. auto. }
    rewrite <- tget_by_ctr. destruct t as [k j]. simpl in *. subst j. auto.
  Qed.

  Hypothesis W : WF s.

  Lemma cell_world_ok : world_ok w.
  Proof.
    split; [|split].
    - intros u o p H P. apply cell_world_inv in H. destruct H as (v & H & ->).
      simpl in P. pose proof (wf_prev _ W _ _ H) as X. rewrite P in X. tauto.
    - intros pid u H. rewrite length_cell_world. simpl in H.
      destruct (wf_last _ W _ _ H) as (v & E & _). apply nth_error_Some. congruence.
    - intros t u H. apply tget_by_ts_inv in H. apply (wf_by _ W) in H.
      destruct H as (v & E & _). rewrite length_cell_world. apply nth_error_Some. congruence.
  Qed.

  Lemma newer_cell k u v : newer_than (mkTs k (-1)) (as_sobj text u v) <-> (k < c_ctr v)%Z.
  Proof. unfold newer_than. rewrite ts_ltb_lt. simpl. lia. Qed.

  (** The search from version [u] of a cell finds the last version up to [u] that is
      not newer than [k]. *)
  Lemma explains_upto k : forall n u c v, u < n -> nth_error (heap s) u = Some c ->
    (explains w (mkTs k (-1)) u v <->
     exists cv, nth_error (heap s) v = Some cv /\ c_id cv = c_id c /\ v <= u /\
       (c_ctr cv <= k)%Z /\
       forall v' c', v < v' <= u -> nth_error (heap s) v' = Some c' ->
                     c_id c' = c_id c -> (k < c_ctr c')%Z).
  Proof.
    induction n as [|n IH]; intros u c v L H; [lia|]. split.
    - intros (nw & ov & VP & Hv & G & N). inversion VP as [|? o p nw' ? O P VP' Eu]; subst.
      + apply cell_world_inv in Hv. destruct Hv as (cv & Hv & ->).
        exists cv. rewrite H in Hv. injection Hv as <-. repeat split; auto.
        * destruct G as [G|G]; [|discriminate]. rewrite newer_cell in G. lia.
        * intros v' c' B. lia.
      + pose proof O as O'. apply cell_world_inv in O. destruct O as (c0 & Hc & ->).
        rewrite H in Hc. injection Hc as <-. simpl in P.
        pose proof (wf_prev _ W _ _ H) as X. rewrite P in X.
        destruct X as (Lp & (pc & Hp & Ip & _) & B).
        assert (E : explains w (mkTs k (-1)) p v).
        { exists nw', ov. split; auto. split; auto. split; auto.
          intros q oq Hq. apply N. simpl; auto. }
        apply (IH p pc v) in E; [|lia|auto].
        destruct E as (cv & A1 & A2 & A3 & A4 & A5). exists cv.
        split; auto. split; [congruence|]. split; [lia|]. split; auto.
        intros v' c' [L1 L2] Hc' I'. destruct (Nat.eq_dec v' u) as [->|Nu].
        * rewrite H in Hc'. injection Hc' as <-.
          apply (newer_cell k u c). eapply N; [left; reflexivity|]. exact O'.
        * destruct (le_lt_dec v' p); [|exfalso; eapply (B v' c'); eauto; lia].
          eapply A5; [|exact Hc'|congruence]. lia.
    - intros (cv & Hv & I & L1 & K & N). destruct (Z_lt_le_dec k (c_ctr c)) as [Hk|Hk].
      + assert (Ne : v <> u) by (intros ->; rewrite H in Hv; injection Hv as <-; lia).
        pose proof (wf_prev _ W _ _ H) as X. destruct (c_prev c) as [p|] eqn:P.
        * destruct X as (Lp & (pc & Hp & Ip & _) & B).
          assert (Lv : v <= p).
          { destruct (le_lt_dec v p); auto. exfalso. eapply (B v cv); eauto. lia. }
          assert (E : explains w (mkTs k (-1)) p v).
          { apply (IH p pc v); [lia|auto|]. exists cv. split; auto. split; [congruence|].
            split; auto. split; auto. intros v' c' L2 Hc' Ic'. eapply N; eauto.
            lia. congruence. }
          destruct E as (nw & ov & VP & Hov & G & Nn). exists (u :: nw), ov.
          split; [econstructor; [apply cell_world_nth; eauto|simpl; exact P|auto]|].
          split; auto. split; auto.
          intros q oq [<-|Hq] Hoq; [|eauto].
          rewrite (cell_world_nth _ _ H) in Hoq. injection Hoq as <-. split; auto.
          now apply newer_cell.
        * destruct X as [_ B]. exfalso. eapply (B v cv); eauto. lia.
      + assert (v = u).
        { destruct (Nat.eq_dec v u); auto. exfalso.
          assert ((k < c_ctr c)%Z); [|lia]. eapply N; eauto. lia. }
        subst v. exists [], (as_sobj text u c). split; [constructor|].
        split; [now apply cell_world_nth|]. split; [|simpl; tauto].
        left. rewrite newer_cell. lia.
  Qed.

  Lemma explains_current k pid u0 v : dget (cur s) pid = Some u0 ->
    (explains w (mkTs k (-1)) u0 v <-> last_not_after s pid k v).
  Proof.
    intros D. destruct (wf_last _ W _ _ D) as (c & H & I & M).
    rewrite (explains_upto k (S u0) u0 c v) by auto. split.
    - intros (cv & A1 & A2 & A3 & A4 & A5). exists cv. split; auto. split; [congruence|].
      split; auto. intros v' c' Hc' Ic' Kc'. destruct (le_lt_dec v' v); auto. exfalso.
      assert ((k < c_ctr c')%Z); [|lia]. apply (A5 v' c'); auto; [|congruence].
      split; auto. apply (M v' c'); auto.
    - intros (cv & A1 & A2 & A3 & A4). exists cv. split; auto. split; [congruence|].
      split; [apply (M v cv); auto|]. split; auto.
      intros v' c' [L1 L2] Hc' Ic'. destruct (Z_lt_le_dec k (c_ctr c')); auto. exfalso.
      assert (v' <= v); [|lia]. eapply A4; eauto. congruence.
  Qed.

  Lemma depends_cells ctxs u v : depends w ctxs u v <-> cell_depends s ctxs u v.
  Proof.
    split.
    - intros (o & pid & u0 & O & (o' & x & l & O' & Hx & Hp) & D & X).
      rewrite O in O'. injection O' as <-. apply cell_world_inv in O.
      destruct O as (c & Hc & ->). simpl in Hp, D, X.
      destruct (key_has (c_par c x) pid) as [sym Hs].
      { exact (wf_par _ W _ _ x Hc). }
      { unfold dkeys. apply in_map_iff. exists (pid, l). auto. }
      exists c, x, pid, sym. repeat split; auto.
      apply (explains_current _ _ _ _ D). exact X.
    - intros (c & x & pid & sym & Hc & Hx & (l & Hs & _) & La).
      assert (K : In pid (dkeys (cur s))).
      { destruct La as (cv & A & B & _). rewrite <- B. eapply wf_known; eauto. }
      apply key_dget in K. destruct K as [u0 D].
      exists (as_sobj text u c), pid, u0. split; [now apply cell_world_nth|].
      split; [|split; auto].
      + exists (as_sobj text u c), x, l. split; [now apply cell_world_nth|].
        split; auto. simpl. now apply dget_In.
      + simpl. now apply (explains_current _ _ _ _ D).
  Qed.

  Lemma ts_of_cell u c : nth_error (heap s) u = Some c -> ts_of w u = mkTs (c_ctr c) (-1).
  Proof. intros H. unfold ts_of. rewrite (cell_world_nth _ _ H). reflexivity. Qed.
End World.

(** ** Sessions in which every recorded parent is older *)

Definition old_enough (lg : log) (k : Z) (p : nat) : Prop :=
  exists u k', nth_error lg u = Some (p, k') /\ (k' <= k)%Z.

Definition eold (lg : log) (k : Z) (e : edges) : Prop :=
  forall p l, In (p, l) e -> old_enough lg k p.

Record RInv (lg : log) (s : sess) : Prop := {
  r_log : log_of s = lg;
  r_prev : forall u v w pv, nth_error (heap s) u = Some v -> c_prev v = Some w ->
     nth_error (heap s) w = Some pv -> (c_ctr pv <= c_ctr v)%Z;
  r_par : forall u v x, nth_error (heap s) u = Some v -> eold lg (c_ctr v) (c_par v x)
}.

Lemma old_enough_mono lg k k' p : (k <= k')%Z -> old_enough lg k p -> old_enough lg k' p.
Proof. intros L (u & k0 & A & B). exists u, k0. split; auto. lia. Qed.

Lemma eold_mono lg k k' e : (k <= k')%Z -> eold lg k e -> eold lg k' e.
Proof. intros L E p l H. eapply old_enough_mono; eauto. Qed.

Lemma eold_nil lg k : eold lg k [].
Proof. intros p l []. Qed.

Lemma eold_add lg k e p syms : eold lg k e -> old_enough lg k p -> eold lg k (edge_add e p syms).
Proof.
  intros E O q l H. apply In_dset_inv in H. destruct H as [[-> _]|H]; eauto.
Qed.

Lemma eold_remove lg k e p syms : eold lg k e -> eold lg k (edge_remove e p syms).
Proof.
  intros E. unfold edge_remove. destruct (dget e p) eqn:D; auto. destruct (is_nil l); auto.
  destruct (is_nil (sdiff l syms)); intros q l' H.
  - apply In_ddel_inv in H. eauto.
  - apply In_dset_inv in H. destruct H as [[-> _]|H]; eauto.
    apply dget_In in D. eauto.
Qed.

Lemma eold_inherit lg k prev : forall own syms, eold lg k own -> eold lg k prev ->
  eold lg k (inherit_edges own prev syms).
Proof.
  unfold inherit_edges. induction prev as [|[p l] prev IH]; intros own syms E P; simpl; auto.
  apply IH; [|intros q l' H; eapply P; right; eauto].
  destruct (is_nil (sinter syms l)); auto. apply eold_add; auto.
  eapply P. left. reflexivity.
Qed.

Lemma RInv_set_par lg s u c x e :
  RInv lg s -> nth_error (heap s) u = Some c -> eold lg (c_ctr c) e ->
  RInv lg (set_cell s u (with_par c x e)).
Proof.
  intros R H E. constructor.
  - destruct (same_log_set_par s u c x e H) as (-> & _). apply R.
  - intros a v b pv A P B.
    rewrite heap_set_cell in A, B by congruence.
    assert (A' : exists v0, nth_error (heap s) a = Some v0 /\ c_prev v0 = c_prev v /\ c_ctr v0 = c_ctr v).
    { destruct (Nat.eqb_spec a u); [|eauto]. subst. injection A as <-. exists c. auto. }
    assert (B' : exists v0, nth_error (heap s) b = Some v0 /\ c_ctr v0 = c_ctr pv).
    { destruct (Nat.eqb_spec b u); [|eauto]. subst. injection B as <-. exists c. auto. }
    destruct A' as (v0 & A1 & A2 & A3), B' as (p0 & B1 & B2). rewrite <- A3, <- B2.
    eapply (r_prev _ _ R); eauto. congruence.
  - intros a v y A. rewrite heap_set_cell in A by congruence.
    destruct (Nat.eqb_spec a u).
    + subst. injection A as <-. simpl. destruct (ctx_eqb y x); auto.
      exact (r_par _ _ R _ _ y H).
    + exact (r_par _ _ R _ _ y A).
Qed.

Lemma RInv_set_children lg s x i e : RInv lg s -> RInv lg (set_children s x i e).
Proof. intros [A B C]. constructor; auto. Qed.

Lemma rfold_R {A} (P : sess -> Prop) (f : sess -> A -> res sess) l :
  (forall s a s', In a l -> P s -> f s a = Ok s' -> P s') ->
  forall s s', P s -> rfold f l s = Ok s' -> P s'.
Proof.
  induction l as [|a l IH]; intros F s s' S; simpl; [intros [= <-]; auto|].
  destruct (f s a) as [t|] eqn:E; simpl; [|discriminate]. intros H.
  apply (IH (fun s a s' I => F s a s' (or_intror I)) t s'); auto.
  eapply F; eauto. left; auto.
Qed.

Lemma nth_of_log lg s u v : RInv lg s -> nth_error (heap s) u = Some v ->
  nth_error lg u = Some (c_id v, c_ctr v).
Proof. intros R H. rewrite <- (r_log _ _ R), nth_log, H. reflexivity. Qed.

Lemma add_parent_edges_R lg s x u pu syms s' c p :
  RInv lg s -> nth_error (heap s) u = Some c -> nth_error (heap s) pu = Some p ->
  old_enough lg (c_ctr c) (c_id p) ->
  add_parent_edges s x u pu syms = Ok s' -> RInv lg s'.
Proof.
  intros R Hc Hp O. unfold add_parent_edges. destruct (is_nil syms); [intros [= <-]; auto|].
  rewrite (proj2 (obj_Ok s u c) Hc). simpl. rewrite (proj2 (obj_Ok s pu p) Hp). simpl.
  destruct (dhas _ _); [intros [= <-]; auto|].
  pose proof (r_par _ _ R _ _ x Hc) as Ec.
  destruct (Nat.eqb _ _).
  - destruct (c_prev c) as [q|] eqn:P; [|intros [= <-]; auto].
    destruct (obj s q) as [pc|] eqn:Q; simpl; [|discriminate]. apply obj_Ok in Q.
    intros [= <-]. apply RInv_set_par; auto. apply eold_inherit; auto.
    eapply eold_mono; [|exact (r_par _ _ R _ _ x Q)]. eapply (r_prev _ _ R); eauto.
  - intros [= <-]. apply RInv_set_children. apply RInv_set_par; auto. now apply eold_add.
Qed.

Lemma remove_parent_edges_R lg s x u pid syms s' :
  RInv lg s -> remove_parent_edges s x u pid syms = Ok s' -> RInv lg s'.
Proof.
  intros R. unfold remove_parent_edges. destruct (is_nil syms); [intros [= <-]; auto|].
  destruct (from_id s pid); simpl; [|discriminate].
  destruct (obj s u) as [c|] eqn:O; simpl; [|discriminate]. apply obj_Ok in O.
  intros [= <-]. apply RInv_set_children. apply RInv_set_par; auto.
  apply eold_remove. exact (r_par _ _ R _ _ x O).
Qed.

Lemma remove_dangling_ctx_R lg s x d s' :
  RInv lg s -> remove_dangling_ctx s x d = Ok s' -> RInv lg s'.
Proof.
  intros F H. eapply (rfold_R (RInv lg)); [|exact F|exact H].
  intros t u t' _ Ft Ht. inv_bind Ht. eapply (rfold_R (RInv lg)); [|exact Ft|exact Ht].
  intros t1 q t2 _ F1 H1. exact (remove_parent_edges_R _ _ _ _ _ _ _ F1 H1).
Qed.

Lemma remove_stale_ctx_R lg s x u v s' :
  RInv lg s -> remove_stale_ctx s x u v = Ok s' -> RInv lg s'.
Proof.
  unfold remove_stale_ctx. intros F H. inv_bind H.
  eapply (rfold_R (RInv lg)); [|exact F|exact H].
  intros t kv t' _ Ft Ht. inv_bind Ht. eapply remove_parent_edges_R; eauto.
Qed.

(** [cur] points at versions of the right cell; unchanged by edge operations. *)
Definition cur_ids (lg : log) (s : sess) : Prop :=
  forall i u, dget (cur s) i = Some u -> exists k, nth_error lg u = Some (i, k).

Lemma replay_ctx_R lg s x u v s' c : 
  RInv lg s -> cur_ids lg s -> nth_error lg u = Some c ->
  (forall c', nth_error lg v = Some c' -> (snd c' <= snd c)%Z) ->
  replay_ctx s x u v = Ok s' -> RInv lg s' /\ cur_ids lg s'.
Proof.
  unfold replay_ctx. intros R C Hu Hv H. inv_bind H. inv_bind H. inv_bind H.
  apply obj_Ok in E, E1.
  assert (S0 : RInv lg a0 /\ cur a0 = cur s).
  { eapply (rfold_R (fun t => RInv lg t /\ cur t = cur s)); [| |exact E0]; auto.
    unfold remove_parent_edges_aliased. intros t q t' _ [Ft Ct] Ht.
    inv_bind Ht. apply obj_Ok in E2. destruct (dget _ _); [|injection Ht as <-; auto].
    destruct (is_nil l); [injection Ht as <-; auto|]. inv_bind Ht. injection Ht as <-.
    split; auto.
    apply RInv_set_par; auto. intros p l' I. apply In_ddel_inv in I.
    exact (r_par _ _ Ft _ _ x E2 _ _ I). }
  destruct S0 as [R0 C0].
  assert (S1 : RInv lg s' /\ cur s' = cur s).
  { eapply (rfold_R (fun t => RInv lg t /\ cur t = cur s)); [| |exact H]; auto.
    intros t kv t' Ikv [Ft Ct] Ht. inv_bind Ht. apply from_id_Ok in E2.
    split.
    - pose proof Ht as Ht0. unfold add_parent_edges in Ht0.
      destruct (is_nil (snd kv)); [injection Ht0 as <-; auto|].
      destruct (obj t u) as [cu|] eqn:Ou; simpl in Ht0; [|discriminate].
      destruct (obj t a2) as [pu|] eqn:Op; simpl in Ht0; [|discriminate].
      clear Ht0. apply obj_Ok in Ou, Op.
      apply (add_parent_edges_R lg t x u a2 (snd kv) t' cu pu); auto.
      rewrite Ct in E2. destruct (C _ _ E2) as [k Hk].
      rewrite (nth_of_log _ _ _ _ Ft Op) in Hk. injection Hk as Hi _. rewrite Hi.
      destruct kv as [p l]. simpl in *.
      eapply old_enough_mono; [|exact (r_par _ _ R0 _ _ x E1 _ _ Ikv)].
      rewrite (nth_of_log _ _ _ _ Ft Ou) in Hu. injection Hu as <-.
      apply (Hv _ (nth_of_log _ _ _ _ R0 E1)).
    - rewrite <- Ct. eapply add_parent_edges_log in Ht. apply Ht. }
  destruct S1 as [R1 C1]. split; auto. intros i q. rewrite C1. apply C.
Qed.

Lemma cur_ids_WF lg s : WF s -> RInv lg s -> cur_ids lg s.
Proof.
  intros W R i u D. destruct (wf_last _ W _ _ D) as (v & H & I & _).
  exists (c_ctr v). rewrite (nth_of_log _ _ _ _ R H). congruence.
Qed.

Lemma step_R s r e s' :
  WF s -> backward_only s r e ->
  match e with EExec _ _ _ | EUntracked _ => False | _ => True end ->
  RInv (log_of s) s -> step s e = Ok s' -> RInv (log_of s) s'.
Proof.
  intros W [_ B] NE R H. pose proof (cur_ids_WF _ _ W R) as C.
  set (lg := log_of s) in *.
  destruct e; simpl in *; try contradiction.
  - unfold add_data_dep in H. inv_bind H. inv_bind H. apply obj_Ok in E, E0.
    destruct (_ && _)%bool; [|injection H as <-; auto].
    apply (add_parent_edges_R lg s x u pu [sym] s' a a0); auto. exists pu, (c_ctr a0). split.
    + eapply nth_of_log; eauto.
    + apply B; auto.
  - (* init *)
    assert (G : RInv lg s' /\ cur s' = cur s); [|tauto].
    eapply (rfold_R (fun t => RInv lg t /\ cur t = cur s)); [| |exact H]; auto.
    intros t [i ps] t' Il [Ft Ct] Ht. simpl in Ht. rewrite Ct in Ht.
    destruct (dget (cur s) i) as [u|] eqn:Di; [|injection Ht as <-; auto].
    eapply (rfold_R (fun t => RInv lg t /\ cur t = cur s)); [| |exact Ht]; auto.
    intros t1 p t2 Ip [F1 C1] H2. rewrite C1 in H2.
    destruct (dget (cur s) p) as [pu|] eqn:Dp; [|injection H2 as <-; auto].
    split; [|rewrite <- C1; eapply add_parent_edges_log in H2; apply H2].
    destruct (wf_last _ W _ _ Di) as (v & Hv & Iv & _).
    destruct (wf_last _ W _ _ Dp) as (pv & Hp & Ipv & _).
    pose proof (B i ps p u v pu pv Il Ip (conj Di Hv) (conj Dp Hp)) as L.
    pose proof (nth_of_log _ _ _ _ R Hv) as Lv. pose proof (nth_of_log _ _ _ _ R Hp) as Lp.
    pose proof H2 as H0. unfold add_parent_edges in H0. simpl in H0.
    destruct (obj t1 u) as [cu|] eqn:Ou; simpl in H0; [|discriminate].
    destruct (obj t1 pu) as [cp|] eqn:Op; simpl in H0; [|discriminate].
    clear H0. apply obj_Ok in Ou, Op.
    pose proof (nth_of_log _ _ _ _ F1 Ou) as Lu. pose proof (nth_of_log _ _ _ _ F1 Op) as Lq.
    apply (add_parent_edges_R lg t1 Static u pu [fake] t2 cu cp); auto.
    exists pu, (c_ctr cp). split; auto.
    rewrite Lv in Lu. rewrite Lp in Lq. injection Lu as _ <-. injection Lq as _ <-. auto.
  - (* replay *)
    inv_bind H. apply at_counter_Ok in E. apply (wf_by _ W) in E.
    destruct E as (c & Hc & Kc & _).
    pose proof (nth_of_log _ _ _ _ R Hc) as Lc.
    assert (Q : forall c', nth_error lg v = Some c' -> (snd c' <= snd (c_id c, c_ctr c))%Z).
    { intros [i k] Hv. unfold lg in Hv. rewrite nth_log in Hv.
      destruct (nth_error (heap s) v) as [cv|] eqn:Ev; [|discriminate].
      injection Hv as <- <-. simpl. rewrite Kc.
      apply (wf_ctr_le _ W _ _ Ev). }
    unfold replay in H. destruct dyn; simpl in H.
    + inv_bind H. destruct (replay_ctx_R _ _ _ _ _ _ _ R C Lc Q E) as [R1 C1].
      destruct stat; [|injection H as <-; auto].
      eapply replay_ctx_R in H; eauto. tauto.
    + destruct stat; [|injection H as <-; auto].
      eapply replay_ctx_R in H; eauto. tauto.
  - unfold remove_dangling_parent_edges in H. inv_bind H. inv_bind H. inv_bind H. inv_bind H.
    apply (remove_dangling_ctx_R lg) in E; auto. apply (remove_dangling_ctx_R lg) in E0; auto.
    destruct (c_prev a2); [|injection H as <-; auto].
    inv_bind H. apply (remove_stale_ctx_R lg) in E3; auto.
    eapply remove_stale_ctx_R; eauto.
  - (* untraced *)
    inv_bind H. unfold untraced_parents in H. inv_bind H. apply obj_Ok in E0.
    destruct (c_prev a0) as [q|] eqn:P; [|injection H as <-; auto].
    inv_bind H. apply obj_Ok in E1. injection H as <-.
    pose proof (r_prev _ _ R _ _ _ _ E0 P E1) as L.
    assert (R1 : RInv lg (set_cell s a (with_par a0 Static (c_par a1 Static)))).
    { apply RInv_set_par; auto. eapply eold_mono; eauto. exact (r_par _ _ R _ _ Static E1). }
    assert (N : nth_error (heap (set_cell s a (with_par a0 Static (c_par a1 Static)))) a =
                Some (with_par a0 Static (c_par a1 Static))).
    { rewrite heap_set_cell by congruence. now rewrite Nat.eqb_refl. }
    pose proof (RInv_set_par lg _ a (with_par a0 Static (c_par a1 Static)) Dynamic
                  (c_par a1 Dynamic) R1 N) as R2.
    replace (set_cell s a (with_par (with_par a0 Static (c_par a1 Static)) Dynamic (c_par a1 Dynamic)))
      with (set_cell (set_cell s a (with_par a0 Static (c_par a1 Static))) a
             (with_par (with_par a0 Static (c_par a1 Static)) Dynamic (c_par a1 Dynamic))).
    + apply R2. simpl. eapply eold_mono; eauto. exact (r_par _ _ R _ _ Dynamic E1).
    + unfold set_cell. simpl. f_equal.
      clear. revert a. induction (heap s) as [|b l IH]; intros [|a]; simpl; auto.
      f_equal. apply IH.
Qed.

Lemma create_R s i bump fixup ph s' u : 
  WF s -> RInv (log_of s) s ->
  create_and_track s i bump fixup ph = Ok (s', u) -> WF s' -> RInv (log_of s') s'.
Proof.
  intros W R H W'. 
  assert (Hh : exists c, heap s' = heap s ++ [c] /\ forall x, c_par c x = []).
  { unfold create_and_track in H.
    destruct (_ && _)%bool; [discriminate|].
    destruct (dget (cur s) i) as [w|].
    - destruct (obj s w); simpl in H; [|discriminate]. injection H as <- _. simpl. eauto.
    - injection H as <- _. simpl. eauto. }
  destruct Hh as (c & Hh & Pc). constructor; auto.
  - intros a v b pv A P B. pose proof (wf_prev _ W' _ _ A) as X. rewrite P in X.
    destruct X as (L & (pv' & B' & _ & _ & K) & _). rewrite B in B'. injection B' as <-.
    assert ((c_ctr pv < c_ctr v)%Z); [|lia]. exact (wf_ctr_lt _ W' _ _ _ _ B A L K).
  - intros a v x A p l I. rewrite Hh in A.
    destruct (Nat.lt_ge_cases a (length (heap s))) as [L|L].
    + rewrite nth_error_app1 in A by auto.
      destruct (r_par _ _ R _ _ x A _ _ I) as (q & k & Q & K).
      exists q, k. split; auto. unfold log_of in *. rewrite Hh, map_app, nth_error_app1; auto.
      apply nth_error_Some. congruence.
    + rewrite nth_error_app2 in A by auto.
      destruct (a - length (heap s)) as [|m]; [|destruct m; discriminate].
      simpl in A. injection A as <-. rewrite Pc in I. destruct I.
Qed.

Lemma history_restricted l s r : history backward_only l s r -> history restricted l s r.
Proof. induction 1; econstructor; eauto. apply H1. Qed.

Lemma history_R l s r : history backward_only l s r -> RInv (log_of s) s.
Proof.
  induction 1 as [|l s r e s' r' HH IH BR B ST].
  - constructor; auto; intros u v; destruct u; discriminate.
  - assert (HR' : history restricted (l ++ [e]) s' r').
    { econstructor; eauto. now apply history_restricted. apply B. }
    apply history_restricted in HH. apply history_inv in HH, HR'.
    destruct HH as [I _], HR' as [I' _]. pose proof (i_wf _ _ I) as W.
    pose proof (i_wf _ _ I') as W'.
    assert (Q : match e with EExec _ _ _ | EUntracked _ => True | _ => False end \/
                match e with EExec _ _ _ | EUntracked _ => False | _ => True end)
      by (destruct e; auto).
    destruct Q as [Q|Q].
    + destruct e; simpl in *; try contradiction.
      * destruct (create_and_track s i true fixup placeholder) as [[t u]|] eqn:CR;
          simpl in ST; [|discriminate]. injection ST as <-.
        exact (create_R _ _ _ _ _ _ _ W IH CR W').
      * destruct (dget (cur s) i); [injection ST as <-; auto|].
        destruct (create_and_track s i false None false) as [[t u]|] eqn:CR;
          simpl in ST; [|discriminate]. injection ST as <-.
        exact (create_R _ _ _ _ _ _ _ W IH CR W').
    + pose proof (step_R _ _ _ _ W B Q IH ST) as R.
      assert (log_of s' = log_of s) as ->; auto. apply R.
Qed.

Lemma backward_not_dangling l s r text sk ctxs u :
  history backward_only l s r -> ~ dangling (cell_world s text sk) ctxs u.
Proof.
  intros HH (o & pid & O & (o' & x & ls & O' & Hx & Hp) & N).
  pose proof (history_R _ _ _ HH) as R.
  pose proof (i_wf _ _ (proj1 (history_inv _ _ _ (history_restricted _ _ _ HH)))) as W.
  rewrite O in O'. injection O' as <-. apply cell_world_inv in O. destruct O as (c & Hc & ->).
  simpl in *. destruct (r_par _ _ R _ _ x Hc _ _ Hp) as (q & k & Q & K).
  assert (L : exists v, last_not_after s pid (c_ctr c) v).
  { rewrite nth_log in Q. destruct (nth_error (heap s) q) as [cq'|] eqn:Hq; [|discriminate].
    injection Q as Qi Qk.
    assert (M : forall n, exists v cv, nth_error (heap s) v = Some cv /\ c_id cv = pid /\
       (c_ctr cv <= c_ctr c)%Z /\ forall v' c', v' < n -> nth_error (heap s) v' = Some c' ->
         c_id c' = pid -> (c_ctr c' <= c_ctr c)%Z -> v' <= v).
    { induction n as [|n (v & cv & A1 & A2 & A3 & A4)].
      - exists q, cq'. split; auto. split; auto. split; [lia|]. intros; lia.
      - destruct (nth_error (heap s) n) as [cn|] eqn:Hn.
        + destruct (Nat.eq_dec (c_id cn) pid) as [Ei|Ei];
          [destruct (Z_le_gt_dec (c_ctr cn) (c_ctr c)); [destruct (le_lt_dec n v)|]|].
          * exists v, cv. split; auto. split; auto. split; auto. intros v' c' L.
            destruct (Nat.eq_dec v' n); [subst; auto|]. apply A4. lia.
          * exists n, cn. split; auto. split; auto. split; auto. intros; lia.
          * exists v, cv. split; auto. split; auto. split; auto. intros v' c' L Hc' I' K'.
            destruct (Nat.eq_dec v' n); [subst; rewrite Hn in Hc'; injection Hc' as <-; lia|].
            eapply A4; eauto. lia.
          * exists v, cv. split; auto. split; auto. split; auto. intros v' c' L Hc' I' K'.
            destruct (Nat.eq_dec v' n); [subst; rewrite Hn in Hc'; injection Hc' as <-; congruence|].
            eapply A4; eauto. lia.
        + exists v, cv. split; auto. split; auto. split; auto. intros v' c' L Hc' I' K'.
          destruct (Nat.eq_dec v' n); [congruence|]. eapply A4; eauto. lia. }
    destruct (M (length (heap s))) as (v & cv & A1 & A2 & A3 & A4).
    exists v, cv. split; auto. split; auto. split; auto. intros v' c' Hc'. eapply A4; auto.
    apply nth_error_Some. congruence. }
  destruct L as [v Lv].
  assert (Kp : In pid (dkeys (cur s))).
  { destruct Lv as (cv & A & B & _). rewrite <- B. eapply wf_known; eauto. }
  apply key_dget in Kp. destruct Kp as [u0 D].
  apply (N u0 v D). now apply (explains_current s text sk W _ _ _ _ D).
Qed.
