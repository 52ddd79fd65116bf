(** No edge without symbols (C05) and memoized re-runs (C06). *)
Require Import List ZArith Bool Arith Lia.
Import ListNotations.
Require Import Verif.Base Verif.SessionModel Verif.SessionSpec Verif.SessionProofs
  Verif.SessionInv Verif.SessionHist Verif.SessionRename Verif.SessionLog.

(** ** No stored entry is empty, whatever the history *)

Definition efull (e : edges) : Prop := forall k l, In (k, l) e -> l <> [].

Lemma efull_nil : efull [].
Proof. intros k l []. Qed.

Lemma In_dset_inv {V} (d : dict V) k v k' v' :
  In (k', v') (dset d k v) -> (k' = k /\ v' = v) \/ In (k', v') d.
Proof.
  induction d as [|[k0 v0] d IH]; simpl.
  - intros [[= <- <-]|[]]; auto.
  - destruct (Nat.eqb_spec k k0); simpl.
    + intros [[= <- <-]|H]; auto.
    + intros [H|H]; auto. apply IH in H. tauto.
Qed.

Lemma In_ddel_inv {V} (d : dict V) k e : In e (ddel d k) -> In e d.
Proof.
  induction d as [|[k0 v0] d IH]; simpl; auto.
  destruct (Nat.eqb k k0); simpl; auto. intros [|]; auto.
Qed.

Lemma efull_add e k syms : efull e -> syms <> [] -> efull (edge_add e k syms).
Proof.
  intros F N k' l H. apply In_dset_inv in H. destruct H as [[_ ->]|H]; eauto.
  apply supd_nonempty; auto.
Qed.

Lemma efull_remove e k syms : efull e -> efull (edge_remove e k syms).
Proof.
  intros F. unfold edge_remove. destruct (dget e k); auto. destruct (is_nil l); auto.
  destruct (is_nil (sdiff l syms)) eqn:E; intros k' l' H.
  - apply In_ddel_inv in H. eauto.
  - apply In_dset_inv in H. destruct H as [[_ ->]|H]; eauto. now apply is_nil_false.
Qed.

Lemma efull_inherit prev : forall own syms, efull own -> efull (inherit_edges own prev syms).
Proof.
  unfold inherit_edges. induction prev as [|[k l] prev IH]; intros own syms F; simpl; auto.
  apply IH. destruct (is_nil (sinter syms l)) eqn:E; auto. apply efull_add; auto.
  now apply is_nil_false.
Qed.

Lemma efull_rename old new e : efull e -> efull (rename_key old new e).
Proof. intros F k l H. apply In_rename_key in H. destruct H as (k0 & _ & H). eauto. Qed.

Record sfull (s : sess) : Prop := {
  f_par : forall u v x, nth_error (heap s) u = Some v -> efull (c_par v x);
  f_ch : forall x i e, In (i, e) (ch s x) -> efull e
}.

Lemma sfull_children s x i : sfull s -> efull (children_of s x i).
Proof.
  intros F. unfold children_of. destruct (dget (ch s x) i) eqn:E; [|apply efull_nil].
  apply dget_In in E. eapply f_ch; eauto.
Qed.

Lemma sfull_set_cell s u c :
  sfull s -> (forall x, efull (c_par c x)) -> sfull (set_cell s u c).
Proof.
  intros F N. constructor; [|apply F].
  intros w v x. simpl. rewrite nth_error_lset.
  destruct (Nat.eqb w u); [destruct (Nat.ltb _ _)|]; try discriminate.
  - intros [= <-]. auto.
  - intros H. eapply f_par; eauto.
Qed.

Lemma sfull_set_par s u c x e :
  sfull s -> nth_error (heap s) u = Some c -> efull e ->
  sfull (set_cell s u (with_par c x e)).
Proof.
  intros F H N. apply sfull_set_cell; auto. intros y. simpl.
  destruct (ctx_eqb y x); auto. eapply f_par; eauto.
Qed.

Lemma sfull_set_children s x i e : sfull s -> efull e -> sfull (set_children s x i e).
Proof.
  intros F N. constructor; [apply F|]. intros y j e'. simpl.
  destruct (ctx_eqb y x); [|apply F]. intros H. apply In_dset_inv in H.
  destruct H as [[_ ->]|H]; auto. eapply f_ch; eauto.
Qed.

Lemma rfold_full {A} (f : sess -> A -> res sess) l :
  (forall s a s', sfull s -> f s a = Ok s' -> sfull s') ->
  forall s s', sfull s -> rfold f l s = Ok s' -> sfull s'.
Proof.
  intros F. induction l as [|a l IH]; intros s s' S; simpl; [intros [= <-]; auto|].
  destruct (f s a) as [t|] eqn:E; simpl; [|discriminate]. intros H. apply (IH t s'); eauto.
Qed.

Lemma add_parent_edges_full s x u pu syms s' :
  sfull s -> add_parent_edges s x u pu syms = Ok s' -> sfull s'.
Proof.
  intros F. unfold add_parent_edges. destruct (is_nil syms) eqn:N; [intros [= <-]; auto|].
  apply is_nil_false in N.
  destruct (obj s u) as [c|] eqn:O; simpl; [|discriminate]. apply obj_Ok in O.
  destruct (obj s pu) as [p|]; simpl; [|discriminate].
  destruct (dhas _ _); [intros [= <-]; auto|].
  pose proof (f_par _ F _ _ x O) as Fc.
  destruct (Nat.eqb _ _).
  - destruct (c_prev c); [|intros [= <-]; auto].
    destruct (obj s n); simpl; [|discriminate]. intros [= <-].
    apply sfull_set_par; auto. now apply efull_inherit.
  - intros [= <-].
    assert (sfull (set_cell s u (with_par c x (edge_add (c_par c x) (c_id p) syms)))).
    { apply sfull_set_par; auto. now apply efull_add. }
    apply sfull_set_children; auto. apply efull_add; auto. now apply sfull_children.
Qed.

Lemma remove_parent_edges_full s x u pid syms s' :
  sfull s -> remove_parent_edges s x u pid syms = Ok s' -> sfull s'.
Proof.
  intros F. unfold remove_parent_edges. destruct (is_nil syms); [intros [= <-]; auto|].
  destruct (from_id s pid); simpl; [|discriminate].
  destruct (obj s u) as [c|] eqn:O; simpl; [|discriminate]. apply obj_Ok in O.
  intros [= <-]. pose proof (f_par _ F _ _ x O) as Fc.
  assert (sfull (set_cell s u (with_par c x (edge_remove (c_par c x) pid syms)))).
  { apply sfull_set_par; auto. now apply efull_remove. }
  apply sfull_set_children; auto. apply efull_remove. now apply sfull_children.
Qed.

Lemma replay_ctx_full s x u v s' : sfull s -> replay_ctx s x u v = Ok s' -> sfull s'.
Proof.
  unfold replay_ctx. intros F H. inv_bind H. inv_bind H. inv_bind H.
  eapply rfold_full; [| |exact H].
  - intros t kv t' Ft Ht. inv_bind Ht. eapply add_parent_edges_full; eauto.
  - eapply rfold_full; [|exact F|exact E0].
    unfold remove_parent_edges_aliased. intros t q t' Ft Ht.
    inv_bind Ht. apply obj_Ok in E2. destruct (dget _ _); [|injection Ht as <-; auto].
    destruct (is_nil l); [injection Ht as <-; auto|]. inv_bind Ht. injection Ht as <-.
    apply sfull_set_par; auto. intros k l0 I. apply In_ddel_inv in I.
    eapply f_par; eauto.
Qed.

Lemma remove_dangling_ctx_full s x d s' :
  sfull s -> remove_dangling_ctx s x d = Ok s' -> sfull s'.
Proof.
  intros F H. eapply rfold_full; [|exact F|exact H].
  intros t u t' Ft Ht. inv_bind Ht. eapply rfold_full; [|exact Ft|exact Ht].
  intros t1 q t2 F1 H1. exact (remove_parent_edges_full _ _ _ _ _ _ F1 H1).
Qed.

Lemma remove_stale_ctx_full s x u v s' :
  sfull s -> remove_stale_ctx s x u v = Ok s' -> sfull s'.
Proof.
  unfold remove_stale_ctx. intros F H. inv_bind H.
  eapply rfold_full; [|exact F|exact H].
  intros t kv t' Ft Ht. inv_bind Ht. eapply remove_parent_edges_full; eauto.
Qed.

Lemma create_and_track_full s i bump fixup ph r :
  sfull s -> create_and_track s i bump fixup ph = Ok r -> sfull (fst r).
Proof.
  intros F. unfold create_and_track.
  set (n := if bump then _ else counter s).
  destruct (_ && _)%bool; [discriminate|].
  destruct (match dget (cur s) i with None => _ | Some u => _ end) as [pc|]; [|discriminate].
  intros [= <-]. simpl. constructor; [|apply F].
  intros u v x. simpl. rewrite nth_error_snoc. destruct (Nat.eqb _ _).
  - intros [= <-]. apply efull_nil.
  - intros H. eapply f_par; eauto.
Qed.

Lemma rename_chain_full new : forall fuel s u s',
  sfull s -> rename_chain fuel s u new = Ok s' -> sfull s'.
Proof.
  induction fuel as [|f IH]; intros s u s' F H; simpl in H; [discriminate|].
  inv_bind H. apply obj_Ok in E.
  assert (sfull (set_cell s u (with_id a new))).
  { apply sfull_set_cell; auto. intros x. simpl. eapply f_par; eauto. }
  destruct (c_prev a); [eapply IH; eauto|injection H as <-; auto].
Qed.

Lemma rename_edges_ctx_full s x u old new s' :
  sfull s -> rename_edges_ctx s x u old new = Ok s' -> sfull s'.
Proof.
  unfold rename_edges_ctx. intros F H. inv_bind H. inv_bind H.
  eapply rfold_full; [| |exact H].
  - intros t q t' Ft Ht. inv_bind Ht. inv_bind Ht. injection Ht as <-.
    apply obj_Ok in E2. apply sfull_set_par; auto. apply efull_rename. eapply f_par; eauto.
  - eapply rfold_full; [|exact F|exact E0].
    intros t q t' Ft Ht. inv_bind Ht. inv_bind Ht. injection Ht as <-.
    apply sfull_set_children; auto. apply efull_rename. now apply sfull_children.
Qed.

Lemma step_full s e s' : sfull s -> step s e = Ok s' -> sfull s'.
Proof.
  intros F. destruct e; simpl; intros H.
  - unfold rmap in H. destruct (create_and_track s i true fixup placeholder) eqn:E;
      [|discriminate]. injection H as <-. eapply create_and_track_full; eauto.
  - destruct (dget (cur s) i); [injection H as <-; auto|].
    unfold rmap in H. destruct (create_and_track s i false None false) eqn:E;
      [|discriminate]. injection H as <-. eapply create_and_track_full; eauto.
  - unfold add_data_dep in H. inv_bind H. inv_bind H.
    destruct (_ && _)%bool; [|injection H as <-; auto].
    eapply add_parent_edges_full; eauto.
  - eapply rfold_full; [|exact F|exact H]. intros t [c ps] t' Ft Ht. simpl in Ht.
    destruct (dget (cur t) c); [|injection Ht as <-; auto].
    eapply rfold_full; [|exact Ft|exact Ht]. intros t1 q t2 F1 H1. cbv beta in H1.
    destruct (dget (cur t1) q); [|injection H1 as <-; auto].
    eapply add_parent_edges_full; eauto.
  - inv_bind H. unfold replay in H. destruct dyn; simpl in H.
    + inv_bind H. apply replay_ctx_full in E0; auto.
      destruct stat; [|injection H as <-; auto]. eapply replay_ctx_full; [|exact H]; auto.
    + destruct stat; [|injection H as <-; auto]. eapply replay_ctx_full; [|exact H]; auto.
  - unfold remove_dangling_parent_edges in H. inv_bind H. inv_bind H. inv_bind H. inv_bind H.
    apply remove_dangling_ctx_full in E; auto. apply remove_dangling_ctx_full in E0; auto.
    destruct (c_prev a2); [|injection H as <-; auto].
    inv_bind H. apply remove_stale_ctx_full in E3; auto. eapply remove_stale_ctx_full; [|exact H]; auto.
  - inv_bind H. unfold untraced_parents in H. inv_bind H. apply obj_Ok in E0.
    destruct (c_prev a0); [|injection H as <-; auto].
    inv_bind H. apply obj_Ok in E1. injection H as <-. apply sfull_set_cell; auto.
    intros x. destruct x; simpl; eapply f_par; eauto.
  - inv_bind H. unfold update_id in H. inv_bind H. inv_bind H. inv_bind H.
    apply (rename_chain_full new_id (S (length (heap s))) s a) in E1; auto.
    set (s2 := mkSess (heap a1) a2 (by_ctr a1) (counter a1)
                      (fun y => move_key (c_id a0) new_id (ch a1 y))) in *.
    assert (F2 : sfull s2).
    { constructor; [apply E1|]. intros x j e. simpl. unfold move_key.
      destruct (dget (ch a1 x) (c_id a0)) eqn:D; intros I.
      - apply In_dset_inv in I. destruct I as [[_ ->]|I].
        + apply dget_In in D. eapply f_ch; eauto.
        + apply In_ddel_inv in I. eapply f_ch; eauto.
      - apply In_ddel_inv in I. eapply f_ch; eauto. }
    destruct dyn; simpl in H.
    + inv_bind H. apply rename_edges_ctx_full in E3; auto.
      destruct stat; [|injection H as <-; auto]. eapply rename_edges_ctx_full; [|exact H]; auto.
    + destruct stat; [|injection H as <-; auto]. eapply rename_edges_ctx_full; [|exact H]; auto.
Qed.

Lemma steps_full l : forall s s', sfull s -> steps s l = Ok s' -> sfull s'.
Proof.
  induction l as [|e l IH]; intros s s' F H; simpl in H; [injection H as <-; auto|].
  inv_bind H. apply (IH a); auto. eapply step_full; eauto.
Qed.

Lemma sfull_init : sfull sess_init.
Proof. constructor; [intros [|u]; discriminate|intros x i e []]. Qed.

(** ** Views of additions *)

Lemma add_parent_edges_view s r x u pu syms s' i v pi pv :
  Inv s r -> current s i u v -> current s pi pu pv -> i <> pi ->
  (forall sym, ~ lists_child s x i pi sym) -> syms <> [] ->
  add_parent_edges s x u pu syms = Ok s' ->
  (forall y j q sym, lists_parent s' y j q sym <->
     lists_parent s y j q sym \/ (y = x /\ j = i /\ q = pi /\ In sym syms)) /\
  (forall y q j sym, lists_child s' y q j sym <->
     lists_child s y q j sym \/ (y = x /\ j = i /\ q = pi /\ In sym syms)).
Proof.
  intros [I _] C D NE NC NS. unfold add_parent_edges. pose proof (i_wf _ _ I) as W.
  apply is_nil_false in NS. rewrite NS.
  pose proof C as [C1 C2]. pose proof D as [D1 D2].
  rewrite (proj2 (obj_Ok s u v) C2), (proj2 (obj_Ok s pu pv) D2). simpl.
  rewrite (current_id _ _ _ _ W C), (current_id _ _ _ _ W D).
  destruct (dhas (children_of s x i) pi) eqn:G.
  { apply dhas_key in G. apply key_has in G; [|apply W]. destruct G as [sy G].
    destruct (NC sy G). }
  rewrite (proj2 (Nat.eqb_neq pi i)) by auto. intros [= <-]. split.
  - intros y j q sym. rewrite parent_set_children.
    rewrite (parent_set_par s i u v x _ y j q sym W C).
    destruct (ctx_eqb_spec y x); simpl.
    + destruct (Nat.eqb_spec j i); simpl.
      * subst. rewrite has_edge_add. split; [intros [A|[A B]]|intros [A|(_ & _ & A & B)]];
          auto.
        -- left. exists u, v; auto.
        -- left. destruct A as (w & d & C' & A).
           destruct (current_fun _ _ _ _ _ _ C C') as [<- <-]. auto.
      * split; [auto|]. intros [A|(_ & A & _)]; [auto|congruence].
    + split; [auto|]. intros [A|(A & _)]; [auto|congruence].
  - intros y q j sym. rewrite child_set_children.
    change (children_of (set_cell s u (with_par v x (edge_add (c_par v x) pi syms))) x pi)
      with (children_of s x pi).
    change (lists_child (set_cell s u (with_par v x (edge_add (c_par v x) pi syms))) y q j sym)
      with (lists_child s y q j sym).
    destruct (ctx_eqb_spec y x); simpl.
    + destruct (Nat.eqb_spec q pi); simpl.
      * subst. rewrite has_edge_add. unfold lists_child. split.
        -- intros [A|[A B]]; auto.
        -- intros [A|(_ & A & _ & B)]; auto.
      * split; [auto|]. intros [A|(_ & _ & A & _)]; [auto|congruence].
    + split; [auto|]. intros [A|(A & _)]; [auto|congruence].
Qed.

(** ** Replaying *)

Lemma replay_ctx_view s i u c x v pc s' :
  Inv s (Some i) -> current s i u c -> c_par c x = [] ->
  nth_error (heap s) v = Some pc ->
  (forall p sym, has (c_par pc x) p sym -> p <> i /\ forall sym', ~ lists_child s x i p sym') ->
  replay_ctx s x u v = Ok s' ->
  (forall y j q sym, lists_parent s' y j q sym <->
     lists_parent s y j q sym \/ (y = x /\ j = i /\ has (c_par pc x) q sym)).
Proof.
  intros I C E V HN. unfold replay_ctx. pose proof C as [C1 C2].
  rewrite (proj2 (obj_Ok s u c) C2). simpl. rewrite E. simpl.
  rewrite (proj2 (obj_Ok s v pc) V). simpl.
  pose proof (wf_par _ (i_wf _ _ (proj1 I)) _ _ x V) as WP.
  assert (Q : forall l t t', dwf l -> (forall k e, dget l k = Some e -> e <> []) ->
    (forall p sym, has l p sym -> p <> i /\ forall sym', ~ lists_child t x i p sym') ->
    Inv t (Some i) -> same_reg s t ->
    rfold (fun s kv => rbind (from_id s (fst kv))
                         (fun pu => add_parent_edges s x u pu (snd kv))) l t = Ok t' ->
    (forall y j q sym, lists_parent t' y j q sym <->
       lists_parent t y j q sym \/ (y = x /\ j = i /\ has l q sym))).
  { induction l as [|[k e] l IH]; intros t t' Wl Nl Hl It SR; simpl.
    - intros [= <-] y j q sym. split; auto. intros [A|(_ & _ & A)]; auto.
      now apply has_nil in A.
    - destruct (from_id t k) as [pu|] eqn:F; simpl; [|discriminate].
      destruct (add_parent_edges t x u pu e) as [t1|] eqn:A; simpl; [|discriminate].
      apply from_id_Ok in F. pose proof (i_wf _ _ (proj1 It)) as W.
      destruct (wf_last _ W _ _ F) as (pv & V2 & _).
      destruct (same_current _ _ _ _ _ SR C) as (c' & C' & _).
      assert (Ne : e <> []) by (apply (Nl k); simpl; now rewrite Nat.eqb_refl).
      assert (Hk : exists sy, has ((k, e) :: l) k sy).
      { destruct e as [|a e']; [congruence|]. exists a, (a :: e'). simpl.
        rewrite Nat.eqb_refl. auto. }
      destruct Hk as [sy Hk]. apply Hl in Hk as [Nk Gk].
      assert (D : current t k pu pv) by (split; auto).
      pose proof (add_parent_edges_inv t (Some i) x u pu e t1 i c' k pv It C' D
                    (fun _ => eq_refl) A) as [It1 SR1].
      destruct (add_parent_edges_view t (Some i) x u pu e t1 i c' k pv It C' D) as [VP VC];
        auto.
      inversion Wl as [|? ? Nin Wl']; subst.
      intros R y j q sym.
      assert (HP : has ((k, e) :: l) q sym <-> (q = k /\ In sym e) \/ has l q sym).
      { unfold has. simpl. destruct (Nat.eqb_spec q k).
        - subst. split; [intros (l0 & [= <-] & H); auto|].
          intros [[_ H]|(l0 & H & _)]; [eauto|].
          exfalso. apply Nin. eapply dget_Some_key; eauto.
        - split; [intros H; right; auto|]. intros [[H _]|H]; [congruence|auto]. }
      rewrite (IH t1 t' Wl'); auto.
      + rewrite VP, HP. clear. intuition (subst; auto).
      + intros k' e' H. apply (Nl k'). simpl. destruct (Nat.eqb_spec k' k); auto.
        subst. exfalso. apply Nin. eapply dget_Some_key; eauto.
      + intros p sym0 H.
        assert (H' : has ((k, e) :: l) p sym0).
        { destruct H as (l0 & H & H1). exists l0. split; auto. simpl.
          destruct (Nat.eqb_spec p k); auto. subst. exfalso. apply Nin.
          eapply dget_Some_key; eauto. }
        apply Hl in H' as [X1 X2]. split; auto. intros sym' Y. apply VC in Y.
        destruct Y as [Y|(_ & Y & _)]; [eapply X2; eauto|congruence].
      + eapply same_reg_trans; eauto. }
  intros R. eapply Q; eauto; [apply WP|intros k l H; eapply WP; eauto|apply same_reg_refl].
Qed.

(** Finishing a run in which no symbol is dangling does not change recorded parents. *)
Lemma remove_nil s x u pid : remove_parent_edges s x u pid [] = Ok s.
Proof. reflexivity. Qed.

Lemma remove_dangling_nil s r x s' :
  Inv0 s r -> remove_dangling_ctx s x [] = Ok s' -> s' = s.
Proof.
  intros I. unfold remove_dangling_ctx. generalize (current_uids s). intros l. revert s I.
  induction l as [|u l IH]; intros s I H; simpl in H; [congruence|].
  inv_bind H. inv_bind E. 
  assert (a = s).
  { clear - E. revert s E. generalize (dkeys (c_par a0 x)).
    induction l as [|q l IH]; intros s E; simpl in E; [congruence|]. eauto. }
  subst a. eauto.
Qed.

Lemma remove_stale_ctx_parents s x u w s' i v :
  Inv0 s (Some i) -> current s i u v -> 
  remove_stale_ctx s x u w = Ok s' ->
  same_reg s s' /\ Inv0 s' (Some i) /\
  forall y j p sym, lists_parent s' y j p sym <-> lists_parent s y j p sym.
Proof.
  intros I C. unfold remove_stale_ctx. destruct (obj s w) as [pc|]; simpl; [|discriminate].
  generalize (c_par pc x). intros l. 
  assert (Q : forall l t t', Inv0 t (Some i) -> same_reg s t ->
     rfold (fun s kv => rbind (obj s u) (fun c =>
               remove_parent_edges s x u (fst kv)
                 (sdiff (snd kv)
                    (match dget (c_par c x) (fst kv) with Some e => e | None => [] end)))) l t
       = Ok t' ->
     same_reg t t' /\ Inv0 t' (Some i) /\
     forall y j p sym, lists_parent t' y j p sym <-> lists_parent t y j p sym).
  { clear l. induction l as [|[k e] l IH]; intros t t' It SR; simpl.
    - intros [= <-]. split; [apply same_reg_refl|]. split; auto. reflexivity.
    - destruct (same_current _ _ _ _ _ SR C) as (c' & C' & _). pose proof C' as [Ca Cb].
      rewrite (proj2 (obj_Ok t u c') Cb). simpl.
      destruct (remove_parent_edges _ _ _ _ _) as [t1|] eqn:A; simpl; [|discriminate].
      pose proof (remove_parent_edges_inv0 _ _ _ _ _ _ _ _ _ It C' A) as It1.
      destruct (remove_parent_edges_view _ _ _ _ _ _ _ _ _ It C' A)
        as (SR1 & _ & HP & _).
      intros R. destruct (IH t1 t') as (X1 & X2 & X3); auto.
      { eapply same_reg_trans; eauto. }
      split; [eapply same_reg_trans; eauto|]. split; auto.
      intros y j p sym. rewrite X3, HP. split; [tauto|]. intros H. split; auto.
      intros (-> & -> & -> & G). destruct H as (u1 & v1 & C1 & (l1 & L1 & L2)).
      destruct (current_fun _ _ _ _ _ _ C' C1) as [<- <-]. apply In_sdiff in G.
      rewrite L1 in G. tauto. }
  intros R. exact (Q l s s' I (same_reg_refl s) R).
Qed.

Lemma finish_nil_parents s i s' :
  Inv s (Some i) -> remove_dangling_parent_edges s [] = Ok s' ->
  forall y j p sym, lists_parent s' y j p sym <-> lists_parent s y j p sym.
Proof.
  intros [I _] H. unfold remove_dangling_parent_edges in H.
  inv_bind H. eapply remove_dangling_nil in E; eauto. subst a.
  inv_bind H. eapply remove_dangling_nil in E; eauto. subst a.
  inv_bind H. inv_bind H. apply at_counter_Ok in E. apply obj_Ok in E0.
  destruct (i_run _ _ I i eq_refl) as (u & v & C & Z).
  assert (a = u) by congruence. subst a.
  destruct (c_prev a0); [|injection H as <-; reflexivity].
  inv_bind H. destruct (remove_stale_ctx_parents _ _ _ _ _ _ _ I C E1) as (SR & I1 & V1).
  destruct (same_current _ _ _ _ _ SR C) as (c' & C' & _).
  destruct (remove_stale_ctx_parents _ _ _ _ _ _ _ I1 C' H) as (_ & _ & V2).
  intros. rewrite V2, V1. reflexivity.
Qed.

(** ** Both contexts *)

Lemma add_parent_edges_ch s x u pu syms s' y :
  y <> x -> add_parent_edges s x u pu syms = Ok s' -> ch s' y = ch s y.
Proof.
  intros N. unfold add_parent_edges. destruct (is_nil syms); [intros [= <-]; auto|].
  destruct (obj s u) as [c|]; simpl; [|discriminate].
  destruct (obj s pu) as [p|]; simpl; [|discriminate].
  destruct (dhas _ _); [intros [= <-]; auto|].
  destruct (Nat.eqb _ _).
  - destruct (c_prev c); [|intros [= <-]; auto].
    destruct (obj s n); simpl; [|discriminate]. intros [= <-]. auto.
  - intros [= <-]. simpl. destruct (ctx_eqb_spec y x); [congruence|auto].
Qed.

Lemma replay_ctx_ch s x u v s' y c :
  y <> x -> nth_error (heap s) u = Some c -> c_par c x = [] ->
  replay_ctx s x u v = Ok s' -> ch s' y = ch s y.
Proof.
  intros N O E H. unfold replay_ctx in H. rewrite (proj2 (obj_Ok s u c) O) in H.
  simpl in H. rewrite E in H. simpl in H. inv_bind H. clear E E0 O. revert s H.
  induction (c_par a x) as [|[k e] l IH]; intros s H; simpl in H; [congruence|].
  inv_bind H. inv_bind E. apply IH in H. rewrite H.
  eapply add_parent_edges_ch; eauto.
Qed.

Lemma replay_view s i u c v pc s' :
  Inv s (Some i) -> current s i u c -> (forall x, c_par c x = []) ->
  nth_error (heap s) v = Some pc ->
  (forall x p sym, has (c_par pc x) p sym ->
     p <> i /\ forall sym', ~ lists_child s x i p sym') ->
  step s (EReplay true true v) = Ok s' ->
  Inv s' (Some i) /\
  forall x p sym, lists_parent s' x i p sym <-> has (c_par pc x) p sym.
Proof.
  intros I C E V HN H. split; [eapply replay_inv; eauto|].
  simpl in H. destruct (i_run _ _ (proj1 I) i eq_refl) as (u' & c' & C' & Z).
  destruct (current_fun _ _ _ _ _ _ C C') as [<- <-].
  rewrite (proj2 (at_counter_Ok _ _ _) Z) in H. simpl in H. unfold replay in H.
  inv_bind H. pose proof C as [Ca Cb].
  destruct (replay_ctx_frame _ _ _ _ _ _ (E Dynamic) Cb E0 Static u c)
    as (c1 & H1 & H2); auto; [discriminate|].
  destruct (replay_ctx_frame _ _ _ _ _ _ (E Dynamic) Cb E0 Static v pc)
    as (pc1 & V1 & V2); auto; [discriminate|].
  destruct (replay_ctx_inv _ _ _ _ _ _ _ I C (E Dynamic) E0) as [I1 SR1].
  pose proof (replay_ctx_view _ _ _ _ _ _ _ _ I C (E Dynamic) V (HN Dynamic) E0) as VD.
  assert (C1 : current a i u c1).
  { split; auto. destruct SR1 as (-> & _). auto. }
  assert (CH : ch a Static = ch s Static).
  { eapply replay_ctx_ch; [|exact Cb|apply E|exact E0]. discriminate. }
  assert (P1 : c_par c1 Static = []) by (rewrite H2; auto).
  assert (HN1 : forall p sym, has (c_par pc1 Static) p sym ->
     p <> i /\ forall sym', ~ lists_child a Static i p sym').
  { intros p sym. rewrite V2. intros G. apply HN in G. unfold lists_child, children_of in *.
    rewrite CH. auto. }
  pose proof (replay_ctx_view _ _ _ _ _ _ _ _ I1 C1 P1 V1 HN1 H) as VS.
  assert (NP : forall x p sym, ~ lists_parent s x i p sym).
  { intros x p sym (w & d & A & B). destruct (current_fun _ _ _ _ _ _ C A) as [<- <-].
    rewrite E in B. now apply has_nil in B. }
  intros x p sym. rewrite VS, VD, V2. split.
  - intros [[A|(-> & _ & A)]|(-> & _ & A)]; auto. now apply NP in A.
  - intros A. destruct x; auto.
Qed.
