(** The edge invariant and its preservation by every event of a session. *)
Require Import List ZArith Bool Arith Lia.
Import ListNotations.
Require Import Verif.Base Verif.SessionModel Verif.SessionSpec Verif.SessionProofs.

(** Invariant without the clause about the previous version. *)
Record Inv0 (s : sess) (r : option nat) : Prop := {
  i_wf : WF s;
  i_up : forall x c p sym, lists_parent s x c p sym -> lists_child s x p c sym;
  i_down : forall x c p sym, lists_child s x p c sym ->
     lists_parent s x c p sym \/ (r = Some c /\ prev_lists s x c p sym);
  i_keys : forall x p c sym, lists_child s x p c sym ->
     p <> c /\ In p (dkeys (cur s)) /\ In c (dkeys (cur s));
  i_mutual : forall x p c a b, lists_child s x p c a -> lists_child s x c p b -> False;
  i_run : forall i, r = Some i ->
     exists u v, current s i u v /\ zget (by_ctr s) (counter s) = Some u
}.

Definition Prev (s : sess) (r : option nat) : Prop :=
  forall x c p sym, r = Some c -> prev_lists s x c p sym -> lists_child s x p c sym.

Definition Inv (s : sess) (r : option nat) : Prop := Inv0 s r /\ Prev s r.

(** Everything but edges is unchanged. *)
Definition same_reg (s s' : sess) : Prop :=
  cur s' = cur s /\ by_ctr s' = by_ctr s /\ counter s' = counter s /\
  length (heap s') = length (heap s) /\
  forall u v, nth_error (heap s) u = Some v ->
    exists v', nth_error (heap s') u = Some v' /\ c_id v' = c_id v /\
               c_prev v' = c_prev v /\ c_ctr v' = c_ctr v.

Lemma same_reg_refl s : same_reg s s.
Proof. repeat split; auto. intros. exists v. auto. Qed.

Lemma same_reg_trans a b c : same_reg a b -> same_reg b c -> same_reg a c.
Proof.
  intros (A1 & A2 & A3 & A4 & A5) (B1 & B2 & B3 & B4 & B5).
  repeat split; try congruence.
  intros u v H. destruct (A5 _ _ H) as (v1 & E1 & E2 & E3 & E4).
  destruct (B5 _ _ E1) as (v2 & F1 & F2 & F3 & F4). exists v2. repeat split; congruence.
Qed.

Lemma same_reg_set_par s u c x e :
  nth_error (heap s) u = Some c -> same_reg s (set_cell s u (with_par c x e)).
Proof.
  intros H. repeat split; auto.
  - apply lset_length.
  - intros w v G. rewrite heap_set_cell by congruence.
    destruct (Nat.eqb_spec w u); [|exists v; auto].
    subst. rewrite H in G. injection G as <-. eexists; split; eauto.
Qed.

Lemma same_reg_set_children s x i e : same_reg s (set_children s x i e).
Proof. repeat split; auto. intros. exists v. auto. Qed.

Lemma same_current s s' i u v :
  same_reg s s' -> current s i u v ->
  exists v', current s' i u v' /\ c_id v' = c_id v /\ c_prev v' = c_prev v.
Proof.
  intros (A1 & A2 & A3 & A4 & A5) [B C]. destruct (A5 _ _ C) as (v' & D & E & F & _).
  exists v'. split; auto. split; congruence.
Qed.

(** ** Adding edges *)

Lemma add_parent_edges_inv s r x u pu syms s' i v pi pv :
  Inv s r -> current s i u v -> current s pi pu pv ->
  (i = pi -> r = Some i) ->
  add_parent_edges s x u pu syms = Ok s' ->
  Inv s' r /\ same_reg s s'.
Proof.
  intros [I P] C D SE. unfold add_parent_edges.
  pose proof (i_wf _ _ I) as W.
  destruct (is_nil syms) eqn:NS.
  { intros [= <-]. split; [split; auto|apply same_reg_refl]. }
  apply is_nil_false in NS.
  pose proof C as [C1 C2]. pose proof D as [D1 D2].
  rewrite (proj2 (obj_Ok s u v) C2), (proj2 (obj_Ok s pu pv) D2). simpl.
  rewrite (current_id _ _ _ _ W C), (current_id _ _ _ _ W D).
  destruct (dhas (children_of s x i) pi) eqn:G.
  { intros [= <-]. split; [split; auto|apply same_reg_refl]. }
  apply dhas_nkey in G.
  destruct (Nat.eqb_spec pi i) as [->|N].
  - (* self use: inherit *)
    specialize (SE eq_refl). subst r.
    destruct (c_prev v) as [w|] eqn:PV.
    2:{ intros [= <-]. split; [split; auto|apply same_reg_refl]. }
    destruct (obj s w) as [pc|] eqn:OB; simpl; [|discriminate].
    apply obj_Ok in OB. intros [= <-].
    assert (HP : forall y p sym, has (c_par pc y) p sym -> prev_lists s y i p sym).
    { intros. exists u, v, w, pc. auto. }
    assert (EW : ewf (inherit_edges (c_par v x) (c_par pc x) syms)).
    { apply ewf_inherit. eapply wf_par; eauto. }
    assert (HI : forall p sym, has (inherit_edges (c_par v x) (c_par pc x) syms) p sym <->
                 has (c_par v x) p sym \/ (In sym syms /\ has (c_par pc x) p sym)).
    { intros. apply has_inherit. eapply wf_par; eauto. }
    split; [|apply same_reg_set_par; auto].
    split.
    + constructor.
      * apply WF_set_par; auto.
      * intros y c p sym. rewrite (parent_set_par s i u v x _ y c p sym W C), child_set_cell.
        destruct (ctx_eqb_spec y x), (Nat.eqb_spec c i); simpl; try apply I.
        subst. rewrite HI. intros [H|[_ H]].
        -- apply (i_up _ _ I). exists u, v; auto.
        -- apply P; auto.
      * intros y c p sym. rewrite (parent_set_par s i u v x _ y c p sym W C), child_set_cell.
        rewrite (prev_set_par s i u v x _ y c p sym W C). intros H.
        apply (i_down _ _ I) in H.
        destruct (ctx_eqb_spec y x), (Nat.eqb_spec c i); simpl; auto.
        subst. rewrite HI. destruct H as [(u' & v' & E & H)|]; auto.
        destruct (current_fun _ _ _ _ _ _ C E) as [-> ->]. auto.
      * intros y p c sym. rewrite child_set_cell. apply I.
      * intros y p c a b. rewrite !child_set_cell. apply I.
      * intros j [= ->]. destruct (i_run _ _ I _ eq_refl) as (u' & v' & E & H).
        destruct (current_fun _ _ _ _ _ _ C E) as [<- <-].
        exists u, (with_par v x (inherit_edges (c_par v x) (c_par pc x) syms)).
        split; auto. apply (proj2 (current_set_par s j u v x _ _ _ _ W C)). auto.
    + intros y c p sym R. rewrite (prev_set_par s i u v x _ y c p sym W C), child_set_cell.
      apply P; auto.
  - (* the ordinary case *)
    intros [= <-].
    set (s1 := set_cell s u (with_par v x (edge_add (c_par v x) pi syms))).
    assert (CH : children_of s1 x pi = children_of s x pi) by reflexivity.
    rewrite CH.
    assert (W1 : WF s1).
    { apply WF_set_par; auto. apply ewf_edge_add; auto. eapply wf_par; eauto. }
    assert (HPar : forall y c p sym,
      lists_parent (set_children s1 x pi (edge_add (children_of s x pi) i syms)) y c p sym
      <-> lists_parent s y c p sym \/ (y = x /\ c = i /\ p = pi /\ In sym syms)).
    { intros. rewrite parent_set_children.
      unfold s1. rewrite (parent_set_par s i u v x _ y c p sym W C).
      destruct (ctx_eqb_spec y x), (Nat.eqb_spec c i); simpl.
      - subst. rewrite has_edge_add. split.
        + intros [H|[-> H]]; [left; exists u, v; auto|auto].
        + intros [(u' & v' & E & H)|(_ & _ & -> & H)]; auto.
          destruct (current_fun _ _ _ _ _ _ C E) as [-> ->]. auto.
      - intuition congruence.
      - intuition congruence.
      - intuition congruence. }
    assert (HCh : forall y p c sym,
      lists_child (set_children s1 x pi (edge_add (children_of s x pi) i syms)) y p c sym
      <-> lists_child s y p c sym \/ (y = x /\ c = i /\ p = pi /\ In sym syms)).
    { intros. rewrite child_set_children. change (lists_child s1 y p c sym) with (lists_child s y p c sym).
      destruct (ctx_eqb_spec y x), (Nat.eqb_spec p pi); simpl.
      - subst. rewrite has_edge_add. unfold lists_child. intuition congruence.
      - intuition congruence.
      - intuition congruence.
      - intuition congruence. }
    assert (HPr : forall y c p sym,
      prev_lists (set_children s1 x pi (edge_add (children_of s x pi) i syms)) y c p sym
      <-> prev_lists s y c p sym).
    { intros. rewrite prev_set_children. unfold s1.
      apply (prev_set_par s i u v x _ y c p sym W C). }
    split.
    2:{ eapply same_reg_trans; [apply (same_reg_set_par s u v x); auto|].
        apply same_reg_set_children. }
    split.
    + constructor.
      * apply WF_set_children; auto. apply ewf_edge_add; auto. apply wf_ch; auto.
      * intros y c p sym. rewrite HPar, HCh. intros [H|H]; auto.
        left. now apply (i_up _ _ I).
      * intros y c p sym. rewrite HPar, HCh, HPr. intros [H|H]; auto.
        apply (i_down _ _ I) in H. tauto.
      * intros y p c sym. rewrite HCh. intros [H|(-> & -> & -> & H)].
        -- apply (i_keys _ _ I) in H. apply H.
        -- simpl. repeat split; auto.
           ++ apply dget_Some_key in D1. auto.
           ++ apply dget_Some_key in C1. auto.
      * intros y p c a b. rewrite !HCh.
        intros [H|(-> & -> & -> & H)] [H'|(E1 & E2 & E3 & H')].
        -- eapply i_mutual; eauto.
        -- subst. apply has_key in H. contradiction.
        -- apply has_key in H'. contradiction.
        -- congruence.
      * intros j R. destruct (i_run _ _ I _ R) as (u' & v' & E & H).
        destruct (Nat.eq_dec j i) as [->|Nj].
        -- destruct (current_fun _ _ _ _ _ _ C E) as [<- <-].
           eexists u, _. split; auto.
           apply (proj2 (current_set_par s i u v x _ _ _ _ W C)). auto.
        -- exists u', v'. split; auto.
           apply (proj2 (current_set_par s i u v x _ _ _ _ W C)). auto.
    + intros y c p sym R. rewrite HPr, HCh. intros H. left. apply P; auto.
Qed.

(** ** Removing edges *)

Lemma remove_parent_edges_view s r x u pid syms s' i v :
  Inv0 s r -> current s i u v -> 
  remove_parent_edges s x u pid syms = Ok s' ->
  same_reg s s' /\ WF s' /\
  (forall y c p sym, lists_parent s' y c p sym <->
     lists_parent s y c p sym /\ ~ (y = x /\ c = i /\ p = pid /\ In sym syms)) /\
  (forall y p c sym, lists_child s' y p c sym <->
     lists_child s y p c sym /\ ~ (y = x /\ c = i /\ p = pid /\ In sym syms)) /\
  (forall y c p sym, prev_lists s' y c p sym <-> prev_lists s y c p sym) /\
  (exists v', current s' i u v' /\ c_prev v' = c_prev v) /\
  (forall w q, w <> u -> nth_error (heap s) w = Some q -> nth_error (heap s') w = Some q).
Proof.
  intros I C. unfold remove_parent_edges. pose proof (i_wf _ _ I) as W.
  destruct (is_nil syms) eqn:NS.
  { intros [= <-]. apply is_nil_true in NS. subst. split; [apply same_reg_refl|].
    split; auto. split; [intros; simpl; tauto|]. split; [intros; simpl; tauto|].
    split; [reflexivity|]. split; [exists v; auto|auto]. }
  destruct (from_id s pid) eqn:F; simpl; [|discriminate].
  pose proof C as [C1 C2]. rewrite (proj2 (obj_Ok s u v) C2). simpl.
  intros [= <-]. rewrite (current_id _ _ _ _ W C).
  set (s1 := set_cell s u (with_par v x (edge_remove (c_par v x) pid syms))).
  assert (EP : ewf (c_par v x)) by (eapply wf_par; eauto).
  assert (CH : children_of s1 x pid = children_of s x pid) by reflexivity.
  rewrite CH. split; [|split; [|split; [|split; [|split; [|split]]]]].
  - eapply same_reg_trans; [apply (same_reg_set_par s u v x); auto|].
    apply same_reg_set_children.
  - apply WF_set_children; [|apply ewf_edge_remove, wf_ch; auto].
    apply WF_set_par; auto. now apply ewf_edge_remove.
  - intros y c p sym. rewrite parent_set_children. unfold s1.
    rewrite (parent_set_par s i u v x _ y c p sym W C).
    destruct (ctx_eqb_spec y x), (Nat.eqb_spec c i); simpl.
    + subst. rewrite has_edge_remove by auto. split.
      * intros [H H']. split; [exists u, v; auto|]. tauto.
      * intros [(u' & v' & E & H) H']. destruct (current_fun _ _ _ _ _ _ C E) as [-> ->].
        tauto.
    + intuition congruence.
    + intuition congruence.
    + intuition congruence.
  - intros y p c sym. rewrite child_set_children. change (lists_child s1 y p c sym) with (lists_child s y p c sym).
    destruct (ctx_eqb_spec y x), (Nat.eqb_spec p pid); simpl.
    + subst. rewrite has_edge_remove by (apply wf_ch; auto). unfold lists_child. tauto.
    + intuition congruence.
    + intuition congruence.
    + intuition congruence.
  - intros. rewrite prev_set_children. unfold s1.
    apply (prev_set_par s i u v x _ y c p sym W C).
  - eexists. split.
    + apply (proj2 (current_set_par s i u v x _ _ _ _ W C)). auto.
    + reflexivity.
  - intros w q N H. simpl. rewrite nth_error_lset. apply Nat.eqb_neq in N. now rewrite N.
Qed.

Lemma run_same_reg s s' r :
  same_reg s s' ->
  (forall i, r = Some i ->
     exists u v, current s i u v /\ zget (by_ctr s) (counter s) = Some u) ->
  forall i, r = Some i ->
     exists u v, current s' i u v /\ zget (by_ctr s') (counter s') = Some u.
Proof.
  intros SR H i R. destruct (H i R) as (u & v & C & Z).
  destruct (same_current _ _ _ _ _ SR C) as (v' & C' & _).
  exists u, v'. split; auto. destruct SR as (_ & -> & -> & _). auto.
Qed.

Lemma remove_parent_edges_inv0 s r x u pid syms s' i v :
  Inv0 s r -> current s i u v ->
  remove_parent_edges s x u pid syms = Ok s' ->
  Inv0 s' r.
Proof.
  intros I C H.
  destruct (remove_parent_edges_view _ _ _ _ _ _ _ _ _ I C H)
    as (SR & W & HP & HC & HQ & _).
  constructor; auto.
  - intros y c p sym. rewrite HP, HC. intros [A B]. split; auto. now apply (i_up _ _ I).
  - intros y c p sym. rewrite HP, HC, HQ. intros [A B].
    destruct (i_down _ _ I _ _ _ _ A); auto.
  - intros y p c sym. rewrite HC. intros [A B]. destruct SR as (-> & _).
    eapply i_keys; eauto.
  - intros y p c a b. rewrite !HC. intros [A _] [B _]. eapply i_mutual; eauto.
  - eapply run_same_reg; eauto. apply I.
Qed.

(** ** Finishing a run *)

Lemma remove_dangling_ctx_inv s r x dangling s' :
  Inv0 s r -> remove_dangling_ctx s x dangling = Ok s' -> Inv0 s' r /\ same_reg s s'.
Proof.
  intros I. unfold remove_dangling_ctx.
  assert (L : forall u, In u (current_uids s) -> exists i v, current s i u v).
  { intros u H. unfold current_uids, dvals in H. apply in_map_iff in H.
    destruct H as ([i u'] & E & H). simpl in E. subst u'.
    pose proof (i_wf _ _ I) as W. apply In_dget in H; [|apply W].
    destruct (wf_last _ W _ _ H) as (v & A & _). exists i, v. split; auto. }
  revert L. generalize (current_uids s). intros l L.
  assert (Q : forall l, (forall u, In u l -> exists i v, current s i u v) ->
    forall t t', Inv0 t r -> same_reg s t ->
      rfold (fun s u => rbind (obj s u) (fun c =>
             rfold (fun s pid => remove_parent_edges s x u pid dangling)
                   (dkeys (c_par c x)) s)) l t = Ok t' ->
      Inv0 t' r /\ same_reg s t').
  { clear l L. induction l as [|u l IH]; intros L t t' It SR; simpl.
    - intros [= <-]. auto.
    - destruct (L u (or_introl eq_refl)) as (i & v & C).
      destruct (obj t u) as [c|] eqn:O; simpl; [|discriminate].
      assert (Q2 : forall ks t t', Inv0 t r -> same_reg s t ->
        rfold (fun s pid => remove_parent_edges s x u pid dangling) ks t = Ok t' ->
        Inv0 t' r /\ same_reg s t').
      { induction ks as [|k ks IHk]; intros t0 t0' I0 S0; simpl.
        - intros [= <-]. auto.
        - destruct (remove_parent_edges t0 x u k dangling) as [t1|] eqn:R; simpl;
            [|discriminate].
          destruct (same_current _ _ _ _ _ S0 C) as (v0 & C0 & _).
          apply IHk.
          + eapply remove_parent_edges_inv0; eauto.
          + eapply same_reg_trans; eauto.
            eapply remove_parent_edges_view; eauto. }
      destruct (rfold _ (dkeys (c_par c x)) t) as [t1|] eqn:R; simpl; [|discriminate].
      apply Q2 in R; auto. destruct R. apply IH; auto.
      intros w Hw. apply L. right; auto. }
  intros H. apply (Q l L s s'); auto. apply same_reg_refl.
Qed.

(** Stale child edges of [i] in context [x] are gone. *)
Definition settled (s : sess) (x : ctx) (i : nat) : Prop :=
  forall p sym, lists_child s x p i sym -> lists_parent s x i p sym.

Lemma remove_stale_ctx_inv s x u w s' i v :
  Inv0 s (Some i) -> current s i u v -> c_prev v = Some w ->
  remove_stale_ctx s x u w = Ok s' ->
  Inv0 s' (Some i) /\ same_reg s s' /\ settled s' x i /\
  (forall y, y <> x -> settled s y i -> settled s' y i).
Proof.
  intros I C PV. unfold remove_stale_ctx.
  destruct (obj s w) as [pc|] eqn:O; simpl; [|discriminate].
  apply obj_Ok in O.
  assert (Wp : dwf (c_par pc x)) by (eapply wf_par; eauto; apply I).
  assert (Q : forall l, dwf l -> forall t t', Inv0 t (Some i) -> same_reg s t ->
     (forall p sym, lists_child t x p i sym -> lists_parent t x i p sym \/ has l p sym) ->
     rfold (fun s kv => rbind (obj s u) (fun c =>
               remove_parent_edges s x u (fst kv)
                 (sdiff (snd kv)
                    (match dget (c_par c x) (fst kv) with Some e => e | None => [] end))))
           l t = Ok t' ->
     Inv0 t' (Some i) /\ same_reg s t' /\ settled t' x i /\
     (forall y, y <> x -> settled t y i -> settled t' y i)).
  { induction l as [|[k e] l IH]; intros Wl t t' It SR J; simpl.
    - intros [= <-]. split; [|split; [|split]]; auto.
      intros p sym H. destruct (J p sym H) as [|H']; auto. now apply has_nil in H'.
    - inversion Wl as [|? ? Nin Wl']; subst.
      destruct (same_current _ _ _ _ _ SR C) as (v0 & C0 & _).
      pose proof C0 as [C0a C0b].
      rewrite (proj2 (obj_Ok t u v0) C0b). simpl.
      set (syms := sdiff e _).
      destruct (remove_parent_edges t x u k syms) as [t1|] eqn:R; simpl; [|discriminate].
      destruct (remove_parent_edges_view _ _ _ _ _ _ _ _ _ It C0 R)
        as (SR1 & W1 & HP & HC & HQ & _).
      intros F. apply IH in F; auto.
      + destruct F as (F1 & F2 & F3 & F4). split; [|split; [|split]]; auto.
        intros y Ny S. apply F4; auto. intros p sym. rewrite HP, HC. intros [A B].
        split; auto. 
      + eapply remove_parent_edges_inv0; eauto.
      + eapply same_reg_trans; eauto.
      + intros p sym. rewrite HP, HC. intros [A B].
        destruct (J p sym A) as [A'|A']; auto.
        destruct A' as (le & E & M). simpl in E. destruct (Nat.eqb_spec p k).
        * injection E as <-. subst p. left.
          destruct (in_dec Nat.eq_dec sym syms) as [Is|Ns].
          { exfalso. apply B. auto. }
          assert (K : has (c_par v0 x) k sym).
          { unfold syms in Ns. rewrite In_sdiff in Ns. unfold has.
            destruct (dget (c_par v0 x) k) as [le'|].
            - exists le'. split; auto. destruct (in_dec Nat.eq_dec sym le'); tauto.
            - simpl in Ns. tauto. }
          split; [exists u, v0; auto|]. intros (_ & _ & _ & X). auto.
        * right. exists le. auto. }
  intros H. destruct (Q _ Wp s s' I (same_reg_refl s)) as (A & B & D & E); auto.
  intros p sym L. destruct (i_down _ _ I _ _ _ _ L) as [|[_ P]]; auto.
  right. destruct P as (u' & v' & w' & pv & P1 & P2 & P3 & P4).
  destruct (current_fun _ _ _ _ _ _ C P1) as [<- <-]. congruence.
Qed.

Lemma finish_inv s i dangling s' :
  Inv s (Some i) -> remove_dangling_parent_edges s dangling = Ok s' ->
  Inv s' None /\ same_reg s s'.
Proof.
  intros [I _]. unfold remove_dangling_parent_edges.
  destruct (remove_dangling_ctx s Dynamic dangling) as [s1|] eqn:R1; simpl; [|discriminate].
  apply remove_dangling_ctx_inv with (r := Some i) in R1; auto. destruct R1 as [I1 SR1].
  destruct (remove_dangling_ctx s1 Static dangling) as [s2|] eqn:R2; simpl; [|discriminate].
  apply remove_dangling_ctx_inv with (r := Some i) in R2; auto. destruct R2 as [I2 SR2].
  destruct (i_run _ _ I2 i eq_refl) as (u & v & C & Z).
  rewrite (proj2 (at_counter_Ok _ _ _) Z). simpl.
  pose proof C as [C1 C2]. rewrite (proj2 (obj_Ok s2 u v) C2). simpl.
  assert (Fin : forall t, Inv0 t (Some i) -> settled t Dynamic i -> settled t Static i ->
                Inv t None).
  { intros t It Sd Ss. split; [|discriminate || (intros x c p sym R; discriminate)].
    constructor; try apply It.
    - intros x c p sym H. left. destruct (i_down _ _ It _ _ _ _ H) as [|[[= <-] _]]; auto.
      destruct x; auto.
    - intros j R. discriminate. }
  destruct (c_prev v) as [w|] eqn:PV.
  - destruct (remove_stale_ctx s2 Dynamic u w) as [s3|] eqn:R3; simpl; [|discriminate].
    destruct (remove_stale_ctx_inv _ _ _ _ _ _ _ I2 C PV R3) as (I3 & SR3 & S3 & _).
    destruct (same_current _ _ _ _ _ SR3 C) as (v3 & C3 & _ & PV3).
    intros R4.
    assert (PV3' : c_prev v3 = Some w) by congruence.
    destruct (remove_stale_ctx_inv _ _ _ _ _ _ _ I3 C3 PV3' R4) as (I4 & SR4 & S4 & K4).
    split.
    + apply Fin; auto. apply K4; auto. discriminate.
    + eapply same_reg_trans; eauto. eapply same_reg_trans; eauto.
      eapply same_reg_trans; eauto.
  - intros [= <-]. split; [|eapply same_reg_trans; eauto].
    apply Fin; auto.
    + intros p sym H. destruct (i_down _ _ I2 _ _ _ _ H) as [|[_ P]]; auto.
      destruct P as (u' & v' & w' & pv & P1 & P2 & _).
      destruct (current_fun _ _ _ _ _ _ C P1) as [<- <-]. congruence.
    + intros p sym H. destruct (i_down _ _ I2 _ _ _ _ H) as [|[_ P]]; auto.
      destruct P as (u' & v' & w' & pv & P1 & P2 & _).
      destruct (current_fun _ _ _ _ _ _ C P1) as [<- <-]. congruence.
Qed.
