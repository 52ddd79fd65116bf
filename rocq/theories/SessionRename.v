(** Renaming a cell (C07). *)
Require Import List ZArith Bool Arith Lia.
Import ListNotations.
Require Import Verif.Base Verif.SessionModel Verif.SessionSpec Verif.SessionProofs
  Verif.SessionInv.

(** ** Keys *)

Lemma dkeys_rename_key {V} old new (d : dict V) :
  dkeys (rename_key old new d) = map (rename_id old new) (dkeys d).
Proof. unfold rename_key, dkeys. rewrite !map_map. reflexivity. Qed.

Lemma rename_id_inj old new a b :
  a <> new -> b <> new -> rename_id old new a = rename_id old new b -> a = b.
Proof.
  unfold rename_id. destruct (Nat.eqb_spec a old), (Nat.eqb_spec b old); congruence.
Qed.

Lemma rename_id_old old new : rename_id old new old = new.
Proof. unfold rename_id. now rewrite Nat.eqb_refl. Qed.

Lemma rename_id_other old new i : i <> old -> rename_id old new i = i.
Proof. intros H. unfold rename_id. apply Nat.eqb_neq in H. now rewrite H. Qed.

Lemma In_rename_key {V} old new (d : dict V) k v :
  In (k, v) (rename_key old new d) <-> exists k0, k = rename_id old new k0 /\ In (k0, v) d.
Proof.
  unfold rename_key. rewrite in_map_iff. split.
  - intros ([k0 v0] & E & H). simpl in E. injection E as <- <-. exists k0. auto.
  - intros (k0 & -> & H). exists (k0, v). auto.
Qed.

Lemma NoDup_map_on {A B} (f : A -> B) l :
  (forall a b, In a l -> In b l -> f a = f b -> a = b) -> NoDup l -> NoDup (map f l).
Proof.
  intros F N. induction N as [|a l H N IH]; simpl; constructor.
  - rewrite in_map_iff. intros (b & E & I). apply H.
    rewrite (F a b); simpl; auto.
  - apply IH. intros; apply F; simpl; auto.
Qed.

Lemma dwf_rename_key {V} old new (d : dict V) :
  dwf d -> ~ In new (dkeys d) -> dwf (rename_key old new d).
Proof.
  intros W N. unfold dwf. rewrite dkeys_rename_key. apply NoDup_map_on; auto.
  intros a b Ha Hb. apply rename_id_inj; intros ->; auto.
Qed.

Lemma dget_rename_key {V} old new (d : dict V) : dwf d -> ~ In new (dkeys d) ->
  forall k v, dget (rename_key old new d) k = Some v <->
  exists k0, k = rename_id old new k0 /\ dget d k0 = Some v.
Proof.
  intros W N k v. split.
  - intros H. apply dget_In in H. apply In_rename_key in H. destruct H as (k0 & E & H).
    exists k0. split; auto. now apply In_dget.
  - intros (k0 & E & H). apply dget_In in H.
    apply In_dget; [now apply dwf_rename_key|]. apply In_rename_key. eauto.
Qed.

Lemma has_rename_key old new e : dwf e -> ~ In new (dkeys e) ->
  forall k sym, has (rename_key old new e) k sym <->
  exists k0, k = rename_id old new k0 /\ has e k0 sym.
Proof.
  intros W N k sym. unfold has. split.
  - intros (l & H & I). apply dget_rename_key in H; auto. destruct H as (k0 & E & H).
    exists k0. split; auto. exists l; auto.
  - intros (k0 & E & l & H & I). exists l. split; auto. apply dget_rename_key; auto.
    exists k0; auto.
Qed.

Lemma ewf_rename_key old new e : ewf e -> ~ In new (dkeys e) -> ewf (rename_key old new e).
Proof.
  intros [W N] H. split; [now apply dwf_rename_key|].
  intros k l G. apply dget_rename_key in G; auto. destruct G as (k0 & _ & G). eauto.
Qed.

(** Without [old] nothing changes. *)
Lemma has_rename_key_absent old new e : ewf e -> ~ In new (dkeys e) ->
  ~ In old (dkeys e) -> forall k sym,
  (exists k0, k = rename_id old new k0 /\ has e k0 sym) <-> has e k sym.
Proof.
  intros W N O k sym. split.
  - intros (k0 & -> & H). rewrite rename_id_other; auto.
    intros ->. apply O. eapply has_key; eauto.
  - intros H. exists k. split; auto. rewrite rename_id_other; auto.
    intros ->. apply O. eapply has_key; eauto.
Qed.

(** ** One context *)

Section OneCtx.
  Variables (old new : nat) (x : ctx).

  Lemma loop_children l : forall s, NoDup l ->
    (forall q, In q l -> exists w d, dget (cur s) q = Some w /\
                              nth_error (heap s) w = Some d /\ c_id d = q) ->
    exists t,
      rfold (fun s pid =>
                  rbind (from_id s pid) (fun pu =>
                  rbind (obj s pu) (fun p =>
                    Ok (set_children s x (c_id p)
                          (rename_key old new (children_of s x (c_id p))))))) l s = Ok t /\
      heap t = heap s /\ cur t = cur s /\ by_ctr t = by_ctr s /\ counter t = counter s /\
      (forall y q, children_of t y q =
         if (ctx_eqb y x && memb q l)%bool then rename_key old new (children_of s x q)
         else children_of s y q) /\
      ((forall y, dwf (ch s y)) -> forall y, dwf (ch t y)).
  Proof.
    induction l as [|q l IH]; intros s ND H; simpl.
    - exists s. repeat split; auto. intros. now rewrite andb_false_r.
    - inversion ND as [|? ? Nq ND']; subst.
      destruct (H q (or_introl eq_refl)) as (w & d & A & B & D).
      rewrite (proj2 (from_id_Ok s q w) A). simpl.
      rewrite (proj2 (obj_Ok s w d) B). simpl. rewrite D.
      set (s1 := set_children s x q (rename_key old new (children_of s x q))).
      destruct (IH s1) as (t & T1 & T2 & T3 & T4 & T5 & T6 & T7); auto.
      { intros q' Hq. apply (H q'). right; auto. }
      exists t. split; [exact T1|]. repeat split; auto.
      + intros y q'. rewrite T6. unfold s1, children_of. simpl.
        destruct (ctx_eqb_spec y x); simpl; [subst y|reflexivity].
        rewrite ctx_eqb_refl, dget_dset.
        destruct (Nat.eqb_spec q' q); simpl; [subst q'|reflexivity].
        destruct (memb q l) eqn:M; [|reflexivity]. apply memb_In in M. contradiction.
      + intros W y. apply T7. intros z. unfold s1. simpl.
        destruct (ctx_eqb z x); auto. now apply dwf_dset.
  Qed.

  Lemma loop_parents l : forall s, WF s -> NoDup l ->
    (forall j, In j l -> exists w d, current s j w d /\ ~ In new (dkeys (c_par d x))) ->
    exists t,
      rfold (fun s cid =>
             rbind (from_id s cid) (fun cu =>
             rbind (obj s cu) (fun d =>
               Ok (set_cell s cu (with_par d x (rename_key old new (c_par d x))))))) l s
        = Ok t /\
      WF t /\ same_reg s t /\ ch t = ch s /\
      (forall w d, nth_error (heap s) w = Some d ->
         exists d', nth_error (heap t) w = Some d' /\ c_history d' = c_history d) /\
      (forall y j p sym, lists_parent t y j p sym <->
         if (ctx_eqb y x && memb j l)%bool
         then exists p0, p = rename_id old new p0 /\ lists_parent s x j p0 sym
         else lists_parent s y j p sym).
  Proof.
    induction l as [|j l IH]; intros s W ND H; simpl.
    - exists s. split; auto. split; auto. split; [apply same_reg_refl|].
      repeat split; eauto; rewrite andb_false_r; auto.
    - inversion ND as [|? ? Nj ND']; subst.
      destruct (H j (or_introl eq_refl)) as (w & d & C & Nn). pose proof C as [C1 C2].
      rewrite (proj2 (from_id_Ok s j w) C1). simpl.
      rewrite (proj2 (obj_Ok s w d) C2). simpl.
      pose proof (wf_par _ W _ _ x C2) as Wp.
      set (s1 := set_cell s w (with_par d x (rename_key old new (c_par d x)))).
      assert (W1 : WF s1) by (apply WF_set_par; auto; now apply ewf_rename_key).
      destruct (IH s1) as (t & T1 & T2 & T3 & T4 & T5 & T6); auto.
      { intros j' Hj. destruct (H j' (or_intror Hj)) as (w' & d' & C' & N').
        exists w', d'. split; auto. apply (proj2 (current_set_par s j w d x _ _ _ _ W C)).
        right. split; auto. intros ->. contradiction. }
      exists t. split; [exact T1|]. split; auto.
      split; [eapply same_reg_trans; [apply same_reg_set_par; eauto|exact T3]|].
      split; auto. split.
      { intros w' d' Hd.
        assert (G : exists d1, nth_error (heap s1) w' = Some d1 /\
                               c_history d1 = c_history d').
        { unfold s1. rewrite heap_set_cell by congruence.
          destruct (Nat.eqb_spec w' w); [|eauto]. subst. rewrite C2 in Hd.
          injection Hd as <-. eexists; split; eauto. }
        destruct G as (d1 & G1 & G2). destruct (T5 _ _ G1) as (d2 & G3 & G4).
        exists d2. split; congruence. }
      intros y j' p sym. rewrite T6.
      assert (V : forall y j' p sym, lists_parent s1 y j' p sym <->
         if (ctx_eqb y x && Nat.eqb j' j)%bool
         then exists p0, p = rename_id old new p0 /\ lists_parent s x j p0 sym
         else lists_parent s y j' p sym).
      { intros. unfold s1. rewrite (parent_set_par s j w d x _ y0 j'0 p0 sym0 W C).
        destruct (ctx_eqb y0 x && Nat.eqb j'0 j)%bool; [|reflexivity].
        rewrite has_rename_key; auto; [|apply Wp].
        split; intros (k0 & E & G); exists k0; split; auto.
        - exists w, d. auto.
        - destruct G as (w' & d' & C' & G). 
          destruct (current_fun _ _ _ _ _ _ C C') as [<- <-]. auto. }
      destruct (ctx_eqb_spec y x); simpl; [subst y|].
      + destruct (Nat.eqb_spec j' j); simpl.
        * subst j'. destruct (memb j l) eqn:M; [apply memb_In in M; contradiction|].
          rewrite V, ctx_eqb_refl, Nat.eqb_refl. reflexivity.
        * destruct (memb j' l).
          -- split; intros (p0 & E & G); exists p0; split; auto.
             ++ apply V in G. apply Nat.eqb_neq in n. now rewrite n, andb_false_r in G.
             ++ apply V. apply Nat.eqb_neq in n. now rewrite n, andb_false_r.
          -- rewrite V. apply Nat.eqb_neq in n. rewrite n, andb_false_r. reflexivity.
      + rewrite V. destruct (ctx_eqb_spec y x); [congruence|]. reflexivity.
  Qed.

  Lemma rename_edges_ctx_view s u c :
    WF s -> current s new u c -> old <> new -> ~ In old (dkeys (cur s)) ->
    (forall q sym, lists_parent s x new q sym ->
       q <> old /\ q <> new /\ In q (dkeys (cur s))) ->
    (forall q sym, lists_child s x q old sym -> lists_parent s x new q sym) ->
    (forall j sym, lists_parent s x j old sym -> lists_child s x new j sym) ->
    (forall q sym, ~ lists_child s x q new sym) ->
    (forall j sym, ~ lists_parent s x j new sym) ->
    (forall j sym, lists_child s x new j sym -> j <> new /\ In j (dkeys (cur s))) ->
    exists s', rename_edges_ctx s x u old new = Ok s' /\ WF s' /\ same_reg s s' /\
      (forall w d, nth_error (heap s) w = Some d ->
         exists d', nth_error (heap s') w = Some d' /\ c_history d' = c_history d) /\
      (forall y j p sym, lists_parent s' y j p sym <->
         if ctx_eqb y x
         then exists p0, p = rename_id old new p0 /\ lists_parent s x j p0 sym
         else lists_parent s y j p sym) /\
      (forall y q j sym, lists_child s' y q j sym <->
         if ctx_eqb y x
         then exists j0, j = rename_id old new j0 /\ lists_child s x q j0 sym
         else lists_child s y q j sym).
  Proof.
    intros W C ON NO HA HB HE HC HF HD. unfold rename_edges_ctx. pose proof C as [C1 C2].
    rewrite (proj2 (obj_Ok s u c) C2). simpl.
    pose proof (wf_par _ W _ _ x C2) as Wp.
    assert (PK : forall q, In q (dkeys (c_par c x)) ->
              exists sym, lists_parent s x new q sym).
    { intros q H. apply key_has in H; auto. destruct H as [sym H]. exists sym, u, c. auto. }
    destruct (loop_children (dkeys (c_par c x)) s) as (t & T1 & T2 & T3 & T4 & T5 & T6 & T7).
    { apply Wp. }
    { intros q H. destruct (PK q H) as [sym G]. apply HA in G. destruct G as (_ & _ & G).
      apply key_dget in G. destruct G as [w G].
      destruct (wf_last _ W _ _ G) as (d & D1 & D2 & _). exists w, d. auto. }
    rewrite T1. simpl.
    assert (NN : forall q, ~ In new (dkeys (children_of s x q))).
    { intros q H. apply key_has in H; [|apply W]. destruct H as [sym H]. eapply HC; eauto. }
    assert (Wt : WF t).
    { destruct W. constructor; rewrite ?T2, ?T3, ?T4, ?T5; auto.
      intros y q. rewrite T6. destruct (ctx_eqb y x && memb q (dkeys (c_par c x)))%bool; auto.
      apply ewf_rename_key; auto. }
    assert (HCt : forall y q j sym, lists_child t y q j sym <->
         if ctx_eqb y x
         then exists j0, j = rename_id old new j0 /\ lists_child s x q j0 sym
         else lists_child s y q j sym).
    { intros. unfold lists_child at 1. rewrite T6. destruct (ctx_eqb_spec y x); simpl;
        [subst y|reflexivity].
      destruct (memb q (dkeys (c_par c x))) eqn:M.
      - apply has_rename_key; auto. apply W.
      - symmetry. apply has_rename_key_absent; auto; [apply W|].
        intros H. apply key_has in H; [|apply W]. destruct H as [sy H].
        apply HB in H. destruct H as (w & d & C' & H).
        destruct (current_fun _ _ _ _ _ _ C C') as [<- <-]. apply has_key in H.
        apply memb_nIn in M. contradiction. }
    assert (CE : children_of t x new = children_of s x new).
    { rewrite T6. rewrite ctx_eqb_refl. simpl.
      destruct (memb new (dkeys (c_par c x))) eqn:M; [|reflexivity].
      apply memb_In in M. apply PK in M. destruct M as [sy M]. apply HA in M. tauto. }
    assert (LPt : forall y j p sym, lists_parent t y j p sym <-> lists_parent s y j p sym).
    { intros. unfold lists_parent, current. rewrite T2, T3. reflexivity. }
    destruct (loop_parents (dkeys (children_of t x new)) t)
      as (r & R1 & R2 & R3 & R4 & R5 & R6); auto.
    { rewrite CE. apply (wf_ch _ W). }
    { rewrite CE. intros j H. apply key_has in H; [|apply W]. destruct H as [sy H].
      apply HD in H. destruct H as [_ H]. apply key_dget in H. destruct H as [w H].
      destruct (wf_last _ W _ _ H) as (d & D1 & _). exists w, d.
      split; [unfold current; rewrite T2, T3; auto|].
      intros K. apply key_has in K; [|exact (wf_par _ W _ _ x D1)]. destruct K as [sy' K].
      apply (HF j sy'). exists w, d. split; [split|]; auto. }
    exists r. split; [exact R1|]. split; [exact R2|]. split.
    { eapply same_reg_trans; [|exact R3]. unfold same_reg. rewrite T2, T3, T4, T5.
      apply same_reg_refl. }
    split. { intros w d. rewrite <- T2. apply R5. }
    split.
    - intros y j p sym. rewrite R6. rewrite CE. destruct (ctx_eqb_spec y x); simpl;
        [subst y|apply LPt].
      destruct (memb j (dkeys (children_of s x new))) eqn:M.
      + split; intros (p0 & E & H); exists p0; split; auto; now apply LPt.
      + rewrite LPt. split.
        * intros H. exists p. split; auto. rewrite rename_id_other; auto. intros ->.
          apply HE in H. apply memb_nIn in M. apply M. eapply has_key; eauto.
        * intros (p0 & -> & H). rewrite rename_id_other; auto. intros ->.
          apply HE in H. apply memb_nIn in M. apply M. eapply has_key; eauto.
    - intros y q j sym. rewrite <- HCt. unfold lists_child, children_of. rewrite R4.
      reflexivity.
  Qed.
End OneCtx.

(** ** The chain of versions *)

Definition chain_ok (h : list cellv) (i u : nat) : Prop :=
  forall w v, w <= u -> nth_error h w = Some v -> c_id v = i ->
  match c_prev v with
  | Some w' => w' < w /\ (exists pv, nth_error h w' = Some pv /\ c_id pv = i) /\
      forall w'' pv, w' < w'' < w -> nth_error h w'' = Some pv -> c_id pv <> i
  | None => forall w'' pv, w'' < w -> nth_error h w'' = Some pv -> c_id pv <> i
  end.

Lemma rename_chain_view old new : old <> new -> forall fuel s u c,
  u < fuel -> nth_error (heap s) u = Some c -> c_id c = old ->
  chain_ok (heap s) old u ->
  exists s', rename_chain fuel s u new = Ok s' /\
    cur s' = cur s /\ by_ctr s' = by_ctr s /\ counter s' = counter s /\ ch s' = ch s /\
    forall w, nth_error (heap s') w =
      option_map (fun v => if (Nat.leb w u && Nat.eqb (c_id v) old)%bool
                           then with_id v new else v) (nth_error (heap s) w).
Proof.
  intros ON. induction fuel as [|f IH]; intros s u c L H E K; [lia|]. simpl.
  rewrite (proj2 (obj_Ok s u c) H). simpl.
  set (s1 := set_cell s u (with_id c new)).
  assert (HS : forall w, nth_error (heap s1) w =
      if Nat.eqb w u then Some (with_id c new) else nth_error (heap s) w).
  { intros. apply heap_set_cell. congruence. }
  pose proof (K u c (le_n _) H E) as Ku. destruct (c_prev c) as [v|].
  - destruct Ku as (Lv & (pv & P1 & P2) & G).
    destruct (IH s1 v pv) as (s' & S1 & S2 & S3 & S4 & S5 & S6); auto; [lia| | |].
    + rewrite HS. destruct (Nat.eqb_spec v u); [lia|auto].
    + intros w d Lw. rewrite HS. destruct (Nat.eqb_spec w u); [lia|]. intros Hw Ew.
      assert (Lwu : w <= u) by lia.
      pose proof (K w d Lwu Hw Ew) as Q. destruct (c_prev d) as [w'|].
      * destruct Q as (Q1 & (pv' & Q2 & Q3) & Q4). split; auto. split.
        -- exists pv'. rewrite HS. destruct (Nat.eqb_spec w' u); [lia|auto].
        -- intros w'' pv'' R. rewrite HS. destruct (Nat.eqb_spec w'' u); [lia|]. eauto.
      * intros w'' pv'' R. rewrite HS. destruct (Nat.eqb_spec w'' u); [lia|]. eauto.
    + exists s'. split; auto. split; auto. split; auto. split; auto. split; auto.
      intros w. rewrite S6, HS. destruct (Nat.eqb_spec w u).
      * subst w. rewrite H. simpl. rewrite (proj2 (Nat.eqb_neq new old)) by auto.
        rewrite andb_false_r. rewrite Nat.leb_refl, E, Nat.eqb_refl. reflexivity.
      * destruct (nth_error (heap s) w) as [d|] eqn:Hw; [|reflexivity]. simpl.
        destruct (Nat.leb_spec w v), (Nat.leb_spec w u); simpl; auto; try lia.
        destruct (Nat.eqb_spec (c_id d) old); auto.
        exfalso. apply (G w d); auto. lia.
  - exists s1. repeat split; auto.
    intros w. rewrite HS. destruct (Nat.eqb_spec w u).
    + subst w. rewrite H. simpl. rewrite Nat.leb_refl, E, Nat.eqb_refl. reflexivity.
    + destruct (nth_error (heap s) w) as [d|] eqn:Hw; [|reflexivity]. simpl.
      destruct (Nat.leb_spec w u); simpl; auto.
      destruct (Nat.eqb_spec (c_id d) old); auto.
      exfalso. apply (Ku w d); auto. lia.
Qed.

Lemma dget_move_key {V} old new (d : dict V) k :
  dwf d -> old <> new ->
  dget (move_key old new d) k =
  if Nat.eqb k new then dget d old else if Nat.eqb k old then None else dget d k.
Proof.
  intros W ON. unfold move_key. destruct (dget d old) as [v|] eqn:E.
  - rewrite dget_dset, dget_ddel by auto. destruct (Nat.eqb_spec k new); auto.
  - rewrite dget_ddel by auto. destruct (Nat.eqb_spec k new); auto.
    destruct (Nat.eqb_spec k old); subst; auto.
Qed.

Lemma dwf_move_key {V} old new (d : dict V) : dwf d -> dwf (move_key old new d).
Proof.
  intros W. unfold move_key. destruct (dget d old).
  - now apply dwf_dset, dwf_ddel.
  - now apply dwf_ddel.
Qed.

Lemma rename_view s old new u :
  Inv s None -> dget (cur s) old = Some u -> ~ In new (dkeys (cur s)) ->
  exists s', update_id s true true u new = Ok s' /\ WF s' /\
    same_graph_renamed s s' old new /\ same_versions_renamed s s' old new.
Proof.
  intros [I _] HU NN. pose proof (i_wf _ _ I) as W.
  assert (ON : old <> new).
  { intros ->. apply NN. eapply dget_Some_key; eauto. }
  destruct (wf_last _ W _ _ HU) as (c & H & E & L).
  unfold update_id. rewrite (proj2 (obj_Ok s u c) H). simpl. rewrite E.
  assert (CK : chain_ok (heap s) old u).
  { intros w v _ Hw Ew. pose proof (wf_prev _ W _ _ Hw) as Q. rewrite Ew in Q.
    destruct (c_prev v) as [w'|].
    - destruct Q as (Q1 & (pv & Q2 & Q3 & _) & Q4). split; auto. split; eauto.
    - apply Q. }
  assert (LU : u < S (length (heap s))).
  { assert (u < length (heap s)) by (apply nth_error_Some; congruence). lia. }
  destruct (rename_chain_view old new ON _ s u c LU H E CK)
    as (s1 & S1 & S2 & S3 & S4 & S5 & S6).
  simpl in S1. rewrite S1. simpl. rewrite S2, HU, Nat.eqb_refl. simpl.
  set (s2 := mkSess (heap s1) (dset (ddel (cur s) old) new u) (by_ctr s1) (counter s1)
                    (fun y => move_key old new (ch s1 y))).
  set (ren := fun v => if Nat.eqb (c_id v) old then with_id v new else v).
  assert (HH : forall w, nth_error (heap s2) w = option_map ren (nth_error (heap s) w)).
  { intros w. unfold s2. simpl heap. rewrite S6.
    destruct (nth_error (heap s) w) as [d|] eqn:Hw; [|reflexivity]. simpl. unfold ren.
    destruct (Nat.eqb_spec (c_id d) old); [|now rewrite andb_false_r].
    assert (w <= u) by (eapply L; eauto). apply Nat.leb_le in H0. now rewrite H0. }
  assert (HI : forall w d, nth_error (heap s2) w = Some d <->
                 exists d0, nth_error (heap s) w = Some d0 /\ d = ren d0).
  { intros. rewrite HH. destruct (nth_error (heap s) w); simpl; split.
    - intros [= <-]; eauto.
    - intros (d0 & [= <-] & ->); auto.
    - discriminate.
    - intros (d0 & ? & _); discriminate. }
  assert (Rid : forall v, c_id (ren v) = rename_id old new (c_id v)).
  { intros. unfold ren, rename_id. destruct (Nat.eqb_spec (c_id v) old); auto. }
  assert (Rprev : forall v, c_prev (ren v) = c_prev v).
  { intros. unfold ren. destruct (Nat.eqb (c_id v) old); auto. }
  assert (Rctr : forall v, c_ctr (ren v) = c_ctr v).
  { intros. unfold ren. destruct (Nat.eqb (c_id v) old); auto. }
  assert (Rhist : forall v, c_history (ren v) = c_history v).
  { intros. unfold ren. destruct (Nat.eqb (c_id v) old); auto. }
  assert (Rpar : forall v, c_par (ren v) = c_par v).
  { intros. unfold ren. destruct (Nat.eqb (c_id v) old); auto. }
  assert (IdN : forall w v, nth_error (heap s) w = Some v -> c_id v <> new).
  { intros w v Hw X. apply NN. rewrite <- X. eapply wf_known; eauto. }
  assert (RI : forall w v w' v', nth_error (heap s) w = Some v ->
     nth_error (heap s) w' = Some v' -> c_id (ren v') = c_id (ren v) -> c_id v' = c_id v).
  { intros w v w' v' A B. rewrite !Rid. apply rename_id_inj; eauto. }
  assert (CU : forall i w, dget (cur s2) i = Some w <->
     exists i0, i = rename_id old new i0 /\ dget (cur s) i0 = Some w).
  { intros i w. unfold s2. simpl. rewrite dget_dset, dget_ddel by apply W.
    destruct (Nat.eqb_spec i new).
    - split.
      + intros [= <-]. exists old. rewrite rename_id_old. auto.
      + intros (i0 & A & B). unfold rename_id in A. destruct (Nat.eqb_spec i0 old).
        * congruence.
        * exfalso. apply NN. eapply dget_Some_key. rewrite <- e, A. eauto.
    - destruct (Nat.eqb_spec i old).
      + split; [discriminate|]. intros (i0 & A & B). unfold rename_id in A.
        destruct (Nat.eqb_spec i0 old); congruence.
      + split.
        * intros A. exists i. rewrite rename_id_other; auto.
        * intros (i0 & A & B). unfold rename_id in A.
          destruct (Nat.eqb_spec i0 old); congruence. }
  assert (CHd : forall y i, children_of s2 y i =
     if Nat.eqb i new then children_of s y old
     else if Nat.eqb i old then [] else children_of s y i).
  { intros. unfold children_of, s2. simpl. rewrite S5, dget_move_key by (auto; apply W).
    destruct (Nat.eqb i new); auto. destruct (Nat.eqb i old); auto. }
  assert (W2 : WF s2).
  { constructor.
    - unfold s2. simpl. apply dwf_dset, dwf_ddel, W.
    - intros i w A. apply CU in A. destruct A as (i0 & -> & A).
      destruct (wf_last _ W _ _ A) as (v & V1 & V2 & V3).
      exists (ren v). split; [apply HI; eauto|]. split; [rewrite Rid; congruence|].
      intros w' v' B1 B2. apply HI in B1. destruct B1 as (v0 & B1 & ->).
      eapply V3; eauto. rewrite <- V2. eapply (RI w v w' v0); eauto. rewrite Rid. congruence.
    - intros w v A. apply HI in A. destruct A as (v0 & A & ->).
      apply (wf_known _ W) in A as K. apply key_dget in K. destruct K as [w' K].
      eapply dget_Some_key. apply CU. exists (c_id v0). rewrite Rid. eauto.
    - intros w v A. apply HI in A. destruct A as (v0 & A & ->).
      pose proof (wf_prev _ W _ _ A) as Q. rewrite Rprev, Rhist, Rctr.
      destruct (c_prev v0) as [p|].
      + destruct Q as (Q1 & (pv & Q2 & Q3 & Q4 & Q5) & Q6). split; auto. split.
        * exists (ren pv). split; [apply HI; eauto|]. rewrite !Rid, Rhist.
          split; [congruence|]. auto.
        * intros w' pv' R B. apply HI in B. destruct B as (v1 & B & ->).
          intros X. apply (Q6 w' v1 R B). eapply (RI w v0 w' v1); eauto.
      + destruct Q as [Q1 Q2]. split; auto.
        intros w' pv' R B. apply HI in B. destruct B as (v1 & B & ->).
        intros X. apply (Q2 w' v1 R B). eapply (RI w v0 w' v1); eauto.
    - intros w v y A. apply HI in A. destruct A as (v0 & A & ->). rewrite Rpar.
      exact (wf_par _ W _ _ y A).
    - intros y. unfold s2. simpl. rewrite S5. apply dwf_move_key, W.
    - intros y i. rewrite CHd. destruct (Nat.eqb i new); [apply W|].
      destruct (Nat.eqb i old); [apply ewf_nil|apply W].
    - unfold s2. simpl. rewrite S4. apply W.
    - intros w v A. apply HI in A. destruct A as (v0 & A & ->). rewrite Rctr.
      unfold s2. simpl. rewrite S4. eapply wf_ctr_le; eauto.
    - intros w v w' v' A B. apply HI in A. destruct A as (v0 & A & ->).
      apply HI in B. destruct B as (v1 & B & ->). rewrite !Rctr.
      eapply wf_ctr_lt; eauto.
    - intros k w. unfold s2 at 1. simpl by_ctr. rewrite S3, (wf_by _ W k w).
      split; intros (v & A & B & D).
      + exists (ren v). rewrite Rctr. split; auto. apply HI; eauto.
      + apply HI in A. destruct A as (v0 & A & ->). exists v0. rewrite Rctr in B. auto. }
  assert (P2 : forall x j p sym, lists_parent s2 x j p sym <->
     exists j0, j = rename_id old new j0 /\ lists_parent s x j0 p sym).
  { intros. split.
    - intros (w & v & [A B] & D). apply CU in A. destruct A as (j0 & -> & A).
      apply HI in B. destruct B as (v0 & B & ->). rewrite Rpar in D.
      exists j0. split; auto. exists w, v0. split; [split|]; auto.
    - intros (j0 & -> & w & v & [A B] & D). exists w, (ren v). rewrite Rpar.
      split; auto. split; [apply CU; eauto|apply HI; eauto]. }
  assert (K2 : forall x q j sym, lists_child s2 x q j sym <->
     exists q0, q = rename_id old new q0 /\ lists_child s x q0 j sym).
  { intros. unfold lists_child. rewrite CHd. destruct (Nat.eqb_spec q new).
    - split.
      + intros A. exists old. rewrite rename_id_old. auto.
      + intros (q0 & A & B). unfold rename_id in A. destruct (Nat.eqb_spec q0 old).
        * congruence.
        * apply (i_keys _ _ I) in B. exfalso. apply NN. destruct B as (_ & B & _). congruence.
    - destruct (Nat.eqb_spec q old).
      + split; [intros A; now apply has_nil in A|]. intros (q0 & A & B).
        unfold rename_id in A. destruct (Nat.eqb_spec q0 old); congruence.
      + split.
        * intros A. exists q. rewrite rename_id_other; auto.
        * intros (q0 & A & B). unfold rename_id in A.
          destruct (Nat.eqb_spec q0 old); congruence. }
  assert (C2 : current s2 new u (ren c)).
  { split; [apply CU; exists old; rewrite rename_id_old; auto|apply HI; eauto]. }
  assert (O2 : ~ In old (dkeys (cur s2))).
  { intros A. apply key_dget in A. destruct A as [w A]. apply CU in A.
    destruct A as (i0 & A & _). unfold rename_id in A. destruct (Nat.eqb_spec i0 old);
      congruence. }
  assert (IC : forall i, In i (dkeys (cur s)) -> In (rename_id old new i) (dkeys (cur s2))).
  { intros i A. apply key_dget in A. destruct A as [w A].
    eapply dget_Some_key. apply CU. eauto. }
  assert (AG : forall x j p sym, lists_parent s x j p sym <-> lists_child s x p j sym).
  { intros. split; [apply (i_up _ _ I)|]. intros A. apply (i_down _ _ I) in A.
    destruct A as [A|[A _]]; [auto|discriminate]. }
  assert (KF : forall x p j sym, lists_child s x p j sym ->
     p <> j /\ In p (dkeys (cur s)) /\ In j (dkeys (cur s)) /\ p <> new /\ j <> new).
  { intros x p j sym A. apply (i_keys _ _ I) in A. destruct A as (A1 & A2 & A3).
    repeat split; auto; intros ->; auto. }
  (* the six conditions needed by one round of edge renaming, for any state with the
     same view in that context *)
  assert (Go : forall x t d, WF t -> cur t = cur s2 -> current t new u d ->
    (forall j p sym, lists_parent t x j p sym <-> lists_parent s2 x j p sym) ->
    (forall q j sym, lists_child t x q j sym <-> lists_child s2 x q j sym) ->
    exists s', rename_edges_ctx t x u old new = Ok s' /\ WF s' /\ same_reg t s' /\
      (forall w d, nth_error (heap t) w = Some d ->
         exists d', nth_error (heap s') w = Some d' /\ c_history d' = c_history d) /\
      (forall y j p sym, lists_parent s' y j p sym <->
         if ctx_eqb y x
         then exists p0, p = rename_id old new p0 /\ lists_parent t x j p0 sym
         else lists_parent t y j p sym) /\
      (forall y q j sym, lists_child s' y q j sym <->
         if ctx_eqb y x
         then exists j0, j = rename_id old new j0 /\ lists_child t x q j0 sym
         else lists_child t y q j sym)).
  { intros x t d Wt Ct Cu VP VC.
    apply (rename_edges_ctx_view old new x t u d); auto; try rewrite Ct; auto.
    - intros q sym A. apply VP, P2 in A. destruct A as (j0 & A & B).
      apply AG in B. pose proof (KF _ _ _ _ B) as (B1 & B2 & B3 & B4 & B5).
      unfold rename_id in A. destruct (Nat.eqb_spec j0 old); [|congruence]. subst j0.
      repeat split; auto. rewrite <- (rename_id_other old new q); auto.
    - intros q sym A. apply VC, K2 in A. destruct A as (q0 & -> & B).
      pose proof (KF _ _ _ _ B) as (B1 & B2 & B3 & B4 & B5).
      rewrite rename_id_other by auto. apply VP, P2. exists old.
      rewrite rename_id_old. split; auto. now apply AG.
    - intros j sym A. apply VP, P2 in A. destruct A as (j0 & -> & B). apply AG in B.
      pose proof (KF _ _ _ _ B) as (B1 & B2 & B3 & B4 & B5).
      rewrite rename_id_other by auto. apply VC, K2. exists old.
      rewrite rename_id_old. auto.
    - intros q sym A. apply VC, K2 in A. destruct A as (q0 & _ & B). apply KF in B. tauto.
    - intros j sym A. apply VP, P2 in A. destruct A as (j0 & _ & B). apply AG, KF in B. tauto.
    - intros j sym A. apply VC, K2 in A. destruct A as (q0 & A & B).
      pose proof (KF _ _ _ _ B) as (B1 & B2 & B3 & B4 & B5).
      unfold rename_id in A. destruct (Nat.eqb_spec q0 old); [|congruence]. subst q0.
      split; auto. rewrite <- (rename_id_other old new j); auto. }
  destruct (Go Dynamic s2 (ren c)) as (s3 & E1 & E2 & E3 & E4 & E5 & E6); auto;
    try reflexivity.
  rewrite E1. simpl.
  destruct (same_current _ _ _ _ _ E3 C2) as (d3 & C3 & _).
  destruct (Go Static s3 d3) as (s4 & F1 & F2 & F3 & F4 & F5 & F6); auto.
  { apply E3. }
  { intros. rewrite E5. reflexivity. }
  { intros. rewrite E6. reflexivity. }
  exists s4. split; [exact F1|]. split; [exact F2|].
  assert (SR : same_reg s2 s4) by (eapply same_reg_trans; eauto).
  split; [split|].
  - intros x j p sym.
    assert (V : lists_parent s4 x j p sym <->
      exists p0, p = rename_id old new p0 /\ lists_parent s2 x j p0 sym).
    { rewrite F5. destruct x; simpl.
      - rewrite E5. reflexivity.
      - split; intros (p0 & A & B); exists p0; split; auto; apply E5 in B || apply E5; auto. }
    rewrite V. split.
    + intros (p0 & -> & B). apply P2 in B. destruct B as (j0 & -> & B). eauto.
    + intros (c0 & p0 & -> & -> & B). exists p0. split; auto. apply P2. eauto.
  - intros x q j sym.
    assert (V : lists_child s4 x q j sym <->
      exists j0, j = rename_id old new j0 /\ lists_child s2 x q j0 sym).
    { rewrite F6. destruct x; simpl.
      - rewrite E6. reflexivity.
      - split; intros (p0 & A & B); exists p0; split; auto; apply E6 in B || apply E6; auto. }
    rewrite V. split.
    + intros (j0 & -> & B). apply K2 in B. destruct B as (q0 & -> & B). eauto.
    + intros (q0 & j0 & -> & -> & B). exists j0. split; auto. apply K2. eauto.
  - destruct SR as (R1 & R2 & R3 & R4 & R5).
    split; [rewrite R2; exact S3|]. split; [rewrite R3; exact S4|].
    split; [intros; rewrite R1; apply CU|]. split.
    + rewrite R4. unfold s2. simpl.
      assert (forall w, w < length (heap s1) <-> w < length (heap s)).
      { intros w. rewrite <- !nth_error_Some. rewrite S6.
        destruct (nth_error (heap s) w); simpl; split; congruence. }
      destruct (Nat.lt_trichotomy (length (heap s1)) (length (heap s))) as [G|[G|G]]; auto.
      * apply H0 in G. lia.
      * apply H0 in G. lia.
    + intros w v A. assert (B : nth_error (heap s2) w = Some (ren v)) by (apply HI; eauto).
      destruct (R5 _ _ B) as (v' & B1 & B2 & B3 & B4).
      destruct (E4 _ _ B) as (v3 & D1 & D2). destruct (F4 _ _ D1) as (v4 & D3 & D4).
      exists v'. rewrite B1 in D3. injection D3 as <-.
      repeat split; auto.
      * rewrite B2. apply Rid.
      * rewrite B4. apply Rctr.
      * rewrite B3. apply Rprev.
      * rewrite D4, D2. apply Rhist.
Qed.

Lemma rename_inv s old new s' :
  Inv s None -> ~ In new (dkeys (cur s)) ->
  step s (ERename true true old new) = Ok s' -> Inv s' None.
Proof.
  intros I NN. simpl. destruct (from_id s old) as [u|] eqn:F; simpl; [|discriminate].
  apply from_id_Ok in F. intros U.
  destruct (rename_view s old new u I F NN) as (t & T1 & W & [HP HC] & (V1 & V2 & V3 & _)).
  assert (t = s') by congruence. subst t. clear T1 U.
  destruct I as [I _].
  assert (AG : forall x j p sym, lists_parent s x j p sym <-> lists_child s x p j sym).
  { intros. split; [apply (i_up _ _ I)|]. intros A. apply (i_down _ _ I) in A.
    destruct A as [A|[A _]]; [auto|discriminate]. }
  assert (IC : forall i, In i (dkeys (cur s)) -> In (rename_id old new i) (dkeys (cur s'))).
  { intros i A. apply key_dget in A. destruct A as [w A].
    eapply dget_Some_key. apply V3. eauto. }
  assert (NW : forall i, In i (dkeys (cur s)) -> i <> new) by (intros i A ->; auto).
  split; [|discriminate]. constructor; auto.
  - intros x c p sym A. apply HP in A. destruct A as (c0 & p0 & -> & -> & A).
    apply HC. apply AG in A. eauto 6.
  - intros x c p sym A. left. apply HC in A. destruct A as (c0 & p0 & -> & -> & A).
    apply HP. apply AG in A. eauto 6.
  - intros x p c sym A. apply HC in A. destruct A as (p0 & c0 & -> & -> & A).
    apply (i_keys _ _ I) in A. destruct A as (A1 & A2 & A3). repeat split; auto.
    intros X. apply A1. apply (rename_id_inj old new); auto.
  - intros x p c a b A B. apply HC in A. destruct A as (p0 & c0 & E1 & E2 & A).
    apply HC in B. destruct B as (c1 & p1 & E3 & E4 & B).
    pose proof (i_keys _ _ I _ _ _ _ A) as (A1 & A2 & A3).
    pose proof (i_keys _ _ I _ _ _ _ B) as (B1 & B2 & B3).
    assert (c1 = c0) by (apply (rename_id_inj old new); auto; congruence).
    assert (p1 = p0) by (apply (rename_id_inj old new); auto; congruence).
    subst. eapply (i_mutual _ _ I); eauto.
  - discriminate.
Qed.
