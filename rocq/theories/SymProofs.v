(** Lemmas about the symbol graph. *)
Require Import List Bool Arith Lia.
Import ListNotations.
Require Import Verif.Base Verif.SymModel Verif.SymSpec.

Definition gwf (g : graph) : Prop := forall s, dwf (g_par g s) /\ dwf (g_chd g s).

Lemma fset_get {A} (f : nat -> A) k a i : fset f k a i = if Nat.eqb i k then a else f i.
Proof. reflexivity. Qed.

Ltac cmp := repeat match goal with
  | |- context [Nat.eqb ?a ?b] => destruct (Nat.eqb_spec a b); subst; simpl
  end.

(** ** Dropping edges *)

Lemma drop_gwf s g p : gwf g -> gwf (drop_edge s g p).
Proof.
  intros W a. simpl. rewrite !fset_get. destruct (W a), (W s), (W p).
  split; cmp; auto; now apply dwf_ddel.
Qed.

Lemma drop_par s g p : gwf g -> forall a b, dget (g_par (drop_edge s g p) a) b =
  if (Nat.eqb a s && Nat.eqb b p)%bool then None else dget (g_par g a) b.
Proof.
  intros W a b. simpl. rewrite fset_get. cmp; auto; rewrite dget_ddel by apply W; cmp; auto; congruence.
Qed.

Lemma drop_chd s g p : gwf g -> forall a b, dget (g_chd (drop_edge s g p) a) b =
  if (Nat.eqb b s && Nat.eqb a p)%bool then None else dget (g_chd g a) b.
Proof.
  intros W a b. simpl. rewrite fset_get. cmp; auto; rewrite dget_ddel by apply W; cmp; auto; congruence.
Qed.

Lemma drops_spec s l : forall g, gwf g ->
  let g' := fold_left (drop_edge s) l g in
  gwf g' /\ g_syms g' = g_syms g /\
  (forall a b, dget (g_par g' a) b = if (Nat.eqb a s && memb b l)%bool then None else dget (g_par g a) b) /\
  (forall a b, dget (g_chd g' a) b = if (Nat.eqb b s && memb a l)%bool then None else dget (g_chd g a) b).
Proof.
  induction l as [|p l IH]; intros g W; simpl.
  - split; auto. split; auto. split; intros a b; now rewrite andb_false_r.
  - destruct (IH (drop_edge s g p) (drop_gwf s g p W)) as (A & B & C & D).
    split; auto. split; [rewrite B; reflexivity|]. split; intros a b.
    + rewrite C, drop_par by auto. simpl. destruct (Nat.eqb_spec a s), (Nat.eqb_spec b p), (memb b l); auto.
    + rewrite D, drop_chd by auto. simpl. destruct (Nat.eqb_spec b s), (Nat.eqb_spec a p), (memb a l); auto.
Qed.

(** ** Adding edges *)

Lemma dget_push d k t k' : dget (push d k t) k' =
  if Nat.eqb k' k then Some (match dget d k with Some l => l | None => [] end ++ [t])
  else dget d k'.
Proof. unfold push. rewrite dget_dset. cmp; auto; congruence. Qed.

Lemma add_gwf s now g p : gwf g -> gwf (add_edge s now g p).
Proof.
  intros W a. simpl. rewrite !fset_get. destruct (W a), (W s), (W p).
  unfold push. split; cmp; auto; now apply dwf_dset.
Qed.

Lemma add_par s now g p a b : dget (g_par (add_edge s now g p) a) b =
  if (Nat.eqb a s && Nat.eqb b p)%bool
  then Some (match dget (g_par g s) p with Some l => l | None => [] end ++ [now])
  else dget (g_par g a) b.
Proof. simpl. rewrite fset_get. cmp; auto; rewrite dget_push; cmp; auto; congruence. Qed.

Lemma add_chd s now g p a b : dget (g_chd (add_edge s now g p) a) b =
  if (Nat.eqb b s && Nat.eqb a p)%bool
  then Some (match dget (g_chd g p) s with Some l => l | None => [] end ++ [now])
  else dget (g_chd g a) b.
Proof. simpl. rewrite fset_get. cmp; auto; rewrite dget_push; cmp; auto; congruence. Qed.

Lemma adds_spec s now l : NoDup l -> forall g, gwf g ->
  let g' := fold_left (add_edge s now) l g in
  gwf g' /\ g_syms g' = g_syms g /\
  (forall a b, dget (g_par g' a) b =
     if (Nat.eqb a s && memb b l)%bool
     then Some (match dget (g_par g s) b with Some l => l | None => [] end ++ [now])
     else dget (g_par g a) b) /\
  (forall a b, dget (g_chd g' a) b =
     if (Nat.eqb b s && memb a l)%bool
     then Some (match dget (g_chd g a) s with Some l => l | None => [] end ++ [now])
     else dget (g_chd g a) b).
Proof.
  induction 1 as [|p l NI N IH]; intros g W; simpl.
  - split; auto. split; auto. split; intros a b; now rewrite andb_false_r.
  - destruct (IH (add_edge s now g p) (add_gwf s now g p W)) as (A & B & C & D).
    apply memb_nIn in NI.
    split; auto. split; [rewrite B; reflexivity|]. split; intros a b.
    + rewrite C. rewrite !add_par, Nat.eqb_refl. simpl.
      destruct (Nat.eqb_spec a s), (Nat.eqb_spec b p); subst; simpl; auto.
      now rewrite NI.
    + rewrite D. rewrite !add_chd, Nat.eqb_refl. simpl.
      destruct (Nat.eqb_spec b s), (Nat.eqb_spec a p); subst; simpl; auto.
      now rewrite NI.
Qed.

Lemma dget_memb {V} (d : dict V) k : memb k (dkeys d) = match dget d k with Some _ => true | None => false end.
Proof.
  destruct (dget d k) eqn:E.
  - apply memb_In. eapply dget_Some_key; eauto.
  - apply memb_nIn. now apply dget_None.
Qed.

Lemma memb_sdiff a b y : memb y (sdiff a b) = (memb y a && negb (memb y b))%bool.
Proof.
  destruct (memb y (sdiff a b)) eqn:E.
  - apply memb_In, In_sdiff in E. destruct E as [A B]. apply memb_In in A. apply memb_nIn in B.
    now rewrite A, B.
  - apply memb_nIn in E. destruct (memb y a) eqn:A; auto. destruct (memb y b) eqn:B; auto.
    exfalso. apply E. apply In_sdiff. split; [now apply memb_In|now apply memb_nIn].
Qed.

Lemma memb_nodup l y : memb y (nodup Nat.eq_dec l) = memb y l.
Proof.
  destruct (memb y l) eqn:E.
  - apply memb_In. apply nodup_In. now apply memb_In.
  - apply memb_nIn. rewrite nodup_In. now apply memb_nIn.
Qed.

Lemma memb_filter f l y : memb y (filter f l) = (memb y l && f y)%bool.
Proof.
  destruct (memb y (filter f l)) eqn:E.
  - apply memb_In, filter_In in E. destruct E as [A B]. apply memb_In in A. now rewrite A, B.
  - apply memb_nIn in E. destruct (memb y l) eqn:A; auto. destruct (f y) eqn:B; auto.
    exfalso. apply E. apply filter_In. split; auto. now apply memb_In.
Qed.

(** ** What an update does to the edges, in one formula each *)

Section Update.
  Variables (g : graph) (s : nat) (ds : list nat) (overwrite : bool) (now : nat).
  Hypothesis W : gwf g.
  Let g' := update_deps g false s ds overwrite now.
  Let ow := overwrites g s ds overwrite.
  Let isdep b := (memb b ds && negb (Nat.eqb b s))%bool.

  Lemma update_spec : gwf g' /\ g_syms g' = g_syms g /\
    (forall a b, dget (g_par g' a) b =
       if Nat.eqb a s then
         match dget (g_par g s) b with
         | Some l => if (ow && negb (isdep b))%bool then None else Some l
         | None => if isdep b then Some [now] else None
         end
       else dget (g_par g a) b) /\
    (forall a b, dget (g_chd g' a) b =
       if Nat.eqb b s then
         match dget (g_par g s) a with
         | Some _ => if (ow && negb (isdep a))%bool then None else dget (g_chd g a) s
         | None => if isdep a
                   then Some (match dget (g_chd g a) s with Some l => l | None => [] end ++ [now])
                   else dget (g_chd g a) s
         end
       else dget (g_chd g a) b).
  Proof.
    unfold g', update_deps. fold ow.
    set (d := filter (fun d => negb (Nat.eqb d s)) ds).
    assert (Md : forall b, memb b d = isdep b) by (intros b; unfold d; now rewrite memb_filter).
    set (g1 := if ow then _ else g).
    assert (H1 : gwf g1 /\ g_syms g1 = g_syms g /\
      (forall a b, dget (g_par g1 a) b =
        if (ow && Nat.eqb a s && memb b (dkeys (g_par g s)) && negb (isdep b))%bool
        then None else dget (g_par g a) b) /\
      (forall a b, dget (g_chd g1 a) b =
        if (ow && Nat.eqb b s && memb a (dkeys (g_par g s)) && negb (isdep a))%bool
        then None else dget (g_chd g a) b)).
    { unfold g1. destruct ow; simpl; [|auto].
      destruct (drops_spec s (sdiff (dkeys (g_par g s)) d) g W) as (A & B & C & D).
      split; auto. split; auto. split; intros a b.
      - rewrite C, memb_sdiff, Md. now rewrite andb_assoc.
      - rewrite D, memb_sdiff, Md. now rewrite andb_assoc. }
    destruct H1 as (W1 & S1 & P1 & C1).
    destruct (adds_spec s now (nodup Nat.eq_dec (sdiff d (dkeys (g_par g1 s)))) (NoDup_nodup _ _) g1 W1)
      as (A & B & C & D).
    split; auto. split; [now rewrite B|].
    assert (Mk : forall b, memb b (nodup Nat.eq_dec (sdiff d (dkeys (g_par g1 s)))) =
      (isdep b && match dget (g_par g s) b with Some _ => false | None => true end)%bool).
    { intros b. rewrite memb_nodup, memb_sdiff, Md, dget_memb, P1, dget_memb, Nat.eqb_refl.
      destruct (isdep b), ow, (dget (g_par g s) b); auto. }
    split; intros a b.
    - rewrite C, Mk. rewrite !P1, !dget_memb, Nat.eqb_refl.
      destruct (Nat.eqb_spec a s); subst; simpl; rewrite ?andb_false_r, ?andb_true_r; simpl; auto.
      destruct (dget (g_par g s) b) eqn:E; destruct (isdep b) eqn:I, ow; simpl; rewrite ?E; auto.
    - rewrite D, Mk. rewrite !C1, !dget_memb, Nat.eqb_refl.
      destruct (Nat.eqb_spec b s); subst; simpl; rewrite ?andb_false_r, ?andb_true_r; simpl; auto.
      destruct (dget (g_par g s) a) eqn:E; destruct (isdep a) eqn:I, ow; simpl; auto.
  Qed.
End Update.

(** ** Collecting *)

Lemma forget_spec s l : forall f, (forall a, dwf (f a)) ->
  let f' := fold_left (fun f p => fset f p (ddel (f p) s)) l f in
  (forall a, dwf (f' a : dict (list nat))) /\
  forall a b, dget (f' a) b = if (Nat.eqb b s && memb a l)%bool then None else dget (f a) b.
Proof.
  induction l as [|p l IH]; intros f W; simpl.
  - split; auto. intros a b. now rewrite andb_false_r.
  - destruct (IH (fset f p (ddel (f p) s))) as [A B].
    { intros a. rewrite fset_get. cmp; auto. now apply dwf_ddel. }
    split; auto. intros a b. rewrite B, !fset_get.
    destruct (Nat.eqb_spec a p); subst; simpl.
    + rewrite dget_ddel by auto. destruct (Nat.eqb_spec b s); subst; simpl.
      * now destruct (memb p l).
      * reflexivity.
    + reflexivity.
Qed.

Lemma collect_spec g s : gwf g ->
  gwf (collect g s) /\
  (forall a b, dget (g_chd (collect g s) a) b =
     if (Nat.eqb b s && memb a (dkeys (g_par g s)))%bool then None else dget (g_chd g a) b) /\
  (forall a b, dget (g_par (collect g s) a) b =
     if (Nat.eqb b s && memb a (dkeys (g_chd (collect g s) s)))%bool then None
     else dget (g_par g a) b).
Proof.
  intros W. unfold collect.
  destruct (forget_spec s (dkeys (g_par g s)) (g_chd g)) as [A B]; [intros a; apply W|].
  set (chd := fold_left _ (dkeys (g_par g s)) (g_chd g)) in *.
  destruct (forget_spec s (dkeys (chd s)) (g_par g)) as [C D]; [intros a; apply W|].
  split; [intros a; simpl; auto|]. split; auto.
Qed.

(** ** The invariant *)

Record GInv (g : graph) (gone : list nat) : Prop := {
  gi_wf : gwf g;
  gi_known : forall a b l, dget (g_par g a) b = Some l -> In a (g_syms g) /\ In b (g_syms g);
  gi_known' : forall a b l, dget (g_chd g a) b = Some l -> In a (g_syms g) /\ In b (g_syms g);
  gi_gone : incl gone (g_syms g);
  gi_self : forall a l, dget (g_par g a) a <> Some l;
  gi_self' : forall a l, dget (g_chd g a) a <> Some l;
  gi_sym : forall a b, ~ In a gone -> ~ In b gone -> dget (g_par g a) b = dget (g_chd g b) a;
  gi_apart : forall a b l, In b gone -> ~ In a gone ->
     dget (g_par g a) b <> Some l /\ dget (g_chd g a) b <> Some l
}.

Lemma hist_inv l g gone : hist l g gone -> GInv g gone.
Proof.
  induction 1 as [|l g gone s H IH N|l g gone skip s ds ow now H IH K|l g gone s H IH K N].
  - constructor; simpl; try discriminate; auto; try (intros ? ? ? []).
    + intros a. split; constructor.
    + intros a [].
  - destruct IH as [A B B' C D D' E F]. constructor; simpl; auto.
    + intros a b l0 X. apply B in X. rewrite !In_sadd. tauto.
    + intros a b l0 X. apply B' in X. rewrite !In_sadd. tauto.
    + intros a I. apply In_sadd. right. now apply C.
  - simpl. destruct skip; [exact IH|]. destruct IH as [A B B' C D D' E F].
    destruct (update_spec g s ds ow now A) as (W & S & P & Q).
    destruct (K s) as [Ks Ns]; [now left|].
    assert (Kd : forall b, (memb b ds && negb (Nat.eqb b s))%bool = true ->
       In b (g_syms g) /\ ~ In b gone /\ b <> s).
    { intros b Hb. apply andb_true_iff in Hb. destruct Hb as [H1 H2]. apply memb_In in H1.
      destruct (K b) as [K1 K2]; [now right|]. split; auto. split; auto.
      intros ->. rewrite Nat.eqb_refl in H2. discriminate. }
    constructor; auto.
    + intros a b l0. rewrite S, P. destruct (Nat.eqb_spec a s) as [->|]; [|apply B].
      destruct (dget (g_par g s) b) eqn:X; [apply B in X; auto|].
      destruct (_ && _)%bool eqn:Y; [|discriminate]. apply Kd in Y. tauto.
    + intros a b l0. rewrite S, Q. destruct (Nat.eqb_spec b s) as [->|]; [|apply B'].
      destruct (dget (g_par g s) a) eqn:X; [apply B in X; tauto|].
      destruct (memb a ds && _)%bool eqn:Y; [apply Kd in Y; tauto|]. apply B'.
    + rewrite S. auto.
    + intros a l0. rewrite P. destruct (Nat.eqb_spec a s) as [->|]; [|apply D].
      destruct (dget (g_par g s) s) eqn:X; [exfalso; eapply D; eauto|].
      rewrite ?Nat.eqb_refl; simpl; rewrite andb_false_r. discriminate.
    + intros a l0. rewrite Q. destruct (Nat.eqb_spec a s) as [->|]; [|apply D'].
      destruct (dget (g_par g s) s) eqn:X; [exfalso; eapply D; eauto|].
      rewrite ?Nat.eqb_refl; simpl; rewrite andb_false_r. apply D'.
    + intros a b Ha Hb. rewrite P, Q. destruct (Nat.eqb_spec a s) as [->|]; [|auto].
      rewrite <- (E s b) by auto.
      destruct (dget (g_par g s) b) eqn:X; auto. 
    + intros a b l0 Ib Na. rewrite P, Q. split.
      * destruct (Nat.eqb_spec a s) as [->|]; [|now apply F].
        destruct (dget (g_par g s) b) eqn:X; [exfalso; exact (proj1 (F s b l1 Ib Ns) X)|].
        destruct (memb b ds && _)%bool eqn:Y; [|discriminate]. apply Kd in Y. tauto.
      * destruct (Nat.eqb_spec b s) as [->|]; [contradiction|]. now apply F.
  - destruct IH as [A B B' C D D' E F]. simpl.
    destruct (collect_spec g s A) as (W & Q & P).
    set (g' := collect g s) in *.
    assert (S : g_syms g' = g_syms g) by reflexivity.
    constructor; auto.
    + intros a b l0. rewrite S, P. destruct (_ && _)%bool; [discriminate|]. apply B.
    + intros a b l0. rewrite S, Q. destruct (_ && _)%bool; [discriminate|]. apply B'.
    + rewrite S. intros a [<-|I]; auto.
    + intros a l0. rewrite P. destruct (_ && _)%bool; [discriminate|]. apply D.
    + intros a l0. rewrite Q. destruct (_ && _)%bool; [discriminate|]. apply D'.
    + intros a b Ha Hb. rewrite P, Q.
      destruct (Nat.eqb_spec b s) as [->|]; [destruct Hb; now left|].
      destruct (Nat.eqb_spec a s) as [->|]; [destruct Ha; now left|]. simpl.
      apply E; intros X; [apply Ha|apply Hb]; now right.
    + intros a b l0 [<-|Ib] Na.
      * assert (Na' : ~ In a gone) by (intros X; apply Na; now right).
        assert (NE : a <> s) by (intros ->; apply Na; now left).
        split.
        -- rewrite P, Nat.eqb_refl. cbn [andb]. rewrite dget_memb, Q.
           destruct (Nat.eqb_spec a s); [contradiction|]. simpl.
           rewrite <- (E a s) by auto. destruct (dget (g_par g a) s) eqn:X; discriminate.
        -- rewrite Q, Nat.eqb_refl. cbn [andb]. rewrite dget_memb. rewrite (E s a) by auto.
           destruct (dget (g_chd g a) s); discriminate.
      * assert (Na' : ~ In a gone) by (intros X; apply Na; now right).
        rewrite P, Q. split; (destruct (_ && _)%bool; [discriminate|]; now apply F).
Qed.

(** ** Queries *)

Lemma traverse_spec g attr s : (forall a b l, dget (attr a) b = Some l -> In b (g_syms g)) ->
  In s (g_syms g) -> (forall a, dwf (attr a)) ->
  exists seen, traverse g attr s = Ok seen /\ NoDup seen /\
    forall y, In y seen <-> reach (fun a b => exists l, dget (attr a) b = Some l) s y.
Proof.
  intros K Hs W. unfold traverse.
  set (succ := fun x => map Ok (dkeys (attr x)) : list (res nat)).
  assert (ED : forall a b, edge succ a b <-> exists l, dget (attr a) b = Some l).
  { intros a b. unfold edge, succ. rewrite in_map_iff. split.
    - intros (c & [= ->] & I). now apply key_dget in I.
    - intros [l H]. exists b. split; auto. eapply dget_Some_key; eauto. }
  destruct (dfs_fuel succ (g_syms g) (S (length (g_syms g))) [] s) as [[seen H]|(e & y & H & _ & F)].
  - intros v w _ H. apply ED in H. destruct H as [l H]. eauto.
  - auto.
  - pose proof (unvisited_le (g_syms g) []). lia.
  - exists seen. split; auto. split; [eapply dfs_NoDup; eauto; constructor|].
    apply dfs_sound_complete in H. destruct H as (A & B & C & D).
    intros y. split.
    + intros I. eapply reach_mono; [|apply C; auto]. intros a b Hab. apply ED. exact Hab.
    + intros R. 
      assert (G : forall x y, reach (fun a b => exists l, dget (attr a) b = Some l) x y ->
         In x seen -> In y seen).
      { induction 1 as [x|x y0 z R1 R2 IH]; auto. intros I. apply IH.
        apply ED in R1. destruct (D x (Ok y0) I (fun F => F) R1) as (z0 & [= ->] & Z). auto. }
      eapply G; eauto.
  - unfold succ in F. apply in_map_iff in F. destruct F as (z & Fz & _). discriminate.
Qed.

Lemma reach_ne {R : nat -> nat -> Prop} x y : reach R x y -> x <> y -> reach1 R x y.
Proof.
  intros H N. apply reach_inv in H. destruct H as [->|H]; [contradiction|auto].
Qed.

Lemma live_parent l g gone : hist l g gone -> forall a b, ~ In a gone -> parent_of g a b -> ~ In b gone.
Proof.
  intros H a b Na [t P] Ib. exact (proj1 (gi_apart _ _ (hist_inv _ _ _ H) a b t Ib Na) P).
Qed.

Lemma live_child l g gone : hist l g gone -> forall a b, ~ In a gone -> child_of g a b -> ~ In b gone.
Proof.
  intros H a b Na [t P] Ib. exact (proj2 (gi_apart _ _ (hist_inv _ _ _ H) a b t Ib Na) P).
Qed.

Lemma live_flip l g gone : hist l g gone -> forall a b, ~ In a gone -> ~ In b gone ->
  (parent_of g a b <-> child_of g b a).
Proof.
  intros H a b Na Nb. unfold parent_of, child_of.
  rewrite (gi_sym _ _ (hist_inv _ _ _ H) a b Na Nb). reflexivity.
Qed.

Lemma reach_up l g gone : hist l g gone -> forall a b, ~ In a gone ->
  reach (parent_of g) a b -> ~ In b gone /\ reach (child_of g) b a.
Proof.
  intros H a b Na R. induction R as [x|x y z E R IH]; [split; [auto|constructor]|].
  pose proof (live_parent _ _ _ H x y Na E) as Ny. destruct (IH Ny) as [Nz Q]. split; auto.
  eapply reach_trans; [exact Q|]. apply reach_one. now apply (live_flip _ _ _ H).
Qed.

Lemma reach_down l g gone : hist l g gone -> forall a b, ~ In a gone ->
  reach (child_of g) a b -> ~ In b gone /\ reach (parent_of g) b a.
Proof.
  intros H a b Na R. induction R as [x|x y z E R IH]; [split; [auto|constructor]|].
  pose proof (live_child _ _ _ H x y Na E) as Ny. destruct (IH Ny) as [Nz Q]. split; auto.
  eapply reach_trans; [exact Q|]. apply reach_one. now apply (live_flip _ _ _ H).
Qed.

Lemma rdeps_spec l g gone anon x : hist l g gone -> In x (g_syms g) ->
  exists ds, rdeps g anon x = Ok ds /\ NoDup ds /\
    forall y, In y ds <-> reach (parent_of g) x y /\ y <> x /\ anon y = false.
Proof.
  intros H Hx. pose proof (hist_inv _ _ _ H) as I.
  destruct (traverse_spec g (g_par g) x) as (seen & T & N & S); auto.
  - intros a b t P. apply (gi_known _ _ I) in P. tauto.
  - intros a. apply (gi_wf _ _ I).
  - unfold rdeps. rewrite T. simpl. eexists. split; [reflexivity|]. split.
    + apply NoDup_filter. unfold sdiff. now apply NoDup_filter.
    + intros y. rewrite filter_In, In_sdiff, S, negb_true_iff. simpl.
      unfold parent_of. intuition auto.
Qed.

Lemma rusers_spec l g gone anon x : hist l g gone -> In x (g_syms g) ->
  exists ds, rusers g anon x = Ok ds /\ NoDup ds /\
    forall y, In y ds <-> reach (child_of g) x y /\ y <> x /\ anon y = false.
Proof.
  intros H Hx. pose proof (hist_inv _ _ _ H) as I.
  destruct (traverse_spec g (g_chd g) x) as (seen & T & N & S); auto.
  - intros a b t P. apply (gi_known' _ _ I) in P. tauto.
  - intros a. apply (gi_wf _ _ I).
  - unfold rusers. rewrite T. simpl. eexists. split; [reflexivity|]. split.
    + apply NoDup_filter. unfold sdiff. now apply NoDup_filter.
    + intros y. rewrite filter_In, In_sdiff, S, negb_true_iff. simpl.
      unfold child_of. intuition auto.
Qed.

Lemma overwrites_true g s ds : ~ In s ds -> (forall d, In d ds -> ~ parent_of g d s) ->
  overwrites g s ds true = true.
Proof.
  intros A B. unfold overwrites. apply memb_nIn in A. rewrite A. simpl. apply negb_true_iff.
  destruct (existsb _ ds) eqn:E; auto. apply existsb_exists in E. destruct E as (d & I & D).
  apply dhas_key, key_dget in D. destruct (B d I D).
Qed.

Lemma isdep_spec s ds b : (memb b ds && negb (Nat.eqb b s))%bool = true <-> In b ds /\ b <> s.
Proof.
  rewrite andb_true_iff, negb_true_iff, Nat.eqb_neq. 
  split; intros [A B]; split; auto; now apply memb_In.
Qed.

Lemma isdep_false s ds b : (memb b ds && negb (Nat.eqb b s))%bool = false <-> ~ (In b ds /\ b <> s).
Proof. rewrite <- isdep_spec. destruct (_ && _)%bool; intuition congruence. Qed.
