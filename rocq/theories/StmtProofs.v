(** Proofs about the records of statements. *)
Require Import List ZArith Bool Arith Lia String.
Import ListNotations.
Require Import Verif.Base Verif.Loops Verif.TimestampModel Verif.TimestampProofs Verif.SessionModel Verif.SliceModel Verif.SliceSpec
  Verif.SliceProofs Verif.SliceMore Verif.StmtModel Verif.StmtSpec.
Local Open Scope list_scope.
Local Open Scope nat_scope.

(** ** Edges *)
Definition pget (e : edges) (k y : nat) : Prop := exists l, dget e k = Some l /\ In y l.
Definition neat (e : edges) : Prop := dwf e /\ forall k l, dget e k = Some l -> l <> [].

Lemma pget_add e k l k' y : pget (edge_add e k l) k' y <-> pget e k' y \/ (k' = k /\ In y l).
Proof.
  unfold pget, edge_add. split.
  - intros (m & D & I). rewrite dget_dset in D. destruct (Nat.eqb_spec k' k) as [->|].
    + injection D as <-. apply In_supd in I. destruct I as [I|I]; [|now right].
      destruct (dget e k) eqn:G; [|destruct I]. left. eauto.
    + left. eauto.
  - intros [(m & D & I)|(-> & I)].
    + rewrite dget_dset. destruct (Nat.eqb_spec k' k) as [->|]; [|eauto].
      rewrite D. eexists. split; [reflexivity|]. apply In_supd. now left.
    + rewrite dget_dset_same. eexists. split; [reflexivity|]. apply In_supd. now right.
Qed.

Lemma pget_del e k k' y : dwf e -> pget (ddel e k) k' y <-> k' <> k /\ pget e k' y.
Proof.
  intros W. unfold pget. rewrite dget_ddel by exact W. destruct (Nat.eqb_spec k' k) as [->|N].
  - split; [intros (l & D & _); discriminate|]. intros (C & _). now destruct C.
  - split; [intros H; split; auto|]. now intros (_ & H).
Qed.

Lemma neat_nil : neat [].
Proof. split; [apply dwf_nil|]. intros k l D. discriminate. Qed.

Lemma neat_add e k l : l <> [] -> neat e -> neat (edge_add e k l).
Proof.
  intros NE (W & N). split; [now apply dwf_dset|]. intros k' m D. unfold edge_add in D. rewrite dget_dset in D.
  destruct (k' =? k); [|eauto]. injection D as <-. destruct l as [|y l]; [congruence|]. intros C.
  assert (I : In y []) by (rewrite <- C; apply In_supd; right; now left). destruct I.
Qed.

Lemma neat_del e k : neat e -> neat (ddel e k).
Proof.
  intros (W & N). split; [now apply dwf_ddel|]. intros k' m D. rewrite dget_ddel in D by exact W. destruct (k' =? k); [discriminate|eauto].
Qed.

Lemma neat_key e k : neat e -> In k (dkeys e) -> exists l, dget e k = Some l /\ l <> [].
Proof. intros (W & N) I. apply key_dget in I. destruct I as (l & D). exists l. eauto. Qed.

Lemma neat_some e k : neat e -> In k (dkeys e) <-> exists y, pget e k y.
Proof.
  intros N. split.
  - intros I. destruct (neat_key e k N I) as ([|y l] & D & NE); [congruence|]. exists y, (y :: l). split; auto. now left.
  - intros (y & l & D & _). now apply dget_Some_key in D.
Qed.

Lemma keys_del (e : edges) k l : dwf e -> dkeys e = k :: l -> dkeys (ddel e k) = l.
Proof.
  unfold dwf. intros W H. rewrite H in W. destruct e as [|(k', v) e]; [discriminate|]. cbn in H. injection H as -> H.
  cbn. now rewrite Nat.eqb_refl.
Qed.

Lemma ctx_eqb_eq a b : ctx_eqb a b = true <-> a = b.
Proof. destruct a, b; cbn; split; congruence. Qed.
Lemma ctx_eqb_refl a : ctx_eqb a a = true.
Proof. now destruct a. Qed.

(** ** What a state shows *)
Definition shape (s : stmt) := (node s, time s, prev s, override s).
Definition Sh (st : state) (a : nat) := option_map shape (nth_error (stmts st) a).
Definition Nd (st : state) (a : nat) : option nat := option_map (fun q => fst (fst (fst q))) (Sh st a).
Definition Tm (st : state) (a : nat) : option ts := option_map (fun q => snd (fst (fst q))) (Sh st a).
Definition E (st : state) (x : ctx) (a k y : nat) : Prop := exists s, nth_error (stmts st) a = Some s /\ pget (par s x) k y.
Definition F (st : state) (x : ctx) (a k y : nat) : Prop := exists s, nth_error (stmts st) a = Some s /\ pget (chi s x) k y.
Definition tidy (st : state) : Prop := forall a s x, nth_error (stmts st) a = Some s -> neat (par s x) /\ neat (chi s x).

Lemma Nd_of st a s : nth_error (stmts st) a = Some s -> Nd st a = Some (node s).
Proof. intros H. unfold Nd, Sh. now rewrite H. Qed.
Lemma Tm_of st a s : nth_error (stmts st) a = Some s -> Tm st a = Some (time s).
Proof. intros H. unfold Tm, Sh. now rewrite H. Qed.
Lemma Nd_inv st a n : Nd st a = Some n -> exists s, nth_error (stmts st) a = Some s /\ node s = n.
Proof. unfold Nd, Sh. destruct (nth_error (stmts st) a) as [s|]; cbn; intros [= <-]. eauto. Qed.
Lemma Tm_inv st a n : Tm st a = Some n -> exists s, nth_error (stmts st) a = Some s /\ time s = n.
Proof. unfold Tm, Sh. destruct (nth_error (stmts st) a) as [s|]; cbn; intros [= <-]. eauto. Qed.
Lemma E_of st x a s k y : nth_error (stmts st) a = Some s -> E st x a k y <-> pget (par s x) k y.
Proof. intros H. unfold E. split; [intros (s' & H' & P)|eauto]. congruence. Qed.
Lemma F_of st x a s k y : nth_error (stmts st) a = Some s -> F st x a k y <-> pget (chi s x) k y.
Proof. intros H. unfold F. split; [intros (s' & H' & P)|eauto]. congruence. Qed.

(** Same objects, same registers. *)
Definition kept (st st' : state) : Prop :=
  at_ts st' = at_ts st /\ by_id st' = by_id st /\ later st' = later st /\ forall a, Sh st' a = Sh st a.
Lemma kept_refl st : kept st st.
Proof. repeat split. Qed.
Lemma kept_trans a b c : kept a b -> kept b c -> kept a c.
Proof. intros (A & B & C & D) (A' & B' & C' & D'). split; [congruence|]. split; [congruence|]. split; congruence. Qed.
Lemma kept_Nd st st' a : kept st st' -> Nd st' a = Nd st a.
Proof. intros (_ & _ & _ & H). unfold Nd. now rewrite H. Qed.
Lemma kept_Tm st st' a : kept st st' -> Tm st' a = Tm st a.
Proof. intros (_ & _ & _ & H). unfold Tm. now rewrite H. Qed.

Lemma put_kept st u s s' : nth_error (stmts st) u = Some s -> shape s' = shape s -> kept st (fst (put u s' st)).
Proof.
  intros H S. repeat split; auto. intros a. unfold Sh. cbn. rewrite nth_error_lset.
  destruct (a =? u) eqn:A; auto. apply Nat.eqb_eq in A. subst a. rewrite H.
  destruct (u <? List.length (stmts st)) eqn:L; cbn; [now rewrite S|].
  apply Nat.ltb_ge in L. apply nth_error_None in L. congruence.
Qed.

Lemma put_nth st u s s' a : nth_error (stmts st) u = Some s ->
  nth_error (stmts (fst (put u s' st))) a = if a =? u then Some s' else nth_error (stmts st) a.
Proof.
  intros H. cbn. rewrite nth_error_lset. destruct (a =? u) eqn:A; auto. apply Nat.eqb_eq in A. subst a.
  destruct (u <? List.length (stmts st)) eqn:L; auto. apply Nat.ltb_ge in L. apply nth_error_None in L. congruence.
Qed.

Lemma get_ok st u s : nth_error (stmts st) u = Some s -> get u st = (st, Ok s).
Proof. intros H. unfold get, look. now rewrite H. Qed.

Lemma bind_ok {A B} (m : M A) (f : A -> M B) st st' a : m st = (st', Ok a) -> bind m f st = f a st'.
Proof. intros H. unfold bind. now rewrite H. Qed.

(** ** Effects *)
Lemma E_put_par st u s x e x' a k y : nth_error (stmts st) u = Some s ->
  E (fst (put u (set_par s x e) st)) x' a k y <-> (if (a =? u) && ctx_eqb x' x then pget e k y else E st x' a k y).
Proof.
  intros H. unfold E at 1. rewrite (put_nth st u s _ a H). destruct (Nat.eqb_spec a u) as [->|N]; [|reflexivity].
  cbn [andb]. split.
  - intros (s' & [= <-] & P). cbn in P. destruct (ctx_eqb x' x); auto. now apply (E_of st x' u s k y H).
  - intros P. eexists. split; [reflexivity|]. cbn. destruct (ctx_eqb x' x); auto. now apply (E_of st x' u s k y H).
Qed.
Lemma F_put_par st u s x e x' a k y : nth_error (stmts st) u = Some s ->
  F (fst (put u (set_par s x e) st)) x' a k y <-> F st x' a k y.
Proof.
  intros H. unfold F at 1. rewrite (put_nth st u s _ a H). destruct (Nat.eqb_spec a u) as [->|N]; [|reflexivity].
  split.
  - intros (s' & [= <-] & P). cbn in P. now apply (F_of st x' u s k y H).
  - intros P. eexists. split; [reflexivity|]. cbn. now apply (F_of st x' u s k y H).
Qed.
Lemma F_put_chi st u s x e x' a k y : nth_error (stmts st) u = Some s ->
  F (fst (put u (set_chi s x e) st)) x' a k y <-> (if (a =? u) && ctx_eqb x' x then pget e k y else F st x' a k y).
Proof.
  intros H. unfold F at 1. rewrite (put_nth st u s _ a H). destruct (Nat.eqb_spec a u) as [->|N]; [|reflexivity].
  cbn [andb]. split.
  - intros (s' & [= <-] & P). cbn in P. destruct (ctx_eqb x' x); auto. now apply (F_of st x' u s k y H).
  - intros P. eexists. split; [reflexivity|]. cbn. destruct (ctx_eqb x' x); auto. now apply (F_of st x' u s k y H).
Qed.
Lemma E_put_chi st u s x e x' a k y : nth_error (stmts st) u = Some s ->
  E (fst (put u (set_chi s x e) st)) x' a k y <-> E st x' a k y.
Proof.
  intros H. unfold E at 1. rewrite (put_nth st u s _ a H). destruct (Nat.eqb_spec a u) as [->|N]; [|reflexivity].
  split.
  - intros (s' & [= <-] & P). cbn in P. now apply (E_of st x' u s k y H).
  - intros P. eexists. split; [reflexivity|]. cbn. now apply (E_of st x' u s k y H).
Qed.
Lemma tidy_put_par st u s x e : tidy st -> nth_error (stmts st) u = Some s -> neat e -> tidy (fst (put u (set_par s x e) st)).
Proof.
  intros T H N a s' x' H'. rewrite (put_nth st u s _ a H) in H'. destruct (Nat.eqb_spec a u) as [->|NE]; [|eauto].
  injection H' as <-. cbn. destruct (T u s x' H) as (A & B). destruct (ctx_eqb x' x); auto.
Qed.
Lemma tidy_put_chi st u s x e : tidy st -> nth_error (stmts st) u = Some s -> neat e -> tidy (fst (put u (set_chi s x e) st)).
Proof.
  intros T H N a s' x' H'. rewrite (put_nth st u s _ a H) in H'. destruct (Nat.eqb_spec a u) as [->|NE]; [|eauto].
  injection H' as <-. cbn. destruct (T u s x' H) as (A & B). destruct (ctx_eqb x' x); auto.
Qed.

(** The three steps below as steps on one object each. *)
Definition on_par (u : nat) (x : ctx) (f : edges -> edges) (st : state) : state :=
  match nth_error (stmts st) u with Some s => fst (put u (set_par s x (f (par s x))) st) | None => st end.
Definition on_chi (u : nat) (x : ctx) (f : edges -> edges) (st : state) : state :=
  match nth_error (stmts st) u with Some s => fst (put u (set_chi s x (f (chi s x))) st) | None => st end.

Lemma on_par_nth u x f st a : nth_error (stmts (on_par u x f st)) a =
  if a =? u then option_map (fun s => set_par s x (f (par s x))) (nth_error (stmts st) u) else nth_error (stmts st) a.
Proof.
  unfold on_par. destruct (nth_error (stmts st) u) as [s|] eqn:H.
  - now rewrite (put_nth _ _ s).
  - destruct (Nat.eqb_spec a u) as [->|]; auto.
Qed.
Lemma on_chi_nth u x f st a : nth_error (stmts (on_chi u x f st)) a =
  if a =? u then option_map (fun s => set_chi s x (f (chi s x))) (nth_error (stmts st) u) else nth_error (stmts st) a.
Proof.
  unfold on_chi. destruct (nth_error (stmts st) u) as [s|] eqn:H.
  - now rewrite (put_nth _ _ s).
  - destruct (Nat.eqb_spec a u) as [->|]; auto.
Qed.
Lemma on_par_kept u x f st : kept st (on_par u x f st).
Proof. unfold on_par. destruct (nth_error (stmts st) u) as [s|] eqn:H; [|apply kept_refl]. now apply (put_kept _ _ s). Qed.
Lemma on_chi_kept u x f st : kept st (on_chi u x f st).
Proof. unfold on_chi. destruct (nth_error (stmts st) u) as [s|] eqn:H; [|apply kept_refl]. now apply (put_kept _ _ s). Qed.
Lemma on_par_tidy u x f st : (forall e, neat e -> neat (f e)) -> tidy st -> tidy (on_par u x f st).
Proof.
  intros N T. unfold on_par. destruct (nth_error (stmts st) u) as [s|] eqn:H; auto. apply tidy_put_par; auto. apply N.
  now apply (T u s x).
Qed.
Lemma on_chi_tidy u x f st : (forall e, neat e -> neat (f e)) -> tidy st -> tidy (on_chi u x f st).
Proof.
  intros N T. unfold on_chi. destruct (nth_error (stmts st) u) as [s|] eqn:H; auto. apply tidy_put_chi; auto. apply N.
  now apply (T u s x).
Qed.
Lemma on_par_F u x f st x' a k y : F (on_par u x f st) x' a k y <-> F st x' a k y.
Proof. unfold on_par. destruct (nth_error (stmts st) u) as [s|] eqn:H; [|reflexivity]. now apply F_put_par. Qed.
Lemma on_chi_E u x f st x' a k y : E (on_chi u x f st) x' a k y <-> E st x' a k y.
Proof. unfold on_chi. destruct (nth_error (stmts st) u) as [s|] eqn:H; [|reflexivity]. now apply E_put_chi. Qed.

Lemma on_par_add u x n l st x' a k y : nth_error (stmts st) u <> None ->
  E (on_par u x (fun e => edge_add e n l) st) x' a k y <-> E st x' a k y \/ (x' = x /\ a = u /\ k = n /\ In y l).
Proof.
  intros NN. unfold on_par. destruct (nth_error (stmts st) u) as [s|] eqn:H; [|congruence]. rewrite E_put_par by exact H.
  destruct (Nat.eqb_spec a u) as [->|N]; cbn [andb]; [|split; [auto|intros [P|(_ & C & _)]; auto; congruence]].
  destruct (ctx_eqb x' x) eqn:X.
  - apply ctx_eqb_eq in X. subst x'. rewrite pget_add, (E_of st x u s k y H). tauto.
  - split; [auto|]. intros [P|(-> & _)]; auto. now rewrite ctx_eqb_refl in X.
Qed.
Lemma on_chi_add u x n l st x' a k y : nth_error (stmts st) u <> None ->
  F (on_chi u x (fun e => edge_add e n l) st) x' a k y <-> F st x' a k y \/ (x' = x /\ a = u /\ k = n /\ In y l).
Proof.
  intros NN. unfold on_chi. destruct (nth_error (stmts st) u) as [s|] eqn:H; [|congruence]. rewrite F_put_chi by exact H.
  destruct (Nat.eqb_spec a u) as [->|N]; cbn [andb]; [|split; [auto|intros [P|(_ & C & _)]; auto; congruence]].
  destruct (ctx_eqb x' x) eqn:X.
  - apply ctx_eqb_eq in X. subst x'. rewrite pget_add, (F_of st x u s k y H). tauto.
  - split; [auto|]. intros [P|(-> & _)]; auto. now rewrite ctx_eqb_refl in X.
Qed.
Lemma on_par_del u x n st x' a k y : tidy st ->
  E (on_par u x (fun e => ddel e n) st) x' a k y <-> E st x' a k y /\ ~ (x' = x /\ a = u /\ k = n).
Proof.
  intros T. unfold on_par. destruct (nth_error (stmts st) u) as [s|] eqn:H.
  - rewrite E_put_par by exact H.
    destruct (Nat.eqb_spec a u) as [->|N]; cbn [andb]; [|split; [intros P; split; auto; now intros (_ & C & _)|tauto]].
    destruct (ctx_eqb x' x) eqn:X.
    + apply ctx_eqb_eq in X. subst x'. rewrite pget_del by (now apply (T u s x)). rewrite (E_of st x u s k y H). tauto.
    + split; [|tauto]. intros P. split; auto. intros (-> & _). now rewrite ctx_eqb_refl in X.
  - split; [|tauto]. intros P. split; auto. intros (-> & -> & ->). destruct P as (s & H' & _). congruence.
Qed.
Lemma on_chi_del u x n st x' a k y : tidy st ->
  F (on_chi u x (fun e => ddel e n) st) x' a k y <-> F st x' a k y /\ ~ (x' = x /\ a = u /\ k = n).
Proof.
  intros T. unfold on_chi. destruct (nth_error (stmts st) u) as [s|] eqn:H.
  - rewrite F_put_chi by exact H.
    destruct (Nat.eqb_spec a u) as [->|N]; cbn [andb]; [|split; [intros P; split; auto; now intros (_ & C & _)|tauto]].
    destruct (ctx_eqb x' x) eqn:X.
    + apply ctx_eqb_eq in X. subst x'. rewrite pget_del by (now apply (T u s x)). rewrite (F_of st x u s k y H). tauto.
    + split; [|tauto]. intros P. split; auto. intros (-> & _). now rewrite ctx_eqb_refl in X.
  - split; [|tauto]. intros P. split; auto. intros (-> & -> & ->). destruct P as (s & H' & _). congruence.
Qed.

Lemma add_run x u p syms st s q : nth_error (stmts st) u = Some s -> nth_error (stmts st) p = Some q -> syms <> [] ->
  ~ In (node q) (dkeys (chi s x)) -> node q <> node s ->
  add_parent_edges x u p syms st =
  (on_chi p x (fun e => edge_add e (node s) syms) (on_par u x (fun e => edge_add e (node q) syms) st), Ok tt).
Proof.
  intros U P NE NI ND. unfold add_parent_edges. destruct syms as [|y0 l0]; [congruence|]. remember (y0 :: l0) as syms.
  replace (is_nil syms) with false by (now rewrite Heqsyms). clear NE Heqsyms.
  rewrite (bind_ok _ _ _ _ _ (get_ok _ _ _ U)), (bind_ok _ _ _ _ _ (get_ok _ _ _ P)).
  destruct (memb (node q) (dkeys (chi s x))) eqn:MB; [apply memb_In in MB; contradiction|].
  destruct (node q =? node s) eqn:EQ; [apply Nat.eqb_eq in EQ; contradiction|].
  assert (NU : p <> u) by (intros ->; congruence).
  assert (ON : on_par u x (fun e => edge_add e (node q) syms) st = fst (put u (set_par s x (edge_add (par s x) (node q) syms)) st)).
  { unfold on_par. now rewrite U. }
  unfold bind at 1. unfold put at 1. unfold put in ON. cbn [fst] in ON. rewrite <- ON.
  assert (P' : nth_error (stmts (on_par u x (fun e => edge_add e (node q) syms) st)) p = Some q).
  { rewrite on_par_nth. destruct (Nat.eqb_spec p u); [congruence|exact P]. }
  rewrite (bind_ok _ _ _ _ _ (get_ok _ _ _ P')). unfold on_chi. rewrite P'. reflexivity.
Qed.

Lemma bind_put {B} u s' (f : unit -> M B) st : bind (put u s') f st = f tt (fst (put u s' st)).
Proof. reflexivity. Qed.
Lemma on_par_put u x f st s : nth_error (stmts st) u = Some s -> fst (put u (set_par s x (f (par s x))) st) = on_par u x f st.
Proof. intros H. unfold on_par. now rewrite H. Qed.
Lemma on_chi_put u x f st s : nth_error (stmts st) u = Some s -> fst (put u (set_chi s x (f (chi s x))) st) = on_chi u x f st.
Proof. intros H. unfold on_chi. now rewrite H. Qed.

Lemma pop_ok {B} e k l (f : list nat * edges -> M B) st : dget e k = Some l -> bind (pop_edge e k) f st = f (l, ddel e k) st.
Proof. intros H. unfold pop_edge. now rewrite H. Qed.

Lemma swap_par_run x u old new syms l st s o n : nth_error (stmts st) u = Some s -> nth_error (stmts st) old = Some o ->
  nth_error (stmts st) new = Some n -> u <> old -> u <> new -> old <> new ->
  dget (par s x) (node o) = Some syms -> dget (chi o x) (node s) = Some l ->
  replace_parent_edges x u old new st =
  (on_chi new x (fun e => edge_add e (node s) syms) (on_par u x (fun e => edge_add e (node n) syms)
    (on_chi old x (fun e => ddel e (node s)) (on_par u x (fun e => ddel e (node o)) st))), Ok tt).
Proof.
  intros U O N UO UN ON D1 D2. unfold replace_parent_edges.
  rewrite (bind_ok _ _ _ _ _ (get_ok _ _ _ U)), (bind_ok _ _ _ _ _ (get_ok _ _ _ O)), (pop_ok _ _ _ _ _ D1), bind_put.
  rewrite (on_par_put u x (fun e => ddel e (node o)) st s U).
  set (st1 := on_par u x (fun e => ddel e (node o)) st).
  assert (O1 : nth_error (stmts st1) old = Some o) by (unfold st1; rewrite on_par_nth; destruct (Nat.eqb_spec old u); congruence).
  assert (N1 : nth_error (stmts st1) new = Some n) by (unfold st1; rewrite on_par_nth; destruct (Nat.eqb_spec new u); congruence).
  assert (U1 : nth_error (stmts st1) u = Some (set_par s x (ddel (par s x) (node o)))).
  { unfold st1. rewrite on_par_nth, Nat.eqb_refl, U. reflexivity. }
  rewrite (bind_ok _ _ _ _ _ (get_ok _ _ _ O1)), (pop_ok _ _ _ _ _ D2), bind_put.
  rewrite (on_chi_put old x (fun e => ddel e (node s)) st1 o O1).
  set (st2 := on_chi old x (fun e => ddel e (node s)) st1).
  assert (N2 : nth_error (stmts st2) new = Some n) by (unfold st2; rewrite on_chi_nth; destruct (Nat.eqb_spec new old); congruence).
  assert (U2 : nth_error (stmts st2) u = Some (set_par s x (ddel (par s x) (node o)))).
  { unfold st2. rewrite on_chi_nth. destruct (Nat.eqb_spec u old); [congruence|exact U1]. }
  rewrite (bind_ok _ _ _ _ _ (get_ok _ _ _ U2)), (bind_ok _ _ _ _ _ (get_ok _ _ _ N2)), bind_put.
  rewrite (on_par_put u x (fun e => edge_add e (node n) syms) st2 _ U2).
  set (st3 := on_par u x (fun e => edge_add e (node n) syms) st2).
  assert (N3 : nth_error (stmts st3) new = Some n) by (unfold st3; rewrite on_par_nth; destruct (Nat.eqb_spec new u); congruence).
  rewrite (bind_ok _ _ _ _ _ (get_ok _ _ _ N3)).
  rewrite <- (on_chi_put new x (fun e => edge_add e (node s) syms) st3 _ N3). reflexivity.
Qed.

Lemma swap_chi_run x u old new syms l st s o n : nth_error (stmts st) u = Some s -> nth_error (stmts st) old = Some o ->
  nth_error (stmts st) new = Some n -> u <> old -> u <> new -> old <> new ->
  dget (chi s x) (node o) = Some syms -> dget (par o x) (node s) = Some l ->
  replace_child_edges x u old new st =
  (on_par new x (fun e => edge_add e (node s) syms) (on_chi u x (fun e => edge_add e (node n) syms)
    (on_par old x (fun e => ddel e (node s)) (on_chi u x (fun e => ddel e (node o)) st))), Ok tt).
Proof.
  intros U O N UO UN ON D1 D2. unfold replace_child_edges.
  rewrite (bind_ok _ _ _ _ _ (get_ok _ _ _ U)), (bind_ok _ _ _ _ _ (get_ok _ _ _ O)), (pop_ok _ _ _ _ _ D1), bind_put.
  rewrite (on_chi_put u x (fun e => ddel e (node o)) st s U).
  set (st1 := on_chi u x (fun e => ddel e (node o)) st).
  assert (O1 : nth_error (stmts st1) old = Some o) by (unfold st1; rewrite on_chi_nth; destruct (Nat.eqb_spec old u); congruence).
  assert (N1 : nth_error (stmts st1) new = Some n) by (unfold st1; rewrite on_chi_nth; destruct (Nat.eqb_spec new u); congruence).
  assert (U1 : nth_error (stmts st1) u = Some (set_chi s x (ddel (chi s x) (node o)))).
  { unfold st1. rewrite on_chi_nth, Nat.eqb_refl, U. reflexivity. }
  rewrite (bind_ok _ _ _ _ _ (get_ok _ _ _ O1)), (pop_ok _ _ _ _ _ D2), bind_put.
  rewrite (on_par_put old x (fun e => ddel e (node s)) st1 o O1).
  set (st2 := on_par old x (fun e => ddel e (node s)) st1).
  assert (N2 : nth_error (stmts st2) new = Some n) by (unfold st2; rewrite on_par_nth; destruct (Nat.eqb_spec new old); congruence).
  assert (U2 : nth_error (stmts st2) u = Some (set_chi s x (ddel (chi s x) (node o)))).
  { unfold st2. rewrite on_par_nth. destruct (Nat.eqb_spec u old); [congruence|exact U1]. }
  rewrite (bind_ok _ _ _ _ _ (get_ok _ _ _ U2)), (bind_ok _ _ _ _ _ (get_ok _ _ _ N2)), bind_put.
  rewrite (on_chi_put u x (fun e => edge_add e (node n) syms) st2 _ U2).
  set (st3 := on_chi u x (fun e => edge_add e (node n) syms) st2).
  assert (N3 : nth_error (stmts st3) new = Some n) by (unfold st3; rewrite on_chi_nth; destruct (Nat.eqb_spec new u); congruence).
  rewrite (bind_ok _ _ _ _ _ (get_ok _ _ _ N3)).
  rewrite <- (on_par_put new x (fun e => edge_add e (node s) syms) st3 _ N3). reflexivity.
Qed.

(** ** The graph among the statements in [L] *)
Definition dep := (ctx * ts * ts * nat)%type.
Record graph (L : nat -> Prop) (st : state) (D : list dep) : Prop := {
  g_ex : forall a, L a -> exists s, nth_error (stmts st) a = Some s;
  g_node : forall a b, L a -> L b -> Nd st a = Nd st b -> a = b;
  g_tidy : tidy st;
  g_sym : forall x a b m n y, L a -> L b -> Nd st a = Some m -> Nd st b = Some n -> E st x a n y <-> F st x b m y;
  g_par : forall x a k y, L a -> E st x a k y -> exists b, L b /\ Nd st b = Some k /\ Tm st b <> Tm st a;
  g_chi : forall x a k y, L a -> F st x a k y -> exists b, L b /\ Nd st b = Some k /\ Tm st b <> Tm st a;
  g_deps : forall x c d y, In (x, c, d, y) D <->
    exists a b n, L a /\ L b /\ Tm st a = Some c /\ Tm st b = Some d /\ Nd st b = Some n /\ E st x a n y }.

(** A new dependency. *)
Lemma graph_add L st D x u p syms s q : graph L st D -> L u -> L p -> nth_error (stmts st) u = Some s ->
  nth_error (stmts st) p = Some q -> syms <> [] -> time s <> time q ->
  ~ In (node q) (dkeys (chi s x)) ->
  exists st', add_parent_edges x u p syms st = (st', Ok tt) /\ kept st st' /\
    forall D', (forall d, In d D' <-> In d D \/ exists y, In y syms /\ d = (x, time s, time q, y)) -> graph L st' D'.
Proof.
  intros G LU LP U P NE TD NI.
  assert (UP : u <> p) by (intros ->; congruence).
  assert (ND : node q <> node s).
  { intros C. apply UP. apply (g_node _ _ _ G); auto. rewrite (Nd_of _ _ _ U), (Nd_of _ _ _ P). now rewrite C. }
  eexists. split; [exact (add_run x u p syms st s q U P NE NI ND)|].
  set (st1 := on_par u x (fun e => edge_add e (node q) syms) st). set (st2 := on_chi p x (fun e => edge_add e (node s) syms) st1).
  assert (K : kept st st2) by (eapply kept_trans; [apply on_par_kept|apply on_chi_kept]). split; [exact K|]. intros D' HD.
  assert (EE : forall x' a k y, E st2 x' a k y <-> E st x' a k y \/ (x' = x /\ a = u /\ k = node q /\ In y syms)).
  { intros. unfold st2. rewrite on_chi_E. unfold st1. apply on_par_add. congruence. }
  assert (FF : forall x' a k y, F st2 x' a k y <-> F st x' a k y \/ (x' = x /\ a = p /\ k = node s /\ In y syms)).
  { intros. unfold st2. rewrite on_chi_add; [|unfold st1; rewrite on_par_nth; destruct (Nat.eqb_spec p u); congruence].
    unfold st1. now rewrite on_par_F. }
  assert (T1 : tidy st2).
  { apply on_chi_tidy; [intros; now apply neat_add|]. apply on_par_tidy; [intros; now apply neat_add|]. apply (g_tidy _ _ _ G). }
  constructor; auto.
  - intros a A. destruct (g_ex _ _ _ G a A) as (s' & H). destruct K as (_ & _ & _ & K). specialize (K a). unfold Sh in K.
    rewrite H in K. destruct (nth_error (stmts st2) a); [eauto|discriminate].
  - intros a b A B H. rewrite !(kept_Nd _ _ _ K) in H. now apply (g_node _ _ _ G).
  - intros x' a b m n y A B M N. rewrite (kept_Nd _ _ _ K) in M. rewrite (kept_Nd _ _ _ K) in N. rewrite EE, FF.
    rewrite (g_sym _ _ _ G x' a b m n y A B M N). split; (intros [H|(-> & -> & -> & I)]; [now left|right]).
    + repeat split; auto; [|rewrite (Nd_of _ _ _ U) in M; congruence]. apply (g_node _ _ _ G); auto.
      rewrite (Nd_of _ _ _ P). exact N.
    + repeat split; auto; [|rewrite (Nd_of _ _ _ P) in N; congruence]. apply (g_node _ _ _ G); auto.
      rewrite (Nd_of _ _ _ U). exact M.
  - intros x' a k y A H. apply EE in H. destruct H as [H|(-> & -> & -> & _)].
    + destruct (g_par _ _ _ G x' a k y A H) as (b & B & N & TT). exists b. now rewrite (kept_Nd _ _ _ K), !(kept_Tm _ _ _ K).
    + exists p. rewrite (kept_Nd _ _ _ K), !(kept_Tm _ _ _ K), (Nd_of _ _ _ P), (Tm_of _ _ _ P), (Tm_of _ _ _ U).
      repeat split; auto. congruence.
  - intros x' a k y A H. apply FF in H. destruct H as [H|(-> & -> & -> & _)].
    + destruct (g_chi _ _ _ G x' a k y A H) as (b & B & N & TT). exists b. now rewrite (kept_Nd _ _ _ K), !(kept_Tm _ _ _ K).
    + exists u. rewrite (kept_Nd _ _ _ K), !(kept_Tm _ _ _ K), (Nd_of _ _ _ U), (Tm_of _ _ _ P), (Tm_of _ _ _ U).
      repeat split; auto. congruence.
  - intros x' c d y. rewrite HD, (g_deps _ _ _ G x' c d y). split.
    + intros [(a & b & n & A & B & TA & TB & N & H)|(y' & I & [= -> -> -> ->])].
      * exists a, b, n. rewrite (kept_Nd _ _ _ K), !(kept_Tm _ _ _ K), EE. tauto.
      * exists u, p, (node q). rewrite (kept_Nd _ _ _ K), !(kept_Tm _ _ _ K), EE, (Nd_of _ _ _ P), (Tm_of _ _ _ P), (Tm_of _ _ _ U).
        repeat split; auto.
    + intros (a & b & n & A & B & TA & TB & N & H). rewrite (kept_Nd _ _ _ K) in N. rewrite (kept_Tm _ _ _ K) in TA. rewrite (kept_Tm _ _ _ K) in TB.
      apply EE in H. destruct H as [H|(-> & -> & -> & I)]; [left; exists a, b, n; tauto|]. right. exists y. split; auto.
      assert (b = p) as -> by (apply (g_node _ _ _ G); auto; now rewrite (Nd_of _ _ _ P)).
      rewrite (Tm_of _ _ _ U) in TA. rewrite (Tm_of _ _ _ P) in TB. congruence.
Qed.

Lemma E_dget st x a s k y : tidy st -> nth_error (stmts st) a = Some s -> E st x a k y ->
  exists l, dget (par s x) k = Some l /\ l <> [] /\ forall z, In z l <-> E st x a k z.
Proof.
  intros T H P. apply (E_of st x a s k y H) in P. destruct P as (l & D & I). exists l. split; auto. split; [intros ->; destruct I|].
  intros z. rewrite (E_of st x a s k z H). split; [intros Z; exists l; auto|]. intros (l' & D' & Z). congruence.
Qed.
Lemma F_dget st x a s k y : tidy st -> nth_error (stmts st) a = Some s -> F st x a k y ->
  exists l, dget (chi s x) k = Some l /\ l <> [] /\ forall z, In z l <-> F st x a k z.
Proof.
  intros T H P. apply (F_of st x a s k y H) in P. destruct P as (l & D & I). exists l. split; auto. split; [intros ->; destruct I|].
  intros z. rewrite (F_of st x a s k z H). split; [intros Z; exists l; auto|]. intros (l' & D' & Z). congruence.
Qed.

Lemma kept_ex st st' a s : kept st st' -> nth_error (stmts st) a = Some s -> exists s', nth_error (stmts st') a = Some s'.
Proof.
  intros (_ & _ & _ & K) H. specialize (K a). unfold Sh in K. rewrite H in K.
  destruct (nth_error (stmts st') a); [eauto|discriminate].
Qed.

Lemma graph_swap_par L st D x u old new s o n y0 : graph L st D -> L u -> L old -> L new ->
  nth_error (stmts st) u = Some s -> nth_error (stmts st) old = Some o -> nth_error (stmts st) new = Some n ->
  old <> new -> time o = time n -> E st x u (node o) y0 ->
  exists st', replace_parent_edges x u old new st = (st', Ok tt) /\ kept st st' /\ graph L st' D /\
    nth_error (stmts st') old = Some (set_chi o x (ddel (chi o x) (node s))).
Proof.
  intros G LU LO LN U O N ON TT H0.
  assert (TU : Tm st old <> Tm st u).
  { destruct (g_par _ _ _ G x u _ _ LU H0) as (b & B & NB & T). replace old with b; auto. apply (g_node _ _ _ G); auto.
    now rewrite (Nd_of _ _ _ O). }
  assert (UO : u <> old) by (intros ->; congruence).
  assert (UN : u <> new).
  { intros ->. apply TU. rewrite (Tm_of _ _ _ O), (Tm_of _ _ _ N). now rewrite TT. }
  assert (NDo : forall b, L b -> Nd st b = Some (node o) -> b = old).
  { intros b B H. apply (g_node _ _ _ G); auto. now rewrite (Nd_of _ _ _ O). }
  assert (NDn : forall b, L b -> Nd st b = Some (node n) -> b = new).
  { intros b B H. apply (g_node _ _ _ G); auto. now rewrite (Nd_of _ _ _ N). }
  assert (NDu : forall b, L b -> Nd st b = Some (node s) -> b = u).
  { intros b B H. apply (g_node _ _ _ G); auto. now rewrite (Nd_of _ _ _ U). }
  assert (no : node o <> node n).
  { intros C. apply ON. apply NDn; auto. rewrite (Nd_of _ _ _ O). now rewrite C. }
  pose proof (g_tidy _ _ _ G) as T.
  destruct (E_dget st x u s _ _ T U H0) as (syms & D1 & NE & SY).
  assert (F0 : F st x old (node s) y0).
  { apply (g_sym _ _ _ G x u old (node s) (node o) y0); auto; [now apply Nd_of|now apply Nd_of]. }
  destruct (F_dget st x old o _ _ T O F0) as (l2 & D2 & _).
  eexists. split; [exact (swap_par_run x u old new syms l2 st s o n U O N UO UN ON D1 D2)|].
  set (st1 := on_par u x (fun e => ddel e (node o)) st). set (st2 := on_chi old x (fun e => ddel e (node s)) st1).
  set (st3 := on_par u x (fun e => edge_add e (node n) syms) st2). set (st4 := on_chi new x (fun e => edge_add e (node s) syms) st3).
  assert (T1 : tidy st1) by (apply on_par_tidy; auto; intros; now apply neat_del).
  assert (T2 : tidy st2) by (apply on_chi_tidy; auto; intros; now apply neat_del).
  assert (T3 : tidy st3) by (apply on_par_tidy; auto; intros; now apply neat_add).
  assert (T4 : tidy st4) by (apply on_chi_tidy; auto; intros; now apply neat_add).
  assert (K : kept st st4).
  { eapply kept_trans; [apply on_par_kept|]. eapply kept_trans; [apply on_chi_kept|].
    eapply kept_trans; [apply on_par_kept|apply on_chi_kept]. }
  assert (EE : forall x' a k y, E st4 x' a k y <->
    (E st x' a k y /\ ~ (x' = x /\ a = u /\ k = node o)) \/ (x' = x /\ a = u /\ k = node n /\ E st x u (node o) y)).
  { intros. unfold st4. rewrite on_chi_E. unfold st3. rewrite on_par_add.
    - unfold st2. rewrite on_chi_E. unfold st1. rewrite on_par_del by exact T. rewrite SY. reflexivity.
    - unfold st2, st1. rewrite on_chi_nth. destruct (Nat.eqb_spec u old); [congruence|].
      rewrite on_par_nth, Nat.eqb_refl, U. discriminate. }
  assert (FF : forall x' a k y, F st4 x' a k y <->
    (F st x' a k y /\ ~ (x' = x /\ a = old /\ k = node s)) \/ (x' = x /\ a = new /\ k = node s /\ E st x u (node o) y)).
  { intros. unfold st4. rewrite on_chi_add.
    - unfold st3. rewrite on_par_F. unfold st2. rewrite on_chi_del by exact T1. unfold st1. rewrite on_par_F, SY. reflexivity.
    - unfold st3. rewrite on_par_nth. destruct (Nat.eqb_spec new u); [congruence|]. unfold st2. rewrite on_chi_nth.
      destruct (Nat.eqb_spec new old); [congruence|]. unfold st1. rewrite on_par_nth. destruct (Nat.eqb_spec new u); congruence. }
  split; [exact K|]. split.
  - constructor; auto.
    + intros a A. destruct (g_ex _ _ _ G a A) as (s' & H). eapply kept_ex; eauto.
    + intros a b A B H. rewrite !(kept_Nd _ _ _ K) in H. now apply (g_node _ _ _ G).
    + intros x' a b m k y A B M NB. rewrite (kept_Nd _ _ _ K) in M. rewrite (kept_Nd _ _ _ K) in NB. rewrite EE, FF.
      rewrite (g_sym _ _ _ G x' a b m k y A B M NB). split.
      * intros [(H & C)|(-> & -> & -> & H)].
        -- left. split; auto. intros (-> & -> & ->). apply C. split; auto. split; [now apply NDu|].
           rewrite (Nd_of _ _ _ O) in NB. congruence.
        -- right. repeat split; auto. rewrite (Nd_of _ _ _ U) in M. congruence.
      * intros [(H & C)|(-> & -> & -> & H)].
        -- left. split; auto. intros (-> & -> & ->). apply C. split; auto. split; [now apply NDo|].
           rewrite (Nd_of _ _ _ U) in M. congruence.
        -- right. repeat split; auto. rewrite (Nd_of _ _ _ N) in NB. congruence.
    + intros x' a k y A H. apply EE in H. destruct H as [(H & _)|(-> & -> & -> & _)].
      * destruct (g_par _ _ _ G x' a k y A H) as (b & B & NB & TB). exists b. now rewrite (kept_Nd _ _ _ K), !(kept_Tm _ _ _ K).
      * exists new. rewrite (kept_Nd _ _ _ K), !(kept_Tm _ _ _ K), (Nd_of _ _ _ N), (Tm_of _ _ _ N), <- TT, <- (Tm_of _ _ _ O).
        repeat split; auto.
    + intros x' a k y A H. apply FF in H. destruct H as [(H & _)|(-> & -> & -> & _)].
      * destruct (g_chi _ _ _ G x' a k y A H) as (b & B & NB & TB). exists b. now rewrite (kept_Nd _ _ _ K), !(kept_Tm _ _ _ K).
      * exists u. rewrite (kept_Nd _ _ _ K), !(kept_Tm _ _ _ K), (Nd_of _ _ _ U), (Tm_of _ _ _ N), <- TT, <- (Tm_of _ _ _ O).
        repeat split; auto.
    + intros x' c d y. rewrite (g_deps _ _ _ G x' c d y). split.
      * intros (a & b & k & A & B & TA & TB & NB & H).
        assert (DEC : (x' = x /\ a = u /\ k = node o) \/ ~ (x' = x /\ a = u /\ k = node o)).
        { destruct (ctx_eqb x' x) eqn:X; [apply ctx_eqb_eq in X|right; intros (-> & _); now rewrite ctx_eqb_refl in X].
          destruct (Nat.eq_dec a u); [|right; tauto]. destruct (Nat.eq_dec k (node o)); [left|right]; tauto. }
        destruct DEC as [(-> & -> & ->)|C].
        -- exists u, new, (node n). rewrite (kept_Nd _ _ _ K), !(kept_Tm _ _ _ K), EE, (Nd_of _ _ _ N), (Tm_of _ _ _ N), <- TT.
           rewrite (NDo b B NB), (Tm_of _ _ _ O) in TB. repeat split; auto.
        -- exists a, b, k. rewrite (kept_Nd _ _ _ K), !(kept_Tm _ _ _ K), EE. tauto.
      * intros (a & b & k & A & B & TA & TB & NB & H). rewrite (kept_Nd _ _ _ K) in NB. rewrite (kept_Tm _ _ _ K) in TA.
        rewrite (kept_Tm _ _ _ K) in TB. apply EE in H. destruct H as [(H & _)|(-> & -> & -> & H)]; [exists a, b, k; tauto|].
        exists u, old, (node o). rewrite (Nd_of _ _ _ O), (Tm_of _ _ _ O), TT. rewrite (NDn b B NB), (Tm_of _ _ _ N) in TB.
        repeat split; auto.
  - unfold st4. rewrite on_chi_nth. destruct (Nat.eqb_spec old new); [congruence|]. unfold st3. rewrite on_par_nth.
    destruct (Nat.eqb_spec old u); [congruence|]. unfold st2. rewrite on_chi_nth, Nat.eqb_refl. unfold st1. rewrite on_par_nth.
    destruct (Nat.eqb_spec old u); [congruence|]. now rewrite O.
Qed.

Lemma graph_swap_chi L st D x u old new s o n y0 : graph L st D -> L u -> L old -> L new ->
  nth_error (stmts st) u = Some s -> nth_error (stmts st) old = Some o -> nth_error (stmts st) new = Some n ->
  old <> new -> time o = time n -> F st x u (node o) y0 ->
  exists st', replace_child_edges x u old new st = (st', Ok tt) /\ kept st st' /\ graph L st' D /\
    nth_error (stmts st') old = Some (set_par o x (ddel (par o x) (node s))).
Proof.
  intros G LU LO LN U O N ON TT H0.
  assert (TU : Tm st old <> Tm st u).
  { destruct (g_chi _ _ _ G x u _ _ LU H0) as (b & B & NB & T). replace old with b; auto. apply (g_node _ _ _ G); auto.
    now rewrite (Nd_of _ _ _ O). }
  assert (UO : u <> old) by (intros ->; congruence).
  assert (UN : u <> new).
  { intros ->. apply TU. rewrite (Tm_of _ _ _ O), (Tm_of _ _ _ N). now rewrite TT. }
  assert (NDo : forall b, L b -> Nd st b = Some (node o) -> b = old).
  { intros b B H. apply (g_node _ _ _ G); auto. now rewrite (Nd_of _ _ _ O). }
  assert (NDn : forall b, L b -> Nd st b = Some (node n) -> b = new).
  { intros b B H. apply (g_node _ _ _ G); auto. now rewrite (Nd_of _ _ _ N). }
  assert (NDu : forall b, L b -> Nd st b = Some (node s) -> b = u).
  { intros b B H. apply (g_node _ _ _ G); auto. now rewrite (Nd_of _ _ _ U). }
  assert (no : node o <> node n).
  { intros C. apply ON. apply NDn; auto. rewrite (Nd_of _ _ _ O). now rewrite C. }
  pose proof (g_tidy _ _ _ G) as T.
  destruct (F_dget st x u s _ _ T U H0) as (syms & D1 & NE & SY).
  assert (F0 : E st x old (node s) y0).
  { apply (g_sym _ _ _ G x old u (node o) (node s) y0); auto; [now apply Nd_of|now apply Nd_of]. }
  destruct (E_dget st x old o _ _ T O F0) as (l2 & D2 & _).
  eexists. split; [exact (swap_chi_run x u old new syms l2 st s o n U O N UO UN ON D1 D2)|].
  set (st1 := on_chi u x (fun e => ddel e (node o)) st). set (st2 := on_par old x (fun e => ddel e (node s)) st1).
  set (st3 := on_chi u x (fun e => edge_add e (node n) syms) st2). set (st4 := on_par new x (fun e => edge_add e (node s) syms) st3).
  assert (T1 : tidy st1) by (apply on_chi_tidy; auto; intros; now apply neat_del).
  assert (T2 : tidy st2) by (apply on_par_tidy; auto; intros; now apply neat_del).
  assert (T3 : tidy st3) by (apply on_chi_tidy; auto; intros; now apply neat_add).
  assert (T4 : tidy st4) by (apply on_par_tidy; auto; intros; now apply neat_add).
  assert (K : kept st st4).
  { eapply kept_trans; [apply on_chi_kept|]. eapply kept_trans; [apply on_par_kept|].
    eapply kept_trans; [apply on_chi_kept|apply on_par_kept]. }
  assert (FF : forall x' a k y, F st4 x' a k y <->
    (F st x' a k y /\ ~ (x' = x /\ a = u /\ k = node o)) \/ (x' = x /\ a = u /\ k = node n /\ F st x u (node o) y)).
  { intros. unfold st4. rewrite on_par_F. unfold st3. rewrite on_chi_add.
    - unfold st2. rewrite on_par_F. unfold st1. rewrite on_chi_del by exact T. rewrite SY. reflexivity.
    - unfold st2, st1. rewrite on_par_nth. destruct (Nat.eqb_spec u old); [congruence|].
      rewrite on_chi_nth, Nat.eqb_refl, U. discriminate. }
  assert (EE : forall x' a k y, E st4 x' a k y <->
    (E st x' a k y /\ ~ (x' = x /\ a = old /\ k = node s)) \/ (x' = x /\ a = new /\ k = node s /\ F st x u (node o) y)).
  { intros. unfold st4. rewrite on_par_add.
    - unfold st3. rewrite on_chi_E. unfold st2. rewrite on_par_del by exact T1. unfold st1. rewrite on_chi_E, SY. reflexivity.
    - unfold st3. rewrite on_chi_nth. destruct (Nat.eqb_spec new u); [congruence|]. unfold st2. rewrite on_par_nth.
      destruct (Nat.eqb_spec new old); [congruence|]. unfold st1. rewrite on_chi_nth. destruct (Nat.eqb_spec new u); congruence. }
  assert (SW : forall y, F st x u (node o) y <-> E st x old (node s) y).
  { intros y. symmetry. apply (g_sym _ _ _ G); auto; now apply Nd_of. }
  split; [exact K|]. split.
  - constructor; auto.
    + intros a A. destruct (g_ex _ _ _ G a A) as (s' & H). eapply kept_ex; eauto.
    + intros a b A B H. rewrite !(kept_Nd _ _ _ K) in H. now apply (g_node _ _ _ G).
    + intros x' a b m k y A B M NB. rewrite (kept_Nd _ _ _ K) in M. rewrite (kept_Nd _ _ _ K) in NB. rewrite EE, FF.
      rewrite (g_sym _ _ _ G x' a b m k y A B M NB). split.
      * intros [(H & C)|(-> & -> & -> & H)].
        -- left. split; auto. intros (-> & -> & ->). apply C. split; auto. split; [now apply NDo|].
           rewrite (Nd_of _ _ _ U) in NB. congruence.
        -- right. repeat split; auto. rewrite (Nd_of _ _ _ N) in M. congruence.
      * intros [(H & C)|(-> & -> & -> & H)].
        -- left. split; auto. intros (-> & -> & ->). apply C. split; auto. split; [now apply NDu|].
           rewrite (Nd_of _ _ _ O) in M. congruence.
        -- right. repeat split; auto. rewrite (Nd_of _ _ _ U) in NB. congruence.
    + intros x' a k y A H. apply EE in H. destruct H as [(H & _)|(-> & -> & -> & _)].
      * destruct (g_par _ _ _ G x' a k y A H) as (b & B & NB & TB). exists b. now rewrite (kept_Nd _ _ _ K), !(kept_Tm _ _ _ K).
      * exists u. rewrite (kept_Nd _ _ _ K), !(kept_Tm _ _ _ K), (Nd_of _ _ _ U), (Tm_of _ _ _ N), <- TT, <- (Tm_of _ _ _ O).
        repeat split; auto.
    + intros x' a k y A H. apply FF in H. destruct H as [(H & _)|(-> & -> & -> & _)].
      * destruct (g_chi _ _ _ G x' a k y A H) as (b & B & NB & TB). exists b. now rewrite (kept_Nd _ _ _ K), !(kept_Tm _ _ _ K).
      * exists new. rewrite (kept_Nd _ _ _ K), !(kept_Tm _ _ _ K), (Nd_of _ _ _ N), (Tm_of _ _ _ N), <- TT, <- (Tm_of _ _ _ O).
        repeat split; auto.
    + intros x' c d y. rewrite (g_deps _ _ _ G x' c d y). split.
      * intros (a & b & k & A & B & TA & TB & NB & H).
        assert (DEC : (x' = x /\ a = old /\ k = node s) \/ ~ (x' = x /\ a = old /\ k = node s)).
        { destruct (ctx_eqb x' x) eqn:X; [apply ctx_eqb_eq in X|right; intros (-> & _); now rewrite ctx_eqb_refl in X].
          destruct (Nat.eq_dec a old); [|right; tauto]. destruct (Nat.eq_dec k (node s)); [left|right]; tauto. }
        destruct DEC as [(-> & -> & ->)|C].
        -- exists new, b, (node s). rewrite (kept_Nd _ _ _ K), !(kept_Tm _ _ _ K), EE, (Tm_of _ _ _ N), <- TT.
           rewrite (Tm_of _ _ _ O) in TA. repeat split; auto. right. rewrite SW. auto.
        -- exists a, b, k. rewrite (kept_Nd _ _ _ K), !(kept_Tm _ _ _ K), EE. tauto.
      * intros (a & b & k & A & B & TA & TB & NB & H). rewrite (kept_Nd _ _ _ K) in NB. rewrite (kept_Tm _ _ _ K) in TA.
        rewrite (kept_Tm _ _ _ K) in TB. apply EE in H. destruct H as [(H & _)|(-> & -> & -> & H)]; [exists a, b, k; tauto|].
        exists old, b, (node s). rewrite (Tm_of _ _ _ O), TT. rewrite (Tm_of _ _ _ N) in TA. apply SW in H.
        repeat split; auto.
  - unfold st4. rewrite on_par_nth. destruct (Nat.eqb_spec old new); [congruence|]. unfold st3. rewrite on_chi_nth.
    destruct (Nat.eqb_spec old u); [congruence|]. unfold st2. rewrite on_par_nth, Nat.eqb_refl. unfold st1. rewrite on_chi_nth.
    destruct (Nat.eqb_spec old u); [congruence|]. now rewrite O.
Qed.

(** ** A statement takes the place of another *)
Lemma each_inv {A} (P : list A -> state -> Prop) (f : A -> M unit) :
  (forall a l st, P (a :: l) st -> exists st', f a st = (st', Ok tt) /\ P l st') ->
  forall l st, P l st -> exists st', each f l st = (st', Ok tt) /\ P [] st'.
Proof.
  intros H. induction l as [|a l IH]; intros st HP; [exists st; split; [reflexivity|exact HP]|].
  destruct (H a l st HP) as (st1 & R & HP1). destruct (IH st1 HP1) as (st2 & R2 & HP2). exists st2. split; auto.
  cbn [each]. rewrite (bind_ok _ _ _ _ _ R). exact R2.
Qed.

Lemma from_id_kept st st' k : kept st st' -> from_id st' k = from_id st k.
Proof. intros (_ & K & _). unfold from_id. now rewrite K. Qed.
Lemma at_kept st st' t : kept st st' -> at_timestamp st' t = at_timestamp st t.
Proof. intros (K & _). unfold at_timestamp. now rewrite K. Qed.

Lemma dkeys_nil (e : edges) : dkeys e = [] -> e = [].
Proof. destruct e; [auto|discriminate]. Qed.

Lemma rewire_ok L st D u p o x n : graph L st D -> L u -> L p -> u <> p ->
  nth_error (stmts st) p = Some o -> nth_error (stmts st) u = Some n -> time o = time n ->
  (forall b k, L b -> b <> p -> Nd st b = Some k -> from_id st k = Ok b) ->
  exists st', rewire u p x st = (st', Ok tt) /\ kept st st' /\ graph L st' D /\
    exists o', nth_error (stmts st') p = Some o' /\ par o' x = [] /\ chi o' x = [] /\
      forall x', x' <> x -> par o' x' = par o x' /\ chi o' x' = chi o x'.
Proof.
  intros G LU LP UP PO UN TT ID.
  set (P1 := fun l st' => kept st st' /\ graph L st' D /\ exists o', nth_error (stmts st') p = Some o' /\ dkeys (chi o' x) = l /\
    par o' = par o /\ forall x', x' <> x -> chi o' x' = chi o x').
  unfold rewire. rewrite (bind_ok _ _ _ _ _ (get_ok _ _ _ PO)).
  assert (LOOP1 : exists st', each (fun c => do k <- look (fun st => from_id st c); replace_parent_edges x k p u) (dkeys (chi o x)) st
    = (st', Ok tt) /\ P1 [] st').
  { apply (each_inv P1).
    - intros c l st1 (K & G1 & o' & PO' & DK & PE & CE).
      pose proof (g_tidy _ _ _ G1) as T1. destruct (T1 p o' x PO') as (_ & NC).
      destruct (proj1 (neat_some _ c NC)) as (y & PY); [rewrite DK; now left|].
      apply (F_of st1 x p o' c y PO') in PY. destruct (g_chi _ _ _ G1 x p c y LP PY) as (b & LB & NB & TB).
      assert (BP : b <> p) by congruence.
      assert (FI : from_id st1 c = Ok b).
      { rewrite (from_id_kept _ _ _ K). apply ID; auto. now rewrite <- (kept_Nd _ _ _ K). }
      destruct (g_ex _ _ _ G1 b LB) as (s & SB). destruct (kept_ex _ _ _ _ K UN) as (n' & UN').
      assert (TO : time o' = time n').
      { pose proof (kept_Tm _ _ p K) as A. rewrite (Tm_of _ _ _ PO), (Tm_of _ _ _ PO') in A.
        pose proof (kept_Tm _ _ u K) as B. rewrite (Tm_of _ _ _ UN), (Tm_of _ _ _ UN') in B. congruence. }
      assert (EY : E st1 x b (node o') y).
      { apply (g_sym _ _ _ G1 x b p c (node o') y); auto. now apply Nd_of. }
      assert (PU : p <> u) by congruence.
      destruct (graph_swap_par L st1 D x b p u s o' n' y G1 LB LP LU SB PO' UN' PU TO EY) as (st2 & R & K2 & G2 & PO2).
      exists st2. split; [unfold bind, look; rewrite FI; exact R|]. split; [exact (kept_trans _ _ _ K K2)|]. split; auto.
      exists (set_chi o' x (ddel (chi o' x) (node s))). split; auto. cbn. rewrite ctx_eqb_refl. split; [|split; auto].
      + assert (node s = c) as -> by (rewrite (Nd_of _ _ _ SB) in NB; congruence). apply keys_del; auto. apply NC.
      + intros x' NX. destruct (ctx_eqb x' x) eqn:X; [apply ctx_eqb_eq in X; contradiction|auto].
    - split; [apply kept_refl|]. split; auto. exists o. auto. }
  destruct LOOP1 as (st1 & R1 & K1 & G1 & o1 & PO1 & DK1 & PE1 & CE1). apply dkeys_nil in DK1.
  rewrite (bind_ok _ _ _ _ _ R1), (bind_ok _ _ _ _ _ (get_ok _ _ _ PO1)).
  set (P2 := fun l st' => kept st st' /\ graph L st' D /\ exists o', nth_error (stmts st') p = Some o' /\ dkeys (par o' x) = l /\
    chi o' = chi o1 /\ forall x', x' <> x -> par o' x' = par o x').
  assert (LOOP2 : exists st', each (fun c => do k <- look (fun st => from_id st c); replace_child_edges x k p u) (dkeys (par o1 x)) st1
    = (st', Ok tt) /\ P2 [] st').
  { apply (each_inv P2).
    - intros c l st2 (K & G2 & o' & PO' & DK & CE & PE).
      pose proof (g_tidy _ _ _ G2) as T1. destruct (T1 p o' x PO') as (NC & _).
      destruct (proj1 (neat_some _ c NC)) as (y & PY); [rewrite DK; now left|].
      apply (E_of st2 x p o' c y PO') in PY. destruct (g_par _ _ _ G2 x p c y LP PY) as (b & LB & NB & TB).
      assert (BP : b <> p) by congruence.
      assert (FI : from_id st2 c = Ok b).
      { rewrite (from_id_kept _ _ _ K). apply ID; auto. now rewrite <- (kept_Nd _ _ _ K). }
      destruct (g_ex _ _ _ G2 b LB) as (s & SB). destruct (kept_ex _ _ _ _ K UN) as (n' & UN').
      assert (TO : time o' = time n').
      { pose proof (kept_Tm _ _ p K) as A. rewrite (Tm_of _ _ _ PO), (Tm_of _ _ _ PO') in A.
        pose proof (kept_Tm _ _ u K) as B. rewrite (Tm_of _ _ _ UN), (Tm_of _ _ _ UN') in B. congruence. }
      assert (EY : F st2 x b (node o') y).
      { apply (g_sym _ _ _ G2 x p b (node o') c y); auto. now apply Nd_of. }
      assert (PU : p <> u) by congruence.
      destruct (graph_swap_chi L st2 D x b p u s o' n' y G2 LB LP LU SB PO' UN' PU TO EY) as (st3 & R & K3 & G3 & PO3).
      exists st3. split; [unfold bind, look; rewrite FI; exact R|]. split; [exact (kept_trans _ _ _ K K3)|]. split; auto.
      exists (set_par o' x (ddel (par o' x) (node s))). split; auto. cbn. rewrite ctx_eqb_refl. split; [|split; auto].
      + assert (node s = c) as -> by (rewrite (Nd_of _ _ _ SB) in NB; congruence). apply keys_del; auto. apply NC.
      + intros x' NX. destruct (ctx_eqb x' x) eqn:X; [apply ctx_eqb_eq in X; contradiction|auto].
    - split; auto. split; auto. exists o1. split; auto. split; auto. split; auto. intros x' _. now rewrite PE1. }
  destruct LOOP2 as (st2 & R2 & K2 & G2 & o2 & PO2 & DK2 & CE2 & PE2). apply dkeys_nil in DK2.
  exists st2. split; auto. split; auto. split; auto. exists o2. split; auto. split; auto. split; [now rewrite CE2|].
  intros x' NX. split; auto. rewrite CE2. auto.
Qed.

Lemma rewire_all L st D u p o n : graph L st D -> L u -> L p -> u <> p ->
  nth_error (stmts st) p = Some o -> nth_error (stmts st) u = Some n -> time o = time n ->
  (forall b k, L b -> b <> p -> Nd st b = Some k -> from_id st k = Ok b) ->
  exists st', each (rewire u p) contexts st = (st', Ok tt) /\ kept st st' /\ graph L st' D /\
    exists o', nth_error (stmts st') p = Some o' /\ forall x, par o' x = [] /\ chi o' x = [].
Proof.
  intros G LU LP UP PO UN TT ID.
  destruct (rewire_ok L st D u p o Dynamic n G LU LP UP PO UN TT ID) as (st1 & R1 & K1 & G1 & o1 & PO1 & A1 & B1 & C1).
  destruct (kept_ex _ _ _ _ K1 UN) as (n1 & UN1).
  assert (TO : time o1 = time n1).
  { pose proof (kept_Tm _ _ p K1) as A. rewrite (Tm_of _ _ _ PO), (Tm_of _ _ _ PO1) in A.
    pose proof (kept_Tm _ _ u K1) as B. rewrite (Tm_of _ _ _ UN), (Tm_of _ _ _ UN1) in B. congruence. }
  destruct (rewire_ok L st1 D u p o1 Static n1 G1 LU LP UP PO1 UN1 TO) as (st2 & R2 & K2 & G2 & o2 & PO2 & A2 & B2 & C2).
  { intros b k LB BP NB. rewrite (from_id_kept _ _ _ K1). apply ID; auto. now rewrite <- (kept_Nd _ _ _ K1). }
  exists st2. split; [|split; [exact (kept_trans _ _ _ K1 K2)|split; auto]].
  - unfold contexts. cbn [each]. rewrite (bind_ok _ _ _ _ _ R1), (bind_ok _ _ _ _ _ R2). reflexivity.
  - exists o2. split; auto. intros [|].
    + destruct (C2 Dynamic) as (X & Y); [discriminate|]. now rewrite X, Y.
    + auto.
Qed.

(** Without the statement that was replaced. *)
Lemma graph_drop L L' st D p o : graph L st D -> L p -> nth_error (stmts st) p = Some o ->
  (forall x, par o x = [] /\ chi o x = []) -> (forall a, L' a <-> L a /\ a <> p) -> graph L' st D.
Proof.
  intros G LP PO NO EQ.
  assert (NE : forall x k y, ~ E st x p k y).
  { intros x k y H. apply (E_of st x p o k y PO) in H. destruct (NO x) as (N & _). rewrite N in H. destruct H as (l & H & _). discriminate. }
  assert (NF : forall x k y, ~ F st x p k y).
  { intros x k y H. apply (F_of st x p o k y PO) in H. destruct (NO x) as (_ & N). rewrite N in H. destruct H as (l & H & _). discriminate. }
  assert (SUB : forall a, L' a -> L a) by (intros a H; apply EQ in H; tauto).
  constructor.
  - intros a H. apply (g_ex _ _ _ G); auto.
  - intros a b A B. apply (g_node _ _ _ G); auto.
  - apply (g_tidy _ _ _ G).
  - intros. apply (g_sym _ _ _ G); auto.
  - intros x a k y A H. destruct (g_par _ _ _ G x a k y (SUB _ A) H) as (b & B & N & T). exists b. split; auto. apply EQ.
    split; auto. intros ->. destruct (g_ex _ _ _ G a (SUB _ A)) as (s & SA).
    apply (NF x (node s) y). apply (g_sym _ _ _ G x a p (node s) k y); auto. now apply Nd_of.
  - intros x a k y A H. destruct (g_chi _ _ _ G x a k y (SUB _ A) H) as (b & B & N & T). exists b. split; auto. apply EQ.
    split; auto. intros ->. destruct (g_ex _ _ _ G a (SUB _ A)) as (s & SA).
    apply (NE x (node s) y). apply (g_sym _ _ _ G x p a k (node s) y); auto. now apply Nd_of.
  - intros x c d y. rewrite (g_deps _ _ _ G x c d y). split; intros (a & b & n & A & B & TA & TB & N & H); exists a, b, n.
    + repeat split; auto; apply EQ; split; auto; intros ->.
      * now apply (NE x n y).
      * destruct (g_ex _ _ _ G a A) as (s & SA). apply (NF x (node s) y). apply (g_sym _ _ _ G x a p (node s) n y); auto. now apply Nd_of.
    + repeat split; auto.
Qed.

(** With one more statement, which has no edges yet. *)
Lemma graph_join L L' st D u s : graph L st D -> nth_error (stmts st) u = Some s ->
  (forall x, par s x = [] /\ chi s x = []) -> (forall b, L b -> Nd st b <> Some (node s)) ->
  (forall a, L' a <-> L a \/ a = u) -> graph L' st D.
Proof.
  intros G SU NO FR EQ.
  assert (NE : forall x k y, ~ E st x u k y).
  { intros x k y H. apply (E_of st x u s k y SU) in H. destruct (NO x) as (N & _). rewrite N in H. destruct H as (l & H & _). discriminate. }
  assert (NF : forall x k y, ~ F st x u k y).
  { intros x k y H. apply (F_of st x u s k y SU) in H. destruct (NO x) as (_ & N). rewrite N in H. destruct H as (l & H & _). discriminate. }
  assert (SUB : forall a, L a -> L' a) by (intros a H; apply EQ; now left).
  assert (EL : forall x a k y, L' a -> E st x a k y -> L a).
  { intros x a k y A H. apply EQ in A. destruct A as [A| ->]; auto. now apply NE in H. }
  assert (FL : forall x a k y, L' a -> F st x a k y -> L a).
  { intros x a k y A H. apply EQ in A. destruct A as [A| ->]; auto. now apply NF in H. }
  constructor.
  - intros a H. apply EQ in H. destruct H as [H| ->]; [now apply (g_ex _ _ _ G)|eauto].
  - intros a b A B H. apply EQ in A. apply EQ in B. destruct A as [A| ->], B as [B| ->]; auto.
    + now apply (g_node _ _ _ G).
    + exfalso. apply (FR a A). rewrite H. now apply Nd_of.
    + exfalso. apply (FR b B). rewrite <- H. now apply Nd_of.
  - apply (g_tidy _ _ _ G).
  - intros x a b m n y A B M N. split; intros H.
    + pose proof (EL _ _ _ _ A H) as LA. destruct (g_par _ _ _ G x a n y LA H) as (b' & B' & N' & _).
      apply EQ in B. destruct B as [B| ->]; [now apply (g_sym _ _ _ G x a b m n y)|].
      exfalso. apply (FR b' B'). rewrite N'. rewrite <- N. now apply Nd_of.
    + pose proof (FL _ _ _ _ B H) as LB. destruct (g_chi _ _ _ G x b m y LB H) as (a' & A' & N' & _).
      apply EQ in A. destruct A as [A| ->]; [now apply (g_sym _ _ _ G x a b m n y)|].
      exfalso. apply (FR a' A'). rewrite N'. rewrite <- M. now apply Nd_of.
  - intros x a k y A H. destruct (g_par _ _ _ G x a k y (EL _ _ _ _ A H) H) as (b & B & R). exists b. split; auto.
  - intros x a k y A H. destruct (g_chi _ _ _ G x a k y (FL _ _ _ _ A H) H) as (b & B & R). exists b. split; auto.
  - intros x c d y. rewrite (g_deps _ _ _ G x c d y). split; intros (a & b & n & A & B & TA & TB & N & H); exists a, b, n.
    + repeat split; auto.
    + pose proof (EL _ _ _ _ A H) as LA. repeat split; auto. destruct (g_par _ _ _ G x a n y LA H) as (b' & B' & N' & _).
      apply EQ in B. destruct B as [B| ->]; auto. exfalso. apply (FR b' B'). rewrite N'. rewrite <- N. now apply Nd_of.
Qed.

Lemma graph_deps L st D D' : graph L st D -> (forall d, In d D <-> In d D') -> graph L st D'.
Proof. intros [] H. constructor; auto. intros. rewrite <- H. auto. Qed.
Lemma graph_live L L' st D : graph L st D -> (forall a, L a <-> L' a) -> graph L' st D.
Proof.
  intros G H. constructor.
  - intros a A. apply (g_ex _ _ _ G). now apply H.
  - intros a b A B. apply (g_node _ _ _ G); now apply H.
  - apply (g_tidy _ _ _ G).
  - intros x a b m n y A B. apply (g_sym _ _ _ G); now apply H.
  - intros x a k y A I. destruct (g_par _ _ _ G x a k y) as (b & B & R); auto; [now apply H|]. exists b. split; auto. now apply H.
  - intros x a k y A I. destruct (g_chi _ _ _ G x a k y) as (b & B & R); auto; [now apply H|]. exists b. split; auto. now apply H.
  - intros x c d y. rewrite (g_deps _ _ _ G x c d y). split; intros (a & b & n & A & B & R); exists a, b, n; repeat split; try (now apply H); tauto.
Qed.
(** Other objects and the registers do not matter. *)
Lemma graph_same L st st' D : graph L st D -> (forall a, L a -> nth_error (stmts st') a = nth_error (stmts st) a) -> tidy st' ->
  graph L st' D.
Proof.
  intros G H T.
  assert (NN : forall a, L a -> Nd st' a = Nd st a) by (intros a A; unfold Nd, Sh; now rewrite H).
  assert (TT : forall a, L a -> Tm st' a = Tm st a) by (intros a A; unfold Tm, Sh; now rewrite H).
  assert (EE : forall x a k y, L a -> E st' x a k y <-> E st x a k y) by (intros x a k y A; unfold E; now rewrite H).
  assert (FF : forall x a k y, L a -> F st' x a k y <-> F st x a k y) by (intros x a k y A; unfold F; now rewrite H).
  constructor; auto.
  - intros a A. rewrite H by exact A. now apply (g_ex _ _ _ G).
  - intros a b A B. rewrite !NN by assumption. now apply (g_node _ _ _ G).
  - intros x a b m n y A B. rewrite !NN, EE, FF by assumption. now apply (g_sym _ _ _ G).
  - intros x a k y A I. apply EE in I; auto. destruct (g_par _ _ _ G x a k y A I) as (b & B & N & TB). exists b.
    rewrite NN, !TT by assumption. auto.
  - intros x a k y A I. apply FF in I; auto. destruct (g_chi _ _ _ G x a k y A I) as (b & B & N & TB). exists b.
    rewrite NN, !TT by assumption. auto.
  - intros x c d y. rewrite (g_deps _ _ _ G x c d y).
    split; intros (a & b & n & A & B & TA & TB & N & I); exists a, b, n.
    + rewrite !TT, NN, EE by assumption. tauto.
    + rewrite !TT in TA by assumption. rewrite !TT in TB by assumption. rewrite NN in N by assumption.
      rewrite EE in I by assumption. tauto.
Qed.

(** ** The facts *)
Lemma links_spec D x c p : links D x c p = true <-> exists y, In (x, c, p, y) D.
Proof.
  unfold links. rewrite existsb_exists. split.
  - intros ((((x' & c') & p') & y) & I & H). apply andb_true_iff in H. destruct H as (H & P). apply andb_true_iff in H.
    destruct H as (X & C). apply ctx_eqb_eq in X. apply ts_eqb_eq in C. apply ts_eqb_eq in P. subst. eauto.
  - intros (y & I). eexists. split; [exact I|]. cbn. rewrite ctx_eqb_refl. cbn. apply andb_true_iff.
    split; now apply ts_eqb_eq.
Qed.
Lemma links_false D x c p : links D x c p = false <-> forall y, ~ In (x, c, p, y) D.
Proof.
  rewrite <- not_true_iff_false, links_spec. split; [intros H y I; apply H; eauto|]. intros H (y & I). now apply (H y).
Qed.
Lemma has_spec l t : has l t = true <-> In t l.
Proof.
  unfold has. rewrite existsb_exists. split; [intros (t' & I & H); apply ts_eqb_eq in H; now subst|].
  intros I. exists t. split; auto. now apply ts_eqb_eq.
Qed.
Lemma has_false l t : has l t = false <-> ~ In t l.
Proof. rewrite <- not_true_iff_false, has_spec. reflexivity. Qed.

Lemma In_link D x c p y d : In d (link D x c p y) <-> In d D \/ (c <> p /\ links D x p c = false /\ d = (x, c, p, y)).
Proof.
  unfold link. destruct (ts_eqb c p) eqn:CP; cbn [orb].
  - apply ts_eqb_eq in CP. tauto.
  - assert (c <> p) by (intros ->; rewrite (proj2 (ts_eqb_eq p p) eq_refl) in CP; discriminate).
    destruct (links D x p c); cbn.
    + split; [auto|]. intros [H'|(_ & C & _)]; [auto|discriminate].
    + split; [intros [<-|I]; auto|]. intros [I|(_ & _ & ->)]; auto.
Qed.

Lemma links_link D x c p y p' : c <> p' -> links (link D x c p y) x p' c = links D x p' c.
Proof.
  intros N. destruct (links D x p' c) eqn:L.
  - apply links_spec in L. destruct L as (z & I). apply links_spec. exists z. apply In_link. now left.
  - rewrite links_false in *. intros z I. apply In_link in I. destruct I as [I|(_ & _ & [= -> -> ->])]; [now apply (L z)|congruence].
Qed.

(** Several dependencies of the statement at [t]. *)
Definition many {A} (x : ctx) (t : ts) (g : A -> option (ts * nat)) (l : list A) (D : list dep) : list dep :=
  fold_left (fun ds e => match g e with Some (p, y) => link ds x t p y | None => ds end) l D.
Lemma In_many {A} x t (g : A -> option (ts * nat)) d : forall l D, In d (many x t g l D) <->
  In d D \/ exists e p y, In e l /\ g e = Some (p, y) /\ t <> p /\ links D x p t = false /\ d = (x, t, p, y).
Proof.
  induction l as [|e l IH]; intros D.
  - cbn. split; [auto|]. intros [I|(e & p & y & [] & _)]; auto.
  - cbn [many fold_left]. change (In d (many x t g l (match g e with Some (p, y) => link D x t p y | None => D end)) <->
      In d D \/ (exists e0 p y, In e0 (e :: l) /\ g e0 = Some (p, y) /\ t <> p /\ links D x p t = false /\ d = (x, t, p, y))).
    rewrite IH. destruct (g e) as [(p, y)|] eqn:GE.
    + rewrite In_link. split.
      * intros [[I|(N & L & ->)]|(e' & p' & y' & I & G' & N & L & ->)].
        -- now left.
        -- right. exists e, p, y. repeat split; auto. now left.
        -- right. exists e', p', y'. rewrite links_link in L by exact N. repeat split; auto. now right.
      * intros [I|(e' & p' & y' & [<-|I] & G' & N & L & ->)].
        -- now left; left.
        -- left. right. assert (p = p' /\ y = y') as (-> & ->) by (split; congruence). auto.
        -- right. exists e', p', y'. rewrite links_link by exact N. auto.
    + split; (intros [I|(e' & p' & y' & I & G' & R)]; [now left|right]).
      * exists e', p', y'. split; [now right|auto].
      * destruct I as [<-|I]; [congruence|]. exists e', p', y'. auto.
Qed.

(** ** Linking heads *)
Lemma link_many L st D x u p syms s q : graph L st D -> L u -> L p ->
  (forall a b, L a -> L b -> Tm st a = Tm st b -> a = b) -> prev s = None ->
  nth_error (stmts st) u = Some s -> nth_error (stmts st) p = Some q ->
  exists st', add_parent_edges x u p syms st = (st', Ok tt) /\ kept st st' /\
    graph L st' (many x (time s) (fun y => Some (time q, y)) syms D).
Proof.
  intros G LU LP TU PN U P.
  destruct syms as [|y0 syms0]; [exists st; split; [reflexivity|split; [apply kept_refl|exact G]]|].
  remember (y0 :: syms0) as syms. assert (NE : syms <> []) by (rewrite Heqsyms; discriminate).
  destruct (ts_eqb (time s) (time q)) eqn:TE.
  - apply ts_eqb_eq in TE. assert (u = p) as <-.
    { apply TU; auto. rewrite (Tm_of _ _ _ U), (Tm_of _ _ _ P). now rewrite TE. }
    exists st. split; [|split; [apply kept_refl|]].
    + unfold add_parent_edges. replace (is_nil syms) with false by (now rewrite Heqsyms).
      rewrite (bind_ok _ _ _ _ _ (get_ok _ _ _ U)), (bind_ok _ _ _ _ _ (get_ok _ _ _ P)).
      assert (q = s) as -> by congruence. destruct (memb _ _); auto. now rewrite Nat.eqb_refl, PN.
    + eapply graph_deps; [exact G|]. intros d. rewrite In_many. split; [auto|].
      intros [I|(e & p' & y & _ & [= <- <-] & N & _)]; [auto|congruence].
  - assert (TN : time s <> time q) by (intros C; rewrite C in TE; rewrite (proj2 (ts_eqb_eq _ _) eq_refl) in TE; discriminate).
    assert (KEY : In (node q) (dkeys (chi s x)) <-> links D x (time q) (time s) = true).
    { rewrite links_spec. destruct (g_tidy _ _ _ G u s x U) as (_ & NC). rewrite (neat_some _ _ NC). split.
      - intros (y & H). exists y. apply (g_deps _ _ _ G). exists p, u, (node s).
        rewrite (Tm_of _ _ _ U), (Tm_of _ _ _ P), (Nd_of _ _ _ U). repeat split; auto.
        apply (g_sym _ _ _ G x p u (node q) (node s) y); auto; [now apply Nd_of|now apply Nd_of|]. now apply (F_of st x u s).
      - intros (y & I). apply (g_deps _ _ _ G) in I. destruct I as (a & b & n & A & B & TA & TB & N & H).
        assert (a = p) as -> by (apply TU; auto; now rewrite (Tm_of _ _ _ P)).
        assert (b = u) as -> by (apply TU; auto; now rewrite (Tm_of _ _ _ U)).
        exists y. apply (F_of st x u s _ _ U). apply (g_sym _ _ _ G x p u (node q) n y); auto. now apply Nd_of. }
    destruct (links D x (time q) (time s)) eqn:LK.
    + exists st. split; [|split; [apply kept_refl|]].
      * unfold add_parent_edges. replace (is_nil syms) with false by (now rewrite Heqsyms).
        rewrite (bind_ok _ _ _ _ _ (get_ok _ _ _ U)), (bind_ok _ _ _ _ _ (get_ok _ _ _ P)).
        assert (MB : memb (node q) (dkeys (chi s x)) = true) by (apply memb_In; now apply KEY). now rewrite MB.
      * eapply graph_deps; [exact G|]. intros d. rewrite In_many. split; [auto|].
        intros [I|(e & p' & y & _ & [= <- <-] & _ & C & _)]; [auto|congruence].
    + assert (NI : ~ In (node q) (dkeys (chi s x))) by (intros C; apply KEY in C; discriminate).
      destruct (graph_add L st D x u p syms s q G LU LP U P NE TN NI) as (st' & R & K & H). exists st'. split; auto. split; auto.
      apply H. intros d. rewrite In_many. split.
      * intros [I|(e & p' & y & I & [= <- <-] & _ & _ & ->)]; [now left|]. right. eauto.
      * intros [I|(y & I & ->)]; [now left|]. right. exists y, (time q), y. auto.
Qed.

(** ** Dicts of timestamps *)
Lemma ts_eqb_refl t : ts_eqb t t = true.
Proof. now apply ts_eqb_eq. Qed.
Lemma ts_eqb_neq a b : ts_eqb a b = false <-> a <> b.
Proof. rewrite <- not_true_iff_false, ts_eqb_eq. reflexivity. Qed.
Lemma tsget_set {V} (d : list (ts * V)) t v t' : tsget (tsset d t v) t' = if ts_eqb t' t then Some v else tsget d t'.
Proof.
  induction d as [|(k, w) d IH]; cbn; auto. destruct (ts_eqb t k) eqn:TK; cbn.
  - apply ts_eqb_eq in TK. subst k. destruct (ts_eqb t' t); auto.
  - rewrite IH. destruct (ts_eqb t' k) eqn:K; auto. apply ts_eqb_eq in K. subst k. destruct (ts_eqb t' t) eqn:C; auto.
    apply ts_eqb_eq in C. subst t'. now rewrite ts_eqb_refl in TK.
Qed.
Lemma tsget_del {V} (d : list (ts * V)) t t' : tsget (tsdel d t) t' = if ts_eqb t' t then None else tsget d t'.
Proof.
  unfold tsdel. induction d as [|(k, w) d IH]; cbn; [now destruct (ts_eqb t' t)|]. destruct (ts_eqb t k) eqn:TK; cbn.
  - rewrite IH. apply ts_eqb_eq in TK. subst k. destruct (ts_eqb t' t); auto.
  - rewrite IH. destruct (ts_eqb t' k) eqn:K; auto. apply ts_eqb_eq in K. subst k. destruct (ts_eqb t' t) eqn:C; auto.
    apply ts_eqb_eq in C. subst t'. now rewrite ts_eqb_refl in TK.
Qed.
Lemma tsget_In {V} (d : list (ts * V)) t v : tsget d t = Some v -> In (t, v) d.
Proof.
  induction d as [|(k, w) d IH]; cbn; [discriminate|]. destruct (ts_eqb t k) eqn:K; [|auto].
  apply ts_eqb_eq in K. subst. intros [= ->]. now left.
Qed.
Lemma In_tsget {V} (d : list (ts * V)) t v : NoDup (map fst d) -> In (t, v) d -> tsget d t = Some v.
Proof.
  induction d as [|(k, w) d IH]; cbn; [intros _ []|]. intros ND. apply NoDup_cons_iff in ND. destruct ND as (N & ND).
  intros [[= -> ->]|I]; [now rewrite ts_eqb_refl|]. destruct (ts_eqb t k) eqn:K; [|auto]. apply ts_eqb_eq in K. subst.
  exfalso. apply N. apply in_map_iff. now exists (k, v).
Qed.
Lemma tsset_keys {V} (d : list (ts * V)) t v k : In k (map fst (tsset d t v)) <-> k = t \/ In k (map fst d).
Proof.
  induction d as [|(k', w) d IH]; cbn; [intuition|]. destruct (ts_eqb t k') eqn:K; cbn.
  - apply ts_eqb_eq in K. subst k'. intuition.
  - rewrite IH. intuition.
Qed.
Lemma tsset_NoDup {V} (d : list (ts * V)) t v : NoDup (map fst d) -> NoDup (map fst (tsset d t v)).
Proof.
  induction d as [|(k', w) d IH]; cbn; intros ND; [constructor; [intros []|constructor]|].
  apply NoDup_cons_iff in ND. destruct ND as (N & ND). destruct (ts_eqb t k') eqn:K; cbn; [now constructor|].
  constructor; auto. rewrite tsset_keys. intros [->|I]; auto. now rewrite ts_eqb_refl in K.
Qed.

(** ** The invariant *)
Definition Live (st : state) (a : nat) : Prop := exists t, at_timestamp st t = Ok a.
Record Inv (st : state) (f : facts) : Prop := {
  i_ran : forall t, In t (ran f) <-> exists u, at_timestamp st t = Ok u;
  i_none : forall t l, tsget (at_ts st) t = Some l -> l <> [];
  i_head : forall t u, at_timestamp st t = Ok u -> exists s rest, nth_error (stmts st) u = Some s /\ time s = t /\
    prev s = None /\ dget (by_id st) (node s) = Some (u :: rest) /\ (override s = true <-> In t (extras f)) /\
    (In t (extras f) -> rest = [] /\ In (node s) (made f));
  i_nodes : forall n l, dget (by_id st) n = Some l -> In n (nodes f);
  i_wf : dwf (by_id st);
  i_init : forall t, In t (ran f) -> ts_is_initialized t = true;
  i_later : forall c p y, In (c, p, y) (waiting f) <->
    exists ds ys, tsget (later st) c = Some ds /\ tsget ds p = Some ys /\ In y ys;
  i_keys : forall c ds, tsget (later st) c = Some ds -> NoDup (map fst ds) /\ (forall p, In p (map fst ds) -> In p (ran f)) /\ ~ In c (ran f);
  i_graph : graph (Live st) st (deps f);
  i_made : forall n, In n (made f) -> In n (nodes f);
  i_extra : forall t, In t (extras f) -> In t (ran f);
  i_prev : forall u n t v o, Sh st u = Some (n, t, Some v, o) -> v < u;
  i_ids : forall n l u, dget (by_id st) n = Some l -> In u l -> Sh st u <> None }.

Lemma Live_Tm st f a b : Inv st f -> Live st a -> Live st b -> Tm st a = Tm st b -> a = b.
Proof.
  intros I (t & A) (t' & B) H. destruct (i_head _ _ I t a A) as (s & _ & SA & TA & _). destruct (i_head _ _ I t' b B) as (s' & _ & SB & TB & _).
  rewrite (Tm_of _ _ _ SA), (Tm_of _ _ _ SB) in H. congruence.
Qed.

Lemma at_of st t l u : tsget (at_ts st) t = Some (u :: l) -> at_timestamp st t = Ok u.
Proof. intros H. unfold at_timestamp. now rewrite H. Qed.
Lemma at_inv st t u : at_timestamp st t = Ok u -> exists l, tsget (at_ts st) t = Some (u :: l).
Proof.
  unfold at_timestamp. destruct (tsget (at_ts st) t) as [[|v l]|]; cbn; intros [= ->]. eauto.
Qed.
Lemma at_here st f t : Inv st f -> ~ In t (ran f) -> tsget (at_ts st) t = None.
Proof.
  intros I N. destruct (tsget (at_ts st) t) as [[|v l]|] eqn:H; auto; exfalso.
  - now apply (i_none _ _ I) in H.
  - apply N. apply (i_ran _ _ I). exists v. now apply at_of in H.
Qed.

(** The invariant after something that changes edges only. *)
Lemma Inv_deps st st' f D : Inv st f -> kept st st' -> graph (Live st) st' D -> Inv st' (with_deps f D).
Proof.
  intros I K G. assert (AT : forall t, at_timestamp st' t = at_timestamp st t) by (intros t; now apply at_kept).
  pose proof K as (KA & KB & KC & KD). constructor; cbn.
  - intros t. rewrite AT. apply (i_ran _ _ I).
  - rewrite KA. apply (i_none _ _ I).
  - intros t u. rewrite AT. intros H. destruct (i_head _ _ I t u H) as (s & rest & SU & R). specialize (KD u). unfold Sh in KD.
    rewrite SU in KD. destruct (nth_error (stmts st') u) as [s'|] eqn:SU'; [|discriminate]. cbn in KD.
    injection KD as N T P O. exists s', rest. rewrite KB, N, T, P, O. split; auto. 
  - rewrite KB. apply (i_nodes _ _ I).
  - rewrite KB. apply (i_wf _ _ I).
  - apply (i_init _ _ I).
  - rewrite KC. apply (i_later _ _ I).
  - rewrite KC. apply (i_keys _ _ I).
  - eapply graph_live; [exact G|]. intros a. unfold Live. split; intros (t & H); exists t; [now rewrite AT|now rewrite <- AT].
  - apply (i_made _ _ I).
  - apply (i_extra _ _ I).
  - intros u n t v o. rewrite KD. apply (i_prev _ _ I).
  - intros n l u. rewrite KB, KD. apply (i_ids _ _ I).
Qed.

Lemma graph_ext L st st' D : stmts st' = stmts st -> graph L st D -> graph L st' D.
Proof.
  intros S G. apply (graph_same L st); auto; [now rewrite S|]. intros a s x H. rewrite S in H. now apply (g_tidy _ _ _ G a).
Qed.

Lemma with_deps_same f : with_deps f (deps f) = f.
Proof. now destruct f. Qed.

(** *** Dependencies *)
Lemma Inv_link st f x c p y u v : Inv st f -> at_timestamp st c = Ok u -> at_timestamp st p = Ok v ->
  exists st', add_parent_edges x u v [y] st = (st', Ok tt) /\ kept st st' /\ Inv st' (with_deps f (link (deps f) x c p y)).
Proof.
  intros I C P. destruct (i_head _ _ I c u C) as (s & _ & SU & TS & PN & _). destruct (i_head _ _ I p v P) as (q & _ & SV & TQ & _).
  assert (LU : Live st u) by (now exists c). assert (LV : Live st v) by (now exists p).
  destruct (link_many (Live st) st (deps f) x u v [y] s q (i_graph _ _ I) LU LV) as (st' & R & K & G); auto.
  { intros a b A B. now apply (Live_Tm st f). }
  exists st'. split; auto. split; auto. apply (Inv_deps st); auto. cbn in G. now rewrite TS, TQ in G.
Qed.

Lemma Inv_dynamic st f c p y : Inv st f ->
  Inv (step st (Depends Dynamic c p y)) (told f (Depends Dynamic c p y)) /\
  (In c (ran f) -> In p (ran f) -> snd (does (Depends Dynamic c p y) st) = Ok tt).
Proof.
  intros I. unfold step. cbn [does told]. unfold depend.
  destruct (has (ran f) c) eqn:HC.
  - pose proof HC as HC'. apply has_spec in HC'. rewrite (i_init _ _ I c HC'). cbn [negb andb].
    destruct (proj1 (i_ran _ _ I c) HC') as (u & C). unfold bind at 1 3, look at 1 3. rewrite C.
    destruct (has (ran f) p) eqn:HP.
    + pose proof HP as HP'. apply has_spec in HP'. destruct (proj1 (i_ran _ _ I p) HP') as (v & P).
      unfold bind at 1 2, look at 1 2. rewrite P. destruct (Inv_link st f Dynamic c p y u v I C P) as (st' & R & K & I').
      rewrite R. cbn. auto.
    + unfold bind, look. destruct (at_timestamp st p) as [v|e] eqn:P.
      * exfalso. apply has_false in HP. apply HP. apply (i_ran _ _ I). eauto.
      * cbn. split; auto. apply has_false in HP. contradiction.
  - cbn [andb]. apply has_false in HC. split; [|contradiction]. destruct (ts_is_initialized c); [|exact I]. cbn [negb].
    unfold bind, look. destruct (at_timestamp st c) as [u|e] eqn:C; [|exact I]. exfalso. apply HC. apply (i_ran _ _ I). eauto.
Qed.

Lemma Inv_static st f c p y : Inv st f -> fits f (Depends Static c p y) ->
  Inv (step st (Depends Static c p y)) (told f (Depends Static c p y)) /\ snd (does (Depends Static c p y) st) = Ok tt.
Proof.
  intros I (CI & NC & P). unfold step. cbn [does told]. unfold depend. rewrite CI. cbn [negb]. unfold bind, look, set_later. cbn [fst snd].
  split; [|reflexivity]. constructor; cbn.
  - apply (i_ran _ _ I).
  - apply (i_none _ _ I).
  - apply (i_head _ _ I).
  - apply (i_nodes _ _ I).
  - apply (i_wf _ _ I).
  - apply (i_init _ _ I).
  - intros c' p' y'. rewrite tsget_set. split.
    + intros [[= <- <- <-]|W].
      * rewrite ts_eqb_refl. eexists _, _. split; [reflexivity|]. rewrite tsget_set, ts_eqb_refl. split; [reflexivity|].
        apply In_sadd. auto.
      * apply (i_later _ _ I) in W. destruct W as (ds & ys & A & B & C). destruct (ts_eqb c' c) eqn:CC; [|eauto].
        apply ts_eqb_eq in CC. subst c'. rewrite A. destruct (ts_eqb p' p) eqn:PP.
        -- apply ts_eqb_eq in PP. subst p'. rewrite B. eexists _, _. split; [reflexivity|]. rewrite tsget_set, ts_eqb_refl.
           split; [reflexivity|]. apply In_sadd. auto.
        -- eexists _, _. split; [reflexivity|]. rewrite tsget_set, PP. eauto.
    + destruct (ts_eqb c' c) eqn:CC.
      * apply ts_eqb_eq in CC. subst c'. intros (ds & ys & [= <-] & B & C). rewrite tsget_set in B. destruct (ts_eqb p' p) eqn:PP.
        -- apply ts_eqb_eq in PP. subst p'. injection B as <-. apply In_sadd in C. destruct C as [->|C]; [now left|]. right.
           apply (i_later _ _ I). destruct (tsget (later st) c) as [ds|]; [|destruct C].
           destruct (tsget ds p) as [ys|] eqn:TP; [|destruct C]. eauto.
        -- right. apply (i_later _ _ I). destruct (tsget (later st) c) as [ds|]; [|discriminate]. eauto.
      * intros H. right. now apply (i_later _ _ I).
  - intros c' ds. rewrite tsget_set. destruct (ts_eqb c' c) eqn:CC; [|apply (i_keys _ _ I)]. apply ts_eqb_eq in CC. subst c'.
    intros [= <-]. destruct (tsget (later st) c) as [ds|] eqn:TL.
    + destruct (i_keys _ _ I c ds TL) as (ND & KR & NR). split; [now apply tsset_NoDup|]. split; auto. intros p' H.
      apply tsset_keys in H. destruct H as [->|H]; auto.
    + split; [now apply tsset_NoDup; constructor|]. split; auto. intros p' H. apply tsset_keys in H. destruct H as [->|[]]. auto.
  - apply (graph_ext (Live st) st); auto. apply (i_graph _ _ I).
  - apply (i_made _ _ I).
  - apply (i_extra _ _ I).
  - apply (i_prev _ _ I).
  - apply (i_ids _ _ I).
Qed.

(** *** Several parents *)
Lemma many_app {A} x t (g : A -> option (ts * nat)) a b D : many x t g (a ++ b) D = many x t g b (many x t g a D).
Proof. unfold many. apply fold_left_app. Qed.
Lemma many_map {A} x t p (l : list A) (h : A -> nat) : forall D,
  many x t (fun q => Some q) (map (fun y => (p, h y)) l) D = many x t (fun y => Some (p, h y)) l D.
Proof. induction l as [|y l IH]; intros D; auto. cbn. apply IH. Qed.

Lemma links_loop {A} (key : A -> state -> res nat) (tm : A -> ts) (syms : A -> list nat) x u t (L : nat -> Prop) :
  (forall d st st', kept st st' -> key d st' = key d st) ->
  forall ds st D s, graph L st D -> L u -> nth_error (stmts st) u = Some s -> prev s = None -> time s = t ->
    (forall a b, L a -> L b -> Tm st a = Tm st b -> a = b) ->
    (forall d, In d ds -> exists v, key d st = Ok v /\ L v /\ Tm st v = Some (tm d)) ->
  exists st', each (fun d => do p <- look (key d); add_parent_edges x u p (syms d)) ds st = (st', Ok tt) /\ kept st st' /\
    graph L st' (many x t (fun q => Some q) (flat_map (fun d => map (fun y => (tm d, y)) (syms d)) ds) D).
Proof.
  intros KK. induction ds as [|d ds IH]; intros st D s G LU SU PN TS TU HD.
  - exists st. split; [reflexivity|]. split; [apply kept_refl|exact G].
  - destruct (HD d (or_introl eq_refl)) as (v & KV & LV & TV). destruct (Tm_inv _ _ _ TV) as (q & SV & TQ).
    destruct (link_many L st D x u v (syms d) s q G LU LV TU PN SU SV) as (st1 & R1 & K1 & G1).
    destruct (kept_ex _ _ _ _ K1 SU) as (s1 & SU1).
    assert (shape s1 = shape s) as SH.
    { destruct K1 as (_ & _ & _ & K1). specialize (K1 u). unfold Sh in K1. rewrite SU, SU1 in K1. cbn [option_map] in K1. congruence. }
    injection SH as _ T1 P1 _.
    destruct (IH st1 (many x (time s) (fun y => Some (time q, y)) (syms d) D) s1) as (st2 & R2 & K2 & G2); auto; try congruence.
    + intros a b LA LB. rewrite !(kept_Tm _ _ _ K1). auto.
    + intros d' I'. destruct (HD d' (or_intror I')) as (v' & KV' & LV' & TV'). exists v'. rewrite (KK d' st st1 K1), (kept_Tm _ _ _ K1). auto.
    + exists st2. split; [|split; [exact (kept_trans _ _ _ K1 K2)|]].
      * cbn [each]. assert (ST : (do p <- look (key d); add_parent_edges x u p (syms d)) st = (st1, Ok tt)).
        { unfold bind, look. rewrite KV. exact R1. }
        rewrite (bind_ok _ _ _ _ _ ST). exact R2.
      * cbn [flat_map]. rewrite many_app, (many_map x t (tm d) (syms d) (fun y => y)). now rewrite TS, TQ in G2.
Qed.

(** *** New statements *)
Lemma deps_ran st f x c p y : Inv st f -> In (x, c, p, y) (deps f) -> In c (ran f) /\ In p (ran f) /\ c <> p.
Proof.
  intros I H. apply (g_deps _ _ _ (i_graph _ _ I)) in H. destruct H as (a & b & n & A & B & TA & TB & N & H).
  destruct (g_par _ _ _ (i_graph _ _ I) x a n y A H) as (b' & B' & N' & T').
  assert (b = b') as <- by (apply (g_node _ _ _ (i_graph _ _ I)); auto; congruence).
  destruct A as (ta & A). destruct (i_head _ _ I ta a A) as (s & _ & SA & T1 & _). rewrite (Tm_of _ _ _ SA) in TA.
  destruct B as (tb & B). destruct (i_head _ _ I tb b B) as (q & _ & SB & T2 & _). rewrite (Tm_of _ _ _ SB) in TB.
  rewrite (Tm_of _ _ _ SA), (Tm_of _ _ _ SB) in T'.
  repeat split; [apply (i_ran _ _ I); exists a|apply (i_ran _ _ I); exists b|]; congruence.
Qed.

(** Leaving out what is deferred. *)
Definition bare (st : state) : state := mkSt (stmts st) (at_ts st) (by_id st) [].
Definition arrived (f : facts) (t : ts) (n : nat) (ex : bool) : facts :=
  mkFacts (if has (ran f) t then ran f else t :: ran f)
    (if ex then t :: extras f else extras f) (n :: nodes f) (if ex then n :: made f else made f) [] (deps f).

Lemma finish_ok st f st2 t n ex u : Inv st f -> later st2 = later st -> Inv (bare st2) (arrived f t n ex) ->
  tsget (later st) t = None \/ at_timestamp st2 t = Ok u ->
  exists st', (do ds <- look (fun st => Ok (match tsget (later st) t with Some l => l | None => [] end));
    do _ <- deferred u ds;
    do l <- look (fun st => Ok (later st));
    do _ <- set_later (tsdel l t);
    ret u) st2 = (st', Ok u) /\ Inv st' (arrive f t n ex) /\ at_ts st' = at_ts st2 /\ (forall a, Sh st' a = Sh st2 a) /\
    by_id st' = by_id st2.
Proof.
  intros I LT I2 AT. set (ds := match tsget (later st) t with Some l => l | None => [] end).
  assert (RAN : forall c, In c (ran (arrived f t n ex)) <-> c = t \/ In c (ran f)).
  { intros c. cbn. destruct (has (ran f) t) eqn:H; cbn; [apply has_spec in H|]; intuition congruence. }
  assert (KEYS : forall p ys, In (p, ys) ds -> In p (ran f) /\ ~ In t (ran f)).
  { intros p ys H. unfold ds in H. destruct (tsget (later st) t) as [l|] eqn:TL; [|destruct H].
    destruct (i_keys _ _ I t l TL) as (_ & A & B). split; auto. apply A. apply in_map_iff. now exists (p, ys). }
  assert (G2 : graph (Live st2) st2 (deps f)).
  { apply (graph_ext _ (bare st2)); [reflexivity|]. eapply graph_live; [apply (i_graph _ _ I2)|]. intros a. reflexivity. }
  assert (exists st3, deferred u ds st2 = (st3, Ok tt) /\ kept st2 st3 /\ graph (Live st2) st3
    (many Static t (fun q => Some q) (flat_map (fun d => map (fun y => (fst d, y)) (snd d)) ds) (deps f))) as (st3 & R3 & K3 & G3).
  { destruct AT as [NT|AT].
    { unfold ds. rewrite NT. exists st2. split; [reflexivity|]. split; [apply kept_refl|exact G2]. }
    destruct (i_head _ _ I2 t u AT) as (s & rest & SU & TS & PN & _). cbn in SU.
    apply (links_loop (fun d st => at_timestamp st (fst d)) fst snd Static u t (Live st2)) with (s := s); auto.
    { intros d a b K. now apply at_kept. }
    { now exists t. }
    { intros a b A B. exact (Live_Tm (bare st2) _ a b I2 A B). }
    { intros (p & ys) H. destruct (KEYS p ys H) as (RP & _). destruct (proj1 (i_ran _ _ I2 p)) as (v & AV); [apply RAN; now right|].
      destruct (i_head _ _ I2 p v AV) as (q & _ & SV & TV & _). exists v. split; [exact AV|]. split; [now exists p|].
      cbn. rewrite <- TV. now apply Tm_of. } }
  pose proof K3 as (KA & KB & KC & KD).
  eexists. split; [|split].
  - unfold bind at 1, look at 1. rewrite LT. fold ds.
    rewrite (bind_ok _ _ _ _ _ R3). reflexivity.
  - set (D3 := many Static t (fun q => Some q) (flat_map (fun d => map (fun y => (fst d, y)) (snd d)) ds) (deps f)) in *.
    assert (MEM : forall d, In d D3 <-> In d (deps (arrive f t n ex))).
    { intros d. unfold D3. rewrite In_many. cbn [deps arrive]. rewrite in_app_iff, in_flat_map. split.
      - intros [H|((p & y) & p' & y' & H & [= -> ->] & _ & _ & ->)]; [now right|]. left. apply in_flat_map in H.
        destruct H as ((p & ys) & HD & HY). apply in_map_iff in HY. destruct HY as (y & [= <- <-] & HY). cbn in HY.
        exists (t, p, y). split; [|rewrite ts_eqb_refl; now left]. apply (i_later _ _ I). unfold ds in HD.
        destruct (tsget (later st) t) as [l|] eqn:TL; [|destruct HD]. exists l, ys. split; auto. split; auto.
        apply In_tsget; auto. now apply (i_keys _ _ I t).
      - intros [(((c & p) & y) & W & H)|H]; [|now left]. destruct (ts_eqb t c) eqn:TC; [|destruct H]. apply ts_eqb_eq in TC. subst c.
        destruct H as [<-|[]]. right. apply (i_later _ _ I) in W. destruct W as (l & ys & TL & TP & IY).
        assert (DL : ds = l) by (unfold ds; now rewrite TL). apply tsget_In in TP.
        assert (HP : In (p, ys) ds) by (now rewrite DL). destruct (KEYS p ys HP) as (RP & NT).
        exists (p, y), p, y. split; [|split; [reflexivity|split; [congruence|split; [|reflexivity]]]].
        + apply in_flat_map. exists (p, ys). split; auto. apply in_map_iff. exists y. auto.
        + apply links_false. intros z C. destruct (deps_ran st f _ _ _ _ I C) as (_ & C' & _). contradiction. }
    constructor; cbn [stmts at_ts by_id later].
    + intros t'. rewrite (i_ran _ _ I2 t'). unfold at_timestamp. cbn. now rewrite KA.
    + rewrite KA. apply (i_none _ _ I2).
    + intros t' u' H. assert (H' : at_timestamp (bare st2) t' = Ok u') by (unfold at_timestamp in *; cbn in *; now rewrite KA in H).
      destruct (i_head _ _ I2 t' u' H') as (s' & rest' & SU' & R). cbn in SU'. specialize (KD u'). unfold Sh in KD.
      rewrite SU' in KD. destruct (nth_error (stmts st3) u') as [s3|] eqn:S3; [|discriminate]. cbn in KD.
      injection KD as N T P O. exists s3, rest'. rewrite KB, N, T, P, O. split; auto.
    + rewrite KB. apply (i_nodes _ _ I2).
    + rewrite KB. apply (i_wf _ _ I2).
    + apply (i_init _ _ I2).
    + intros c p y. rewrite KC, LT, tsget_del. cbn [waiting arrive]. rewrite filter_In, (i_later _ _ I).
      destruct (ts_eqb c t) eqn:CT.
      * apply ts_eqb_eq in CT. subst c. rewrite ts_eqb_refl. split; [intros (_ & C); discriminate|].
        intros (ds0 & ys & C & _). discriminate.
      * assert (TC : ts_eqb t c = false) by (apply ts_eqb_neq; intros ->; now rewrite ts_eqb_refl in CT). rewrite TC.
        split; [now intros (H & _)|]. intros H. now split.
    + intros c ds0. rewrite KC, LT, tsget_del. destruct (ts_eqb c t) eqn:CT; [discriminate|]. intros H.
      destruct (i_keys _ _ I c ds0 H) as (A & B & C). split; auto. split.
      * intros p HP. apply RAN. right. auto.
      * intros HC. apply RAN in HC. destruct HC as [->|HC]; [now rewrite ts_eqb_refl in CT|contradiction].
    + apply (graph_live (Live st2)).
      * eapply graph_deps; [|exact MEM]. apply (graph_ext _ st3); [reflexivity|]. exact G3.
      * intros a. split; intros (t' & H); exists t'; unfold at_timestamp in *; cbn in *; rewrite KA in *; exact H.
    + apply (i_made _ _ I2).
    + apply (i_extra _ _ I2).
    + intros a m t' v o. change (Sh st3 a = Some (m, t', Some v, o) -> v < a). rewrite KD. apply (i_prev _ _ I2).
    + intros m l a. rewrite KB. change (dget (by_id st2) m = Some l -> In a l -> Sh st3 a <> None). rewrite KD. apply (i_ids _ _ I2).
  - cbn. split; [exact KA|]. split; [|exact KB]. intros a. apply KD.
Qed.

(** One more object. *)
Definition grown (st : state) (s : stmt) : state := mkSt (stmts st ++ [s]) (at_ts st) (by_id st) (later st).
Lemma grown_old st s a q : nth_error (stmts st) a = Some q -> nth_error (stmts st ++ [s]) a = Some q.
Proof. intros H. rewrite nth_error_app1; auto. apply nth_error_Some. congruence. Qed.
Lemma grown_new st s : nth_error (stmts st ++ [s]) (List.length (stmts st)) = Some s.
Proof. rewrite nth_error_app2, Nat.sub_diag by lia. reflexivity. Qed.
Lemma grown_tidy st s a b i : tidy st -> (forall x, par s x = [] /\ chi s x = []) -> tidy (mkSt (stmts st ++ [s]) a b i).
Proof.
  intros T N c q x H. cbn in H. destruct (Nat.eq_dec c (List.length (stmts st))) as [->|NE].
  - rewrite grown_new in H. injection H as <-. destruct (N x) as (-> & ->). split; apply neat_nil.
  - apply (T c q x). destruct (Nat.lt_ge_cases c (List.length (stmts st))) as [LT|GE].
    + now rewrite nth_error_app1 in H.
    + assert (c >= List.length (stmts st ++ [s])) as C by (rewrite app_length; cbn; lia). apply nth_error_None in C. congruence.
Qed.
Lemma grown_Sh st s a b i c : Sh (mkSt (stmts st ++ [s]) a b i) c = if c =? List.length (stmts st) then Some (shape s) else Sh st c.
Proof.
  unfold Sh. cbn [stmts]. destruct (Nat.eqb_spec c (List.length (stmts st))) as [->|NE]; [now rewrite grown_new|].
  destruct (Nat.lt_ge_cases c (List.length (stmts st))) as [LT|GE].
  - now rewrite nth_error_app1.
  - rewrite !(proj2 (nth_error_None _ c)); auto. rewrite app_length. cbn. lia.
Qed.
Lemma Sh_lt st a : Sh st a <> None -> a < List.length (stmts st).
Proof. intros H. apply nth_error_Some. intros C. apply H. unfold Sh. now rewrite C. Qed.
Lemma live_ex st f a : Inv st f -> Live st a -> exists s, nth_error (stmts st) a = Some s.
Proof. intros I H. apply (g_ex _ _ _ (i_graph _ _ I)); auto. Qed.
Lemma live_node st f a n : Inv st f -> Live st a -> Nd st a = Some n -> In n (nodes f).
Proof.
  intros I (t & A) H. destruct (i_head _ _ I t a A) as (s & rest & SA & _ & _ & D & _). rewrite (Nd_of _ _ _ SA) in H.
  injection H as <-. exact (i_nodes _ _ I _ _ D).
Qed.

Lemma in_arrived f t n ex c : In c (ran (arrived f t n ex)) <-> c = t \/ In c (ran f).
Proof. cbn. destruct (has (ran f) t) eqn:H; cbn; [apply has_spec in H|]; intuition congruence. Qed.
Lemma ex_arrived f t n ex c : In c (extras (arrived f t n ex)) <-> (ex = true /\ c = t) \/ In c (extras f).
Proof. cbn. destruct ex; cbn; intuition congruence. Qed.
Lemma made_arrived f t n ex m : In m (made f) -> In m (made (arrived f t n ex)).
Proof. cbn. destruct ex; cbn; auto. Qed.

(** A statement at a new time. *)
Lemma new_ok st f t n ex : Inv st f -> ts_is_initialized t = true -> ~ In t (ran f) -> ~ In n (nodes f) ->
  exists st', create n t ex st = (st', Ok (List.length (stmts st))) /\ Inv st' (arrive f t n ex) /\
    at_timestamp st' t = Ok (List.length (stmts st)) /\ Nd st' (List.length (stmts st)) = Some n.
Proof.
  intros I IN NT NN. set (u := List.length (stmts st)). set (s := mkStmt n t None ex (fun _ => []) (fun _ => [])).
  assert (DN : dget (by_id st) n = None).
  { destruct (dget (by_id st) n) as [l|] eqn:D; auto. exfalso. apply NN. exact (i_nodes _ _ I _ _ D). }
  pose proof (at_here _ _ _ I NT) as AN.
  assert (AL : alloc n t ex st = (grown st s, Ok u)) by (unfold alloc, has_id; rewrite DN; reflexivity).
  set (st2 := mkSt (stmts st ++ [s]) (tsset (at_ts st) t [u]) (dset (by_id st) n [u]) (later st)).
  assert (A2 : forall t', at_timestamp st2 t' = if ts_eqb t' t then Ok u else at_timestamp st t').
  { intros t'. unfold at_timestamp, st2. cbn. rewrite tsget_set. destruct (ts_eqb t' t); reflexivity. }
  assert (LV : forall a, Live st2 a <-> Live st a \/ a = u).
  { intros a. split.
    - intros (t' & H). rewrite A2 in H. destruct (ts_eqb t' t); [right; congruence|left; now exists t'].
    - intros [(t' & H)| ->].
      + exists t'. rewrite A2. destruct (ts_eqb t' t) eqn:TT; auto. apply ts_eqb_eq in TT. subst t'.
        exfalso. apply NT. apply (i_ran _ _ I). eauto.
      + exists t. rewrite A2, ts_eqb_refl. reflexivity. }
  assert (I2 : Inv (bare st2) (arrived f t n ex)).
  { constructor.
    - intros t'. rewrite in_arrived. change (at_timestamp (bare st2) t') with (at_timestamp st2 t'). rewrite A2.
      destruct (ts_eqb t' t) eqn:TT.
      + apply ts_eqb_eq in TT. split; eauto.
      + rewrite (i_ran _ _ I t'). apply ts_eqb_neq in TT. intuition congruence.
    - cbn. intros t' l. rewrite tsget_set. destruct (ts_eqb t' t); [intros [= <-]; discriminate|apply (i_none _ _ I)].
    - intros t' u'. change (at_timestamp (bare st2) t') with (at_timestamp st2 t'). rewrite A2.
      destruct (ts_eqb t' t) eqn:TT.
      + apply ts_eqb_eq in TT. subst t'. intros [= <-]. exists s, []. split; [apply grown_new|]. split; [reflexivity|]. split; [reflexivity|].
        split; [cbn; apply dget_dset_same|]. split.
        * rewrite ex_arrived. cbn. split; [auto|]. intros [(A & _)|A]; auto. apply (i_extra _ _ I) in A. contradiction.
        * intros H. split; auto. apply ex_arrived in H. destruct H as [(-> & _)|H]; [now left|]. apply (i_extra _ _ I) in H. contradiction.
      + apply ts_eqb_neq in TT. intros H. destruct (i_head _ _ I t' u' H) as (q & rest & SQ & TQ & PQ & DQ & OQ & EQ).
        exists q, rest. split; [now apply grown_old|]. split; auto. split; auto. split.
        * cbn. rewrite dget_dset_other; auto. intros C. rewrite C in DQ. congruence.
        * rewrite ex_arrived. split; [rewrite OQ; intuition congruence|]. intros [(_ & C)|C]; [contradiction|].
          destruct (EQ C) as (-> & M). split; auto. now apply made_arrived.
    - cbn. intros m l. rewrite dget_dset. destruct (Nat.eqb_spec m n) as [->|_]; [now left|]. intros H. right. exact (i_nodes _ _ I _ _ H).
    - apply dwf_dset. apply (i_wf _ _ I).
    - intros c. rewrite in_arrived. intros [->|H]; auto. now apply (i_init _ _ I).
    - cbn. intros c p y. split; [intros []|]. intros (ds & ys & C & _). discriminate.
    - cbn. discriminate.
    - apply (graph_join (Live st) _ _ _ u s).
      + apply (graph_same _ st); [apply (i_graph _ _ I)| |].
        * intros a A. destruct (live_ex _ _ _ I A) as (q & Q). cbn. rewrite Q. now apply grown_old.
        * apply grown_tidy; [apply (g_tidy _ _ _ (i_graph _ _ I))|]. intros x. now split.
      + apply grown_new.
      + intros x. now split.
      + intros b B C. destruct (live_ex _ _ _ I B) as (q & Q). unfold Nd, Sh in C. cbn in C. rewrite (grown_old _ s _ _ Q) in C.
        cbn in C. injection C as C. apply NN. rewrite <- C. apply (live_node _ _ _ _ I B). now apply Nd_of.
      + intros a. change (Live (bare st2) a) with (Live st2 a). apply LV.
    - intros m H. cbn in H |- *. destruct ex; cbn in H; [destruct H as [H|H]; [now left|]|]; right; now apply (i_made _ _ I).
    - intros c. rewrite ex_arrived, in_arrived. intros [(_ & H)|H]; [now left|right; now apply (i_extra _ _ I)].
    - intros a m t' v o. unfold bare, st2. cbn [stmts at_ts by_id]. rewrite grown_Sh. destruct (a =? _); [discriminate|apply (i_prev _ _ I)].
    - intros m l a. unfold bare, st2. cbn [stmts at_ts by_id]. rewrite grown_Sh, dget_dset. destruct (Nat.eqb_spec a (List.length (stmts st))) as [->|NE]; [discriminate|].
      destruct (m =? n); [|apply (i_ids _ _ I)]. intros [= <-] [C|[]]. now symmetry in C. }
  destruct (finish_ok st f st2 t n ex u I eq_refl I2) as (st3 & R3 & I3 & AT3 & SH3 & _).
  { right. rewrite A2, ts_eqb_refl. reflexivity. }
  exists st3. split; [|split; [exact I3|split]];
    [|unfold at_timestamp; rewrite AT3; change (at_timestamp st2 t = Ok u); now rewrite A2, ts_eqb_refl
     |unfold Nd; rewrite SH3; unfold Sh; cbn [stmts st2]; now rewrite grown_new].
  unfold create. rewrite (bind_ok _ _ _ _ _ AL). rewrite <- R3.
  unfold bind at 1, look at 1, here. cbn [at_ts grown]. rewrite AN. cbn [is_nil negb]. rewrite Bool.andb_false_r.
  unfold bind at 1. unfold bind at 1, set_at at 1. unfold bind at 1, look at 1, same. cbn [at_ts by_id stmts later grown]. rewrite DN. reflexivity.
Qed.

(** A statement of a function, called at a time that has its statement already. *)
Lemma nested_ok st f t n : Inv st f -> In t (ran f) -> ~ In t (extras f) -> ~ In n (made f) ->
  exists st', create n t false st = (st', Ok (List.length (stmts st))) /\ Inv st' (arrive f t n false).
Proof.
  intros I IT NX NM. set (u := List.length (stmts st)).
  destruct (proj1 (i_ran _ _ I t) IT) as (w & AW). destruct (at_inv _ _ _ AW) as (l & HL).
  assert (exists v, alloc n t false st = (grown st (mkStmt n t v false (fun _ => []) (fun _ => [])), Ok u) /\
    forall a, v = Some a -> Sh st a <> None) as (v & AL & VO).
  { unfold alloc. eexists. split; [reflexivity|]. intros a. destruct (has_id st n); [|discriminate]. unfold from_id.
    destruct (dget (by_id st) n) as [[|b l']|] eqn:DN; cbn; try discriminate. intros [= ->]. apply (i_ids _ _ I n (a :: l')); auto. now left. }
  set (s := mkStmt n t v false (fun _ => []) (fun _ => [])) in *.
  set (st2 := mkSt (stmts st ++ [s]) (tsset (at_ts st) t ((w :: l) ++ [u])) (dset (by_id st) n (same st n ++ [u])) (later st)).
  assert (A2 : forall t', at_timestamp st2 t' = at_timestamp st t').
  { intros t'. unfold at_timestamp, st2. cbn. rewrite tsget_set. destruct (ts_eqb t' t) eqn:TT; auto. apply ts_eqb_eq in TT. subst t'. now rewrite HL. }
  assert (I2 : Inv (bare st2) (arrived f t n false)).
  { constructor.
    - intros t'. rewrite in_arrived. change (at_timestamp (bare st2) t') with (at_timestamp st2 t'). rewrite A2, <- (i_ran _ _ I t').
      intuition congruence.
    - cbn. intros t' l'. rewrite tsget_set. destruct (ts_eqb t' t); [intros [= <-]; discriminate|apply (i_none _ _ I)].
    - intros t' u'. change (at_timestamp (bare st2) t') with (at_timestamp st2 t'). rewrite A2. intros H.
      destruct (i_head _ _ I t' u' H) as (q & rest & SQ & TQ & PQ & DQ & OQ & EQ).
      exists q, (if Nat.eqb (node q) n then rest ++ [u] else rest). split; [now apply grown_old|]. split; auto. split; auto. split.
      + cbn. rewrite dget_dset. destruct (Nat.eqb_spec (node q) n) as [E|_]; auto. unfold same. rewrite <- E, DQ. reflexivity.
      + rewrite ex_arrived. split; [rewrite OQ; intuition congruence|]. intros [(C & _)|C]; [discriminate|].
        destruct (EQ C) as (-> & M). split; [|now apply made_arrived]. destruct (Nat.eqb_spec (node q) n) as [E|_]; auto.
        rewrite E in M. contradiction.
    - cbn. intros m l'. rewrite dget_dset. destruct (Nat.eqb_spec m n) as [->|_]; [now left|]. intros H. right. exact (i_nodes _ _ I _ _ H).
    - apply dwf_dset. apply (i_wf _ _ I).
    - intros c. rewrite in_arrived. intros [->|H]; now apply (i_init _ _ I).
    - cbn. intros c p y. split; [intros []|]. intros (ds & ys & C & _). discriminate.
    - cbn. discriminate.
    - apply (graph_live (Live st)).
      + apply (graph_same _ st); [apply (i_graph _ _ I)| |].
        * intros a A. destruct (live_ex _ _ _ I A) as (q & Q). cbn. rewrite Q. now apply grown_old.
        * apply grown_tidy; [apply (g_tidy _ _ _ (i_graph _ _ I))|]. intros x. now split.
      + intros a. split; intros (t' & H); exists t'; [change (at_timestamp st2 t' = Ok a); now rewrite A2|].
        change (at_timestamp st2 t' = Ok a) in H. now rewrite A2 in H.
    - intros m H. right. now apply (i_made _ _ I).
    - intros c. rewrite ex_arrived, in_arrived. intros [(_ & H)|H]; [now left|right; now apply (i_extra _ _ I)].
    - intros a m t' w' o. unfold bare, st2. cbn [stmts at_ts by_id]. rewrite grown_Sh. destruct (Nat.eqb_spec a (List.length (stmts st))) as [->|NE]; [|apply (i_prev _ _ I)].
      cbn. intros [= _ _ HV _]. now apply Sh_lt, VO.
    - intros m l' a. unfold bare, st2. cbn [stmts at_ts by_id]. rewrite grown_Sh, dget_dset. destruct (Nat.eqb_spec a (List.length (stmts st))) as [->|NE]; [discriminate|].
      destruct (Nat.eqb_spec m n) as [->|_]; [|apply (i_ids _ _ I)]. intros [= <-] H. apply in_app_iff in H. destruct H as [H|[C|[]]]; [|now symmetry in C].
      unfold same in H. destruct (dget (by_id st) n) as [l0|] eqn:DN; [|destruct H]. now apply (i_ids _ _ I n l0). }
  destruct (finish_ok st f st2 t n false u I eq_refl I2) as (st3 & R3 & I3 & _).
  { left. destruct (tsget (later st) t) as [ds|] eqn:L; auto. now destruct (i_keys _ _ I t ds L) as (_ & _ & C). }
  exists st3. split; auto. unfold create. rewrite (bind_ok _ _ _ _ _ AL). rewrite <- R3.
  unfold bind at 1, look at 1, here. cbn [at_ts grown]. rewrite HL. reflexivity.
Qed.

(** A statement in the place of one for a moved widget. *)
Lemma over_ok st f t n : Inv st f -> In t (extras f) -> ~ In n (nodes f) ->
  exists st', create n t true st = (st', Ok (List.length (stmts st))) /\ Inv st' (arrive f t n true) /\
    at_timestamp st' t = Ok (List.length (stmts st)) /\ Nd st' (List.length (stmts st)) = Some n /\
    forall w o, at_timestamp st t = Ok w -> nth_error (stmts st) w = Some o -> from_id st' (node o) = Err KeyError.
Proof.
  intros I IX NN. set (u := List.length (stmts st)). set (s := mkStmt n t None true (fun _ => []) (fun _ => [])).
  pose proof (i_extra _ _ I t IX) as IT.
  assert (DN : dget (by_id st) n = None).
  { destruct (dget (by_id st) n) as [l|] eqn:D; auto. exfalso. apply NN. exact (i_nodes _ _ I _ _ D). }
  destruct (proj1 (i_ran _ _ I t) IT) as (w & AW). destruct (at_inv _ _ _ AW) as (l & HL).
  destruct (i_head _ _ I t w AW) as (o & rest & SO & TO & PO & DO & OO & EO). destruct (EO IX) as (-> & MO). clear EO.
  assert (AL : alloc n t true st = (grown st s, Ok u)) by (unfold alloc, has_id; rewrite DN; reflexivity).
  set (st1 := mkSt (stmts st ++ [s]) (tsset (at_ts st) t [u]) (dset (ddel (by_id st) (node o)) n [u]) (later st)).
  assert (NO : node o <> n) by (intros C; rewrite C in DO; congruence).
  assert (WU : w <> u). { intros ->. assert (nth_error (stmts st) u <> None) as C by congruence. apply nth_error_Some in C. unfold u in C. lia. }
  assert (A1 : forall t', at_timestamp st1 t' = if ts_eqb t' t then Ok u else at_timestamp st t').
  { intros t'. unfold at_timestamp, st1. cbn. rewrite tsget_set. destruct (ts_eqb t' t); reflexivity. }
  assert (LV : forall a, Live st1 a <-> (Live st a \/ a = u) /\ a <> w).
  { intros a. split.
    - intros (t' & H). rewrite A1 in H. destruct (ts_eqb t' t) eqn:TT.
      + injection H as <-. split; auto.
      + split; [left; now exists t'|]. intros ->. destruct (i_head _ _ I t' w H) as (q & _ & Q & TQ & _).
        rewrite SO in Q. injection Q as <-. apply ts_eqb_neq in TT. congruence.
    - intros ([(t' & H)| ->] & NW).
      + exists t'. rewrite A1. destruct (ts_eqb t' t) eqn:TT; auto. apply ts_eqb_eq in TT. subst t'. congruence.
      + exists t. rewrite A1, ts_eqb_refl. reflexivity. }
  assert (G1 : graph (fun a => Live st a \/ a = u) st1 (deps f)).
  { apply (graph_join (Live st) _ _ _ u s).
    - apply (graph_same _ st); [apply (i_graph _ _ I)| |].
      + intros a A. destruct (live_ex _ _ _ I A) as (q & Q). cbn. rewrite Q. now apply grown_old.
      + apply grown_tidy; [apply (g_tidy _ _ _ (i_graph _ _ I))|]. intros x. now split.
    - apply grown_new.
    - intros x. now split.
    - intros b B C. destruct (live_ex _ _ _ I B) as (q & Q). unfold Nd, Sh in C. cbn in C. rewrite (grown_old _ s _ _ Q) in C.
      cbn in C. injection C as C. apply NN. rewrite <- C. apply (live_node _ _ _ _ I B). now apply Nd_of.
    - reflexivity. }
  assert (LW : Live st w) by (now exists t).
  destruct (rewire_all _ st1 (deps f) u w o s G1 (or_intror eq_refl) (or_introl LW) (not_eq_sym WU)) as (st2 & R2 & K2 & G2 & o2 & SO2 & NE2).
  { now apply grown_old. } { apply grown_new. } { exact TO. }
  { intros b k [B| ->] NB NK.
    - destruct B as (t' & B). destruct (i_head _ _ I t' b B) as (q & rest & Q & TQ & _ & DQ & _).
      unfold Nd, Sh, st1 in NK. cbn in NK. rewrite (grown_old _ s _ _ Q) in NK. cbn in NK. injection NK as <-.
      unfold from_id, st1. cbn [by_id]. rewrite dget_dset.
      destruct (Nat.eqb_spec (node q) n) as [C|_]; [rewrite C in DQ; congruence|]. rewrite (dget_ddel _ _ _ (i_wf _ _ I)).
      destruct (Nat.eqb_spec (node q) (node o)) as [C|_]; [rewrite C in DQ; congruence|]. now rewrite DQ.
    - unfold Nd, Sh, st1 in NK. cbn in NK. rewrite grown_new in NK. cbn in NK. injection NK as <-.
      unfold from_id, st1. cbn [by_id]. now rewrite dget_dset_same. }
  pose proof K2 as (KA & KB & KC & KD).
  assert (A2 : forall t', at_timestamp st2 t' = if ts_eqb t' t then Ok u else at_timestamp st t').
  { intros t'. rewrite (at_kept _ _ _ K2). apply A1. }
  assert (SH : forall a q, nth_error (stmts st ++ [s]) a = Some q -> exists q', nth_error (stmts st2) a = Some q' /\ shape q' = shape q).
  { intros a q Q. specialize (KD a). unfold Sh in KD. cbn [stmts st1] in KD. rewrite Q in KD.
    destruct (nth_error (stmts st2) a) as [q'|]; [|discriminate]. exists q'. split; auto. cbn [option_map] in KD. congruence. }
  assert (I2 : Inv (bare st2) (arrived f t n true)).
  { constructor.
    - intros t'. rewrite in_arrived. change (at_timestamp (bare st2) t') with (at_timestamp st2 t'). rewrite A2.
      destruct (ts_eqb t' t) eqn:TT.
      + apply ts_eqb_eq in TT. split; eauto.
      + rewrite (i_ran _ _ I t'). apply ts_eqb_neq in TT. intuition congruence.
    - cbn. rewrite KA. cbn. intros t' l'. rewrite tsget_set. destruct (ts_eqb t' t); [intros [= <-]; discriminate|apply (i_none _ _ I)].
    - intros t' u'. change (at_timestamp (bare st2) t') with (at_timestamp st2 t'). rewrite A2.
      cbn [bare stmts by_id]. rewrite KB. cbn [st1 by_id]. destruct (ts_eqb t' t) eqn:TT.
      + apply ts_eqb_eq in TT. subst t'. intros [= <-]. destruct (SH u s (grown_new _ _)) as (q & SQ & HQ). injection HQ as HN HT HP HO.
        exists q, []. split; auto. split; auto. split; auto. rewrite HN, HO. cbn [node s override].
        split; [apply dget_dset_same|]. rewrite ex_arrived. split; [tauto|]. intros _. split; auto. now left.
      + apply ts_eqb_neq in TT. intros H. destruct (i_head _ _ I t' u' H) as (q0 & rest & SQ0 & TQ & PQ & DQ & OQ & EQ).
        destruct (SH u' q0 (grown_old _ _ _ _ SQ0)) as (q & SQ & HQ). injection HQ as HN HT HP HO.
        exists q, rest. rewrite HN, HT, HP, HO. split; auto. split; auto. split; auto. split.
        * rewrite dget_dset_other by (intros C; rewrite C in DQ; congruence). rewrite (dget_ddel _ _ _ (i_wf _ _ I)).
          destruct (Nat.eqb_spec (node q0) (node o)) as [C|_]; auto. exfalso. rewrite C, DO in DQ. injection DQ as <- _.
          rewrite SO in SQ0. injection SQ0 as <-. congruence.
        * rewrite ex_arrived. split; [rewrite OQ; intuition congruence|]. intros [(_ & C)|C]; [contradiction|].
          destruct (EQ C) as (-> & M). split; auto. now apply made_arrived.
    - cbn. rewrite KB. cbn. intros m l'. rewrite dget_dset, (dget_ddel _ _ _ (i_wf _ _ I)). destruct (Nat.eqb_spec m n) as [->|_]; [now left|].
      destruct (m =? node o); [discriminate|]. intros H. right. exact (i_nodes _ _ I _ _ H).
    - cbn. rewrite KB. apply dwf_dset, dwf_ddel, (i_wf _ _ I).
    - intros c. rewrite in_arrived. intros [->|H]; now apply (i_init _ _ I).
    - cbn. intros c p y. split; [intros []|]. intros (ds & ys & C & _). discriminate.
    - cbn. discriminate.
    - apply (graph_drop (fun a => Live st a \/ a = u) _ _ _ w o2); auto.
      + apply (graph_ext _ st2); auto.
      + intros a. rewrite <- LV. split; intros (t' & H); exists t'.
        * change (at_timestamp st2 t' = Ok a) in H. now rewrite (at_kept _ _ _ K2) in H.
        * change (at_timestamp st2 t' = Ok a). now rewrite (at_kept _ _ _ K2).
    - intros m H. cbn in H |- *. destruct H as [H|H]; [now left|]. right; now apply (i_made _ _ I).
    - intros c. rewrite ex_arrived, in_arrived. intros [(_ & H)|H]; [now left|right; now apply (i_extra _ _ I)].
    - intros a m t' v o'. change (Sh st2 a = Some (m, t', Some v, o') -> v < a). rewrite KD. unfold st1. rewrite grown_Sh. destruct (a =? _); [discriminate|apply (i_prev _ _ I)].
    - intros m l' a. change (dget (by_id st2) m = Some l' -> In a l' -> Sh st2 a <> None). rewrite KB, KD. unfold st1. cbn [by_id].
      rewrite grown_Sh, dget_dset, (dget_ddel _ _ _ (i_wf _ _ I)). destruct (Nat.eqb_spec a (List.length (stmts st))) as [->|NE]; [discriminate|].
      destruct (m =? n); [intros [= <-] [C|[]]; now symmetry in C|]. destruct (m =? node o); [discriminate|]. apply (i_ids _ _ I). }
  destruct (finish_ok st f st2 t n true u I) as (st3 & R3 & I3 & AT3 & SH3 & BY3); auto.
  { right. rewrite A2, ts_eqb_refl. reflexivity. }
  exists st3. split; [|split; [exact I3|split; [|split]]];
    [|unfold at_timestamp; rewrite AT3; change (at_timestamp st2 t = Ok u); now rewrite A2, ts_eqb_refl
     |unfold Nd; rewrite SH3, KD; unfold Sh; cbn [stmts st1]; now rewrite grown_new
     |intros w' o' A' S'; rewrite AW in A'; injection A' as <-; rewrite SO in S'; injection S' as <-; unfold from_id; rewrite BY3, KB; cbn [by_id st1];
      rewrite dget_dset_other, (dget_ddel _ _ _ (i_wf _ _ I)), Nat.eqb_refl by auto; reflexivity].
  unfold create. rewrite (bind_ok _ _ _ _ _ AL). rewrite <- R3.
  unfold bind at 1, look at 1, here. cbn [at_ts grown]. rewrite HL. cbn [is_nil negb andb].
  rewrite (bind_ok _ _ (grown st s) st2 tt); [reflexivity|]. rewrite <- R2. unfold take_over.
  assert (AG : at_timestamp (grown st s) t = Ok w) by exact AW.
  unfold bind at 1, look at 1. rewrite AG.
  rewrite (bind_ok _ _ _ _ _ (get_ok (grown st s) w o (grown_old _ _ _ _ SO))).
  unfold bind at 1, pop_id at 1. cbn [by_id grown]. rewrite DO. cbn [List.length Nat.eqb check].
  unfold bind at 1, ret at 1. unfold bind at 1, look at 1, has_id. cbn [by_id]. rewrite (dget_ddel _ _ _ (i_wf _ _ I)).
  destruct (Nat.eqb_spec n (node o)) as [C|_]; [now symmetry in C|]. rewrite DN. reflexivity.
Qed.

(** *** The events *)
Lemma Inv_start : Inv start nothing.
Proof.
  assert (NL : forall a, ~ Live start a) by (intros a (t & H); discriminate).
  constructor; cbn; try (intros; discriminate); try (intros ? H; destruct H; fail).
  - intros t. split; [intros []|]. intros (u & H). discriminate.
  - constructor.
  - intros c p y. split; [intros []|]. intros (ds & ys & H & _). discriminate.
  - constructor; try (intros; exfalso; eapply NL; eassumption).
    + intros a s x H. destruct a; discriminate.
    + intros x c d y. split; [intros []|]. intros (a & b & n & A & _). now apply NL in A.
  - intros u n t v o H. unfold Sh in H. destruct u; discriminate.
Qed.

Lemma Inv_ran st f n t : Inv st f -> fits f (Ran n t) -> exists st', does (Ran n t) st = (st', Ok tt) /\ Inv st' (told f (Ran n t)).
Proof.
  intros I (IN & [(A & B)|(A & B & C)]); [destruct (new_ok st f t n false I IN A B) as (st' & R & I' & _)|destruct (nested_ok st f t n I A B C) as (st' & R & I')];
    exists st'; (split; [cbn [does]; now rewrite (bind_ok _ _ _ _ _ R)|exact I']).
Qed.

Lemma Inv_moved st f n k t0 y : Inv st f -> fits f (Moved n k t0 y) ->
  exists st', does (Moved n k t0 y) st = (st', Ok tt) /\ Inv st' (told f (Moved n k t0 y)) /\
    at_timestamp st' (moved_to t0 k) = Ok (List.length (stmts st)) /\
    Nd st' (List.length (stmts st)) = Some n /\
    forall w o, at_timestamp st (moved_to t0 k) = Ok w -> nth_error (stmts st) w = Some o -> from_id st' (node o) = Err KeyError.
Proof.
  intros I (NN & IT & IX). set (t := moved_to t0 k) in *. set (f1 := arrive f t n true).
  assert (INI : ts_is_initialized t = true).
  { pose proof (i_init _ _ I t0 IT) as H. unfold ts_is_initialized, t, moved_to in *. cbn. 
    apply andb_prop in H. destruct H as (H & _). cbn [ts_uninit cell_num stmt_num] in *. rewrite H. cbn [andb]. apply Z.ltb_lt. lia. }
  assert (exists st1, create n t true st = (st1, Ok (List.length (stmts st))) /\ Inv st1 f1 /\
    at_timestamp st1 t = Ok (List.length (stmts st)) /\ Nd st1 (List.length (stmts st)) = Some n /\
    forall w o, at_timestamp st t = Ok w -> nth_error (stmts st) w = Some o -> from_id st1 (node o) = Err KeyError) as (st1 & R1 & I1 & AU & NU & OU).
  { destruct (has (ran f) t) eqn:HT; [apply has_spec in HT|apply has_false in HT]; [apply over_ok; auto|].
    destruct (new_ok st f t n true I INI HT NN) as (st1 & A & B & C & D). exists st1. repeat (split; auto). intros w o A'. exfalso. apply HT. apply (i_ran _ _ I). eauto. }
  assert (RT : In t (ran f1)) by (unfold f1; cbn; destruct (has (ran f) t) eqn:HT; [now apply has_spec|now left]).
  assert (RT0 : In t0 (ran f1)) by (unfold f1; cbn; destruct (has (ran f) t); [auto|now right]).
  set (u := List.length (stmts st)) in *. destruct (proj1 (i_ran _ _ I1 t0) RT0) as (v & AV).
  destruct (Inv_link st1 f1 Dynamic t0 t y v u I1 AV AU) as (st2 & R2 & K2 & I2).
  assert (AU2 : at_timestamp st2 t = Ok u) by (now rewrite (at_kept _ _ _ K2)).
  assert (AV2 : at_timestamp st2 t0 = Ok v) by (now rewrite (at_kept _ _ _ K2)).
  destruct (Inv_link st2 _ Dynamic t t0 y u v I2 AU2 AV2) as (st3 & R3 & K3 & I3).
  exists st3. split; [|split; [exact I3|]].
  - cbn [does]. unfold move. fold t. rewrite (bind_ok _ _ _ _ _ R1).
    assert (D2 : depend Dynamic t0 t y st1 = (st2, Ok tt)).
    { unfold depend. rewrite (i_init _ _ I t0 IT). cbn [negb]. unfold bind, look. now rewrite AV, AU. }
    rewrite (bind_ok _ _ _ _ _ D2). unfold depend. rewrite INI. cbn [negb]. unfold bind, look. now rewrite AU2, AV2.
  - rewrite (at_kept _ _ _ K3), (kept_Nd _ _ _ K3), (kept_Nd _ _ _ K2). split; auto. split; auto. intros w o A B.
    rewrite (from_id_kept _ _ _ K3), (from_id_kept _ _ _ K2). eauto.
Qed.

Lemma Inv_reused st f x t t' : Inv st f -> fits f (Reused x t t') ->
  exists st', does (Reused x t t') st = (st', Ok tt) /\ Inv st' (told f (Reused x t t')).
Proof.
  intros I (IT & IT' & NP). destruct (proj1 (i_ran _ _ I t) IT) as (u & AU). destruct (proj1 (i_ran _ _ I t') IT') as (v & AV).
  destruct (i_head _ _ I t u AU) as (s & _ & SU & TU & PU & _). destruct (i_head _ _ I t' v AV) as (o & _ & SV & TV & PV & _).
  pose proof (i_graph _ _ I) as G. assert (LU : Live st u) by (now exists t). assert (LV : Live st v) by (now exists t').
  assert (PN : par s x = []).
  { destruct (dkeys (par s x)) as [|k ks] eqn:DK; [now apply dkeys_nil|]. exfalso.
    destruct (proj1 (neat_some (par s x) k (proj1 (g_tidy _ _ _ G u s x SU)))) as (y & P); [rewrite DK; now left|].
    apply (E_of st x u s k y SU) in P. destruct (g_par _ _ _ G x u k y LU P) as (b & LB & NB & _).
    destruct (g_ex _ _ _ G b LB) as (q & Q). apply (NP (time q) y). apply (g_deps _ _ _ G).
    exists u, b, k. repeat split; auto; [rewrite (Tm_of _ _ _ SU); congruence|now apply Tm_of]. }
  assert (KEY : forall d, In d (par o x) -> exists b q, from_id st (fst d) = Ok b /\ Live st b /\ nth_error (stmts st) b = Some q /\ node q = fst d).
  { intros (k & l) H. destruct (g_tidy _ _ _ G v o x SV) as ((W & NE) & _).
    pose proof (In_dget _ _ _ W H) as DG. destruct l as [|y l]; [now apply NE in DG|].
    assert (EV : E st x v k y) by (apply (E_of st x v o k y SV); exists (y :: l); split; auto; now left).
    destruct (g_par _ _ _ G x v k y LV EV) as (b & LB & NB & _). destruct (Nd_inv _ _ _ NB) as (q & Q & NQ).
    exists b, q. split; [|auto]. destruct LB as (tb & LB). destruct (i_head _ _ I tb b LB) as (q' & rest & Q' & _ & _ & D & _).
    rewrite Q in Q'. injection Q' as <-. unfold from_id. cbn [fst]. rewrite <- NQ, D. reflexivity. }
  set (tm := fun d : nat * list nat => match from_id st (fst d) with
     | Ok b => match nth_error (stmts st) b with Some q => time q | None => t end | Err _ => t end).
  destruct (links_loop (fun d st => from_id st (fst d)) tm snd x u t (Live st)) with (ds := par o x) (st := st) (D := deps f) (s := s)
    as (st' & R & K & G'); auto.
  { intros d a b KK. now apply from_id_kept. }
  { intros a b A B. now apply (Live_Tm st f). }
  { intros d H. destruct (KEY d H) as (b & q & FI & LB & Q & NQ). exists b. split; auto. split; auto. unfold tm. rewrite FI, Q. now apply Tm_of. }
  exists st'. split.
  - cbn [does]. unfold reuse. unfold bind at 1, look at 1. rewrite AU. unfold bind at 1, look at 1. rewrite AV.
    rewrite (bind_ok _ _ _ _ _ (get_ok st u s SU)). rewrite PN. cbn [dkeys map each]. unfold bind at 1, ret at 1.
    rewrite (bind_ok _ _ _ _ _ (get_ok st v o SV)). exact R.
  - cbn [told].
    change (Inv st' (with_deps f (fold_left (fun ds '(x', c, p, y) => if (ctx_eqb x x' && ts_eqb t' c)%bool then link ds x t p y else ds) (deps f) (deps f)))).
    apply (Inv_deps st); auto. eapply graph_deps; [exact G'|]. intros d.
    set (g := fun '(x', c, p, y) => if (ctx_eqb x x' && ts_eqb t' c)%bool then Some (p, y) else None : option (ts * nat)).
    assert (FE : forall l D, fold_left (fun ds '(x', c, p, y) => if (ctx_eqb x x' && ts_eqb t' c)%bool then link ds x t p y else ds) l D = many x t g l D).
    { induction l as [|[[[x' c] p] y] l IH]; intros D; auto. unfold many. cbn [fold_left]. rewrite IH. unfold many. f_equal. cbn.
      destruct (ctx_eqb x x' && ts_eqb t' c)%bool; reflexivity. }
    rewrite FE, !In_many. apply or_iff_compat_l. split.
    + intros ((p & y) & p' & y' & H & [= -> ->] & NE & LK & ->). apply in_flat_map in H. destruct H as ((k & l) & HD & HY).
      apply in_map_iff in HY. destruct HY as (y & [= <- <-] & HY). cbn in HY.
      exists (x, t', tm (k, l), y), (tm (k, l)), y. split; [|split; [unfold g; now rewrite ctx_eqb_refl, ts_eqb_refl|auto]].
      destruct (KEY _ HD) as (b & q & FI & LB & Q & NQ). apply (g_deps _ _ _ G). exists v, b, k.
      repeat split; auto; [rewrite (Tm_of _ _ _ SV); congruence|unfold tm; rewrite FI, Q; now apply Tm_of|now rewrite (Nd_of _ _ _ Q), NQ|].
      apply (E_of st x v o k y SV). exists l. split; auto. apply In_dget; auto. now destruct (g_tidy _ _ _ G v o x SV) as ((W & _) & _).
    + intros ([[[x' c] p] y0] & p' & y & H & HG & NE & LK & ->). cbn in HG. destruct (ctx_eqb x x' && ts_eqb t' c)%bool eqn:B; [|discriminate].
      injection HG as <- <-. apply andb_prop in B. destruct B as (B1 & B2). apply ctx_eqb_eq in B1. apply ts_eqb_eq in B2. subst x' c.
      exists (p, y0), p, y0. split; [|auto]. apply (g_deps _ _ _ G) in H. destruct H as (a & b & n & LA & LB & TA & TB & NB & HE).
      assert (a = v) as -> by (apply (Live_Tm st f); auto; rewrite TA, (Tm_of _ _ _ SV); congruence).
      apply (E_of st x v o n y0 SV) in HE. destruct HE as (l & DG & IY). apply in_flat_map. exists (n, l). split; [now apply dget_In|].
      apply in_map_iff. exists y0. split; auto. f_equal. destruct (KEY (n, l)) as (b' & q & FI & LB' & Q & NQ); [now apply dget_In|].
      unfold tm. rewrite FI, Q. assert (b' = b) as -> by (apply (g_node _ _ _ G); auto; rewrite NB, (Nd_of _ _ _ Q); cbn in NQ; congruence).
      rewrite (Tm_of _ _ _ Q) in TB. now injection TB.
Qed.

Lemma Inv_step st f e : Inv st f -> fits f e -> Inv (step st e) (told f e).
Proof.
  intros I H. destruct e as [n t|[|] c p y|n k t0 y|x t t'].
  - destruct (Inv_ran st f n t I H) as (st' & R & I'). unfold step. now rewrite R.
  - now apply Inv_dynamic.
  - destruct (Inv_static st f c p y I H) as (A & B). exact A.
  - destruct (Inv_moved st f n k t0 y I H) as (st' & R & I' & _). unfold step. now rewrite R.
  - destruct (Inv_reused st f x t t' I H) as (st' & R & I'). unfold step. now rewrite R.
Qed.
Lemma Inv_run es : forall st f, Inv st f -> all_fit f es -> Inv (run st es) (tell f es).
Proof. induction es as [|e es IH]; intros st f I H; auto. destruct H as (A & B). apply IH; auto. now apply Inv_step. Qed.

(** ** Slices *)
Lemma tget_heads (d : list (ts * list nat)) t : (forall l, tsget d t = Some l -> l <> []) ->
  tget (heads d) t = match tsget d t with Some (u :: _) => Some u | _ => None end.
Proof.
  induction d as [|(k & l) d IH]; auto. cbn [tsget]. intros H. unfold heads. cbn [flat_map fst snd].
  destruct (ts_eqb t k) eqn:TK.
  - destruct l as [|u l]; [exfalso; now apply (H [])|]. cbn. now rewrite TK.
  - destruct l as [|u l]; [apply IH; auto|]. cbn [List.app tget]. rewrite TK. apply IH; auto.
Qed.
Lemma keys_heads (d : dict (list nat)) k : In k (dkeys (heads d)) -> In k (dkeys d).
Proof.
  unfold dkeys, heads. rewrite !in_map_iff. intros ((k' & u) & <- & H). apply in_flat_map in H. destruct H as ((k2 & l) & H & E).
  exists (k2, l). cbn in *. destruct l; [destruct E|]. destruct E as [[= <- <-]|[]]. auto.
Qed.
Lemma dget_heads (d : dict (list nat)) k : dwf d -> dget (heads d) k = match dget d k with Some (u :: _) => Some u | _ => None end.
Proof.
  intros W. induction d as [|(k' & l) d IH]; auto. unfold dwf in W. cbn [dkeys map fst] in W. apply NoDup_cons_iff in W. destruct W as (NI & W).
  unfold heads. cbn [flat_map fst snd dget]. destruct (Nat.eqb_spec k k') as [->|NE].
  - destruct l as [|u l].
    + cbn [List.app]. destruct (dget (flat_map _ d) k') as [u|] eqn:D; auto. exfalso. apply NI. apply keys_heads. apply dget_In in D.
      apply in_map_iff. exists (k', u). auto.
    + cbn. now rewrite Nat.eqb_refl.
  - destruct l as [|u l]; [now apply IH|]. cbn [List.app dget]. destruct (Nat.eqb_spec k k'); [contradiction|]. now apply IH.
Qed.

Section Slices.
Variables (text : nat -> string) (st : state) (f : facts).
Hypothesis I : Inv st f.
Let w := world_of text st.

Lemma world_nth u : nth_error (objs w) u = option_map (fun s => mkSobj (time s) (prev s) (override s) (text (node s)) (par s)) (nth_error (stmts st) u).
Proof. unfold w, world_of. cbn. apply nth_error_map. Qed.
Lemma world_at t u : tget (by_ts w) t = Some u <-> at_timestamp st t = Ok u.
Proof.
  unfold w, world_of. cbn. rewrite tget_heads by (apply (i_none _ _ I)). unfold at_timestamp.
  destruct (tsget (at_ts st) t) as [[|v l]|]; cbn; split; congruence.
Qed.
Lemma world_id k u : dget (ids w) k = Some u <-> from_id st k = Ok u.
Proof.
  unfold w, world_of. cbn. rewrite dget_heads by (apply (i_wf _ _ I)). unfold from_id.
  destruct (dget (by_id st) k) as [[|v l]|]; cbn; split; congruence.
Qed.
Lemma world_fine : world_ok w.
Proof.
  split; [|split].
  - intros u o p H P. rewrite world_nth in H. destruct (nth_error (stmts st) u) as [s|] eqn:S; [|discriminate]. injection H as <-. cbn in P.
    apply (i_prev _ _ I u (node s) (time s) p (override s)). unfold Sh. rewrite S. cbn. unfold shape. now rewrite P.
  - intros k u H. apply world_id in H. unfold from_id in H. destruct (dget (by_id st) k) as [[|v l]|] eqn:D; try discriminate. injection H as ->.
    unfold w, world_of. cbn. rewrite map_length. apply Sh_lt. apply (i_ids _ _ I k (u :: l)); auto. now left.
  - intros t u H. apply world_at in H. destruct (i_head _ _ I t u H) as (s & _ & S & _). unfold w, world_of. cbn. rewrite map_length.
    apply nth_error_Some. congruence.
Qed.
Lemma world_names t u : names w (STs t) u <-> at_timestamp st t = Ok u.
Proof.
  rewrite <- world_at. split.
  - inversion 1; subst; auto. discriminate.
  - intros H. now apply N_stmt_ts.
Qed.

(** Whether a statement at [c] may depend on one at [p]. *)
Definition usable (c p : ts) : Prop := ts_ltb c p = false \/ In p (extras f).

Lemma head_explains c b q v : at_timestamp st (time q) = Ok b -> nth_error (stmts st) b = Some q ->
  explains w c b v <-> v = b /\ usable c (time q).
Proof.
  intros A B. destruct (i_head _ _ I _ _ A) as (q' & _ & B' & _ & P & _ & O & _). rewrite B in B'. injection B' as <-. split.
  - intros (newer & ov & VP & NV & OK & NW). inversion VP as [z|z o p n z' NO PO]; subst.
    + rewrite world_nth, B in NV. injection NV as <-. cbn in OK. split; auto. unfold usable, newer_than in *. cbn in OK.
      destruct (ts_ltb c (time q)); [right|left; reflexivity]. apply O. destruct OK as [OK|OK]; [now destruct OK|auto].
    + rewrite world_nth, B in NO. injection NO as <-. cbn in PO. congruence.
  - intros (-> & U). exists [], (mkSobj (time q) (prev q) (override q) (text (node q)) (par q)). split; [constructor|]. split; [now rewrite world_nth, B|].
    split; [|intros ? ? []]. cbn. unfold newer_than. cbn. destruct U as [U|U]; [left; congruence|right; now apply O].
Qed.

Lemma world_records c u xs : at_timestamp st c = Ok u ->
  forall k, records w xs u k <-> exists x p y b q, In x xs /\ In (x, c, p, y) (deps f) /\ at_timestamp st p = Ok b /\
    nth_error (stmts st) b = Some q /\ node q = k /\ time q = p.
Proof.
  intros A k. pose proof (i_graph _ _ I) as G. destruct (i_head _ _ I c u A) as (s & _ & S & TS & _).
  assert (LU : Live st u) by (now exists c). split.
  - intros (o & x & l & O & IX & IL). rewrite world_nth, S in O. injection O as <-. cbn in IL.
    destruct (g_tidy _ _ _ G u s x S) as ((W & NE) & _). pose proof (In_dget _ _ _ W IL) as DG. destruct l as [|y l]; [now apply NE in DG|].
    assert (EU : E st x u k y) by (apply (E_of st x u s k y S); exists (y :: l); split; auto; now left).
    destruct (g_par _ _ _ G x u k y LU EU) as (b & LB & NB & _). destruct (Nd_inv _ _ _ NB) as (q & Q & NQ). pose proof LB as (tb & AB).
    destruct (i_head _ _ I tb b AB) as (q' & _ & Q' & TQ & _). rewrite Q in Q'. injection Q' as <-.
    exists x, (time q), y, b, q. split; auto. split; [|rewrite TQ; auto]. apply (g_deps _ _ _ G). exists u, b, k.
    repeat split; auto; [rewrite (Tm_of _ _ _ S); congruence|now apply Tm_of].
  - intros (x & p & y & b & q & IX & D & AB & Q & NQ & TQ). apply (g_deps _ _ _ G) in D. destruct D as (a & b' & n & LA & LB & TA & TB & NB & EA).
    assert (a = u) as -> by (apply (Live_Tm st f); auto; rewrite TA, (Tm_of _ _ _ S); congruence).
    assert (b' = b) as -> by (apply (Live_Tm st f); auto; [now exists p|]; rewrite TB, (Tm_of _ _ _ Q); congruence).
    rewrite (Nd_of _ _ _ Q) in NB. injection NB as <-. apply (E_of st x u s _ y S) in EA. destruct EA as (l & DG & IY).
    eexists _, x, l. split; [rewrite world_nth, S; reflexivity|]. split; auto. cbn. apply dget_In. now rewrite <- NQ.
Qed.

Lemma head_id b q : at_timestamp st (time q) = Ok b -> nth_error (stmts st) b = Some q -> dget (ids w) (node q) = Some b.
Proof.
  intros A Q. apply world_id. destruct (i_head _ _ I _ _ A) as (q' & rest & Q' & _ & _ & D & _). rewrite Q in Q'. injection Q' as <-.
  unfold from_id. now rewrite D.
Qed.

Lemma world_depends c u xs v : at_timestamp st c = Ok u ->
  depends w xs u v <-> exists p, at_timestamp st p = Ok v /\ uses (deps f) xs c p /\ usable c p.
Proof.
  intros A. destruct (i_head _ _ I c u A) as (s & _ & S & TS & _). split.
  - intros (o & k & u0 & O & R & D & X). rewrite world_nth, S in O. injection O as <-. cbn in X.
    apply (world_records c u xs A) in R. destruct R as (x & p & y & b & q & IX & IDP & AB & Q & NQ & TQ). subst k p.
    rewrite (head_id _ _ AB Q) in D. injection D as <-. apply (head_explains _ _ _ _ AB Q) in X. destruct X as (-> & U). rewrite TS in U.
    exists (time q). split; auto. split; auto. now exists x, y.
  - intros (p & AV & (x & y & IX & D) & U). destruct (i_head _ _ I p v AV) as (q & _ & Q & TQ & _). subst p.
    eexists _, (node q), v. split; [rewrite world_nth, S; reflexivity|]. split; [|split; [now apply head_id|]].
    + apply (world_records c u xs A). exists x, (time q), y, v, q. auto 7.
    + cbn. apply (head_explains _ _ _ _ AV Q). split; auto. now rewrite TS.
Qed.

Lemma world_dangling c u xs : at_timestamp st c = Ok u ->
  dangling w xs u <-> exists p, uses (deps f) xs c p /\ ~ usable c p.
Proof.
  intros A. destruct (i_head _ _ I c u A) as (s & _ & S & TS & _). split.
  - intros (o & k & O & R & X). rewrite world_nth, S in O. injection O as <-. cbn in X.
    apply (world_records c u xs A) in R. destruct R as (x & p & y & b & q & IX & IDP & AB & Q & NQ & TQ). subst k p.
    exists (time q). split; [now exists x, y|]. intros U. apply (X b b (head_id _ _ AB Q)). apply (head_explains _ _ _ _ AB Q). rewrite TS. auto.
  - intros (p & (x & y & IX & D) & U). destruct (deps_ran st f x c p y I D) as (_ & RP & _). destruct (proj1 (i_ran _ _ I p) RP) as (b & AB).
    destruct (i_head _ _ I p b AB) as (q & _ & Q & TQ & _). subst p.
    eexists _, (node q). split; [rewrite world_nth, S; reflexivity|]. split.
    + apply (world_records c u xs A). exists x, (time q), y, b, q. auto 7.
    + intros u0 v D0. rewrite (head_id _ _ AB Q) in D0. injection D0 as <-. rewrite (head_explains _ _ _ _ AB Q). cbn. rewrite TS. tauto.
Qed.

Lemma world_reach xs c u v : at_timestamp st c = Ok u -> reach (depends w xs) u v ->
  exists p, at_timestamp st p = Ok v /\ reach (uses (deps f) xs) c p.
Proof.
  intros A R. revert c A. induction R as [u|u z v D R IH]; intros c A; [exists c; split; auto; constructor|].
  apply (world_depends c u xs z A) in D. destruct D as (p & AZ & U & _). destruct (IH p AZ) as (p' & AV & R').
  exists p'. split; auto. econstructor; eauto.
Qed.
Lemma world_reach_back xs c p : reach (uses (deps f) xs) c p -> forall u, at_timestamp st c = Ok u ->
  (forall v, reach (depends w xs) u v -> ~ dangling w xs v) -> exists v, at_timestamp st p = Ok v /\ reach (depends w xs) u v.
Proof.
  induction 1 as [c|c z p U R IH]; intros u A ND; [exists u; split; auto; constructor|].
  assert (RZ : In z (ran f)) by (destruct U as (x & y & _ & D); now destruct (deps_ran st f x c z y I D) as (_ & R' & _)).
  destruct (proj1 (i_ran _ _ I z) RZ) as (b & AB).
  assert (US : usable c z).
  { unfold usable. destruct (ts_ltb c z) eqn:LT; auto. destruct (has (extras f) z) eqn:HX; [right; now apply has_spec|]. apply has_false in HX.
    exfalso. apply (ND u (reach_refl _ _)). apply (world_dangling c u xs A). exists z. split; auto. unfold usable. intros [C|C]; [congruence|contradiction]. }
  assert (DZ : depends w xs u b) by (apply (world_depends c u xs b A); eauto).
  destruct (IH b AB) as (v & AV & RV). { intros v RV. apply ND. econstructor; eauto. }
  exists v. split; auto. econstructor; eauto.
Qed.

Lemma seeds_fine t u : at_timestamp st t = Ok u -> forall sd, In sd [STs t] -> seed_ok w sd.
Proof.
  intros A sd [<-|[]]. exists u. split; [now apply at_seed_names, world_names|].
  destruct (i_head _ _ I t u A) as (s & _ & S & _). unfold w, world_of. cbn. rewrite map_length. apply nth_error_Some. congruence.
Qed.

Lemma slice_is xs t l : make_multi_slice w xs [STs t] false = Ok l ->
  forall v, In v l <-> exists c, at_timestamp st c = Ok v /\ reach (uses (deps f) xs) t c.
Proof.
  intros H v. rewrite (slice_members _ _ _ _ H). 
  assert (SE : exists u, at_timestamp st t = Ok u).
  { destruct (at_seed w (STs t)) as [u|e] eqn:SD; [exists u; apply world_names; now apply at_seed_names|].
    unfold make_multi_slice in H. cbn [rfold] in H. rewrite SD in H. discriminate. }
  destruct SE as (u & A). split.
  - intros (sd & u' & [<-|[]] & N & R). apply world_names in N. rewrite A in N. injection N as <-. destruct (world_reach xs t u v A R) as (p & AV & R'). eauto.
  - intros (c & AC & R). destruct (world_reach_back xs t c R u A) as (v' & AV & RV).
    + intros z RZ. assert (exists l, make_multi_slice w xs [STs t] false = Ok l) as EX by eauto.
      apply (proj1 (slice_total w xs [STs t] world_fine (seeds_fine t u A)) EX). exists (STs t), u. split; [now left|]. split; auto. now apply world_names.
    + rewrite AC in AV. injection AV as <-. exists (STs t), u. split; [now left|]. split; auto. now apply world_names.
Qed.

Lemma slice_when xs t : (exists l, make_multi_slice w xs [STs t] false = Ok l) <->
  In t (ran f) /\ forall c p, reach (uses (deps f) xs) t c -> uses (deps f) xs c p -> usable c p.
Proof.
  split.
  - intros (l & H). assert (exists u, at_timestamp st t = Ok u) as (u & A).
    { destruct (at_seed w (STs t)) as [u|e] eqn:SD; [exists u; apply world_names; now apply at_seed_names|].
      unfold make_multi_slice in H. cbn [rfold] in H. rewrite SD in H. discriminate. }
    split; [apply (i_ran _ _ I); eauto|].
    assert (ND : forall v, in_closure w xs [STs t] v -> ~ dangling w xs v).
    { assert (exists l, make_multi_slice w xs [STs t] false = Ok l) as EX by eauto.
      exact (proj1 (slice_total w xs [STs t] world_fine (seeds_fine t u A)) EX). }
    intros c p R U. destruct (world_reach_back xs t c R u A) as (v & AV & RV).
    + intros v RV. apply ND. exists (STs t), u. split; [now left|]. split; auto. now apply world_names.
    + unfold usable. destruct (ts_ltb c p) eqn:LT; auto. destruct (has (extras f) p) eqn:HX; [right; now apply has_spec|]. apply has_false in HX. exfalso.
      apply (ND v); [exists (STs t), u; split; [now left|]; split; auto; now apply world_names|].
      apply (world_dangling c v xs AV). exists p. split; auto. unfold usable. intros [C|C]; [congruence|contradiction].
  - intros (RT & OK). destruct (proj1 (i_ran _ _ I t) RT) as (u & A). apply (slice_total w xs [STs t] world_fine (seeds_fine t u A)).
    intros v (sd & u' & [<-|[]] & N & R). apply world_names in N. rewrite A in N. injection N as <-. destruct (world_reach xs t u v A R) as (c & AV & R').
    intros D. apply (world_dangling c v xs AV) in D. destruct D as (p & U & NU). apply NU. eauto.
Qed.
End Slices.

(** ** As in the specification *)
Lemma parent_deps st f x c p y : Inv st f -> parent st x c p y <-> In (x, c, p, y) (deps f).
Proof.
  intros I. pose proof (i_graph _ _ I) as G. rewrite (g_deps _ _ _ G). split.
  - intros (u & v & s & o & l & C & P & S & O & D & IY). destruct (i_head _ _ I c u C) as (s' & _ & S' & TS & _). rewrite S in S'. injection S' as <-.
    destruct (i_head _ _ I p v P) as (o' & _ & O' & TO & _). rewrite O in O'. injection O' as <-.
    exists u, v, (node o). rewrite (Tm_of _ _ _ S), (Tm_of _ _ _ O), (Nd_of _ _ _ O), TS, TO.
    repeat split; try (now exists c); try (now exists p). apply (E_of st x u s _ y S). now exists l.
  - intros (u & v & n & (c' & C) & (p' & P) & TC & TP & NV & HE). destruct (i_head _ _ I c' u C) as (s & _ & S & TS & _).
    destruct (i_head _ _ I p' v P) as (o & _ & O & TO & _). rewrite (Tm_of _ _ _ S) in TC. rewrite (Tm_of _ _ _ O) in TP. rewrite (Nd_of _ _ _ O) in NV.
    injection TC as TC. injection TP as TP. injection NV as NV. subst. apply (E_of st x u s _ y S) in HE. destruct HE as (l & D & IY).
    exists u, v, s, o, l. auto 7.
Qed.
Lemma child_deps st f x c p y : Inv st f -> child st x p c y <-> In (x, c, p, y) (deps f).
Proof.
  intros I. rewrite <- (parent_deps st f x c p y I). pose proof (i_graph _ _ I) as G. split.
  - intros (u & v & s & o & l & C & P & S & O & D & IY).
    assert (HF : F st x v (node s) y) by (apply (F_of st x v o _ y O); now exists l).
    apply (g_sym _ _ _ G x u v (node s) (node o)) in HF; [|now exists c|now exists p|now apply Nd_of|now apply Nd_of].
    apply (E_of st x u s _ y S) in HF. destruct HF as (l' & D' & IY'). exists u, v, s, o, l'. auto 7.
  - intros (u & v & s & o & l & C & P & S & O & D & IY).
    assert (HE : E st x u (node o) y) by (apply (E_of st x u s _ y S); now exists l).
    apply (g_sym _ _ _ G x u v (node s) (node o)) in HE; [|now exists c|now exists p|now apply Nd_of|now apply Nd_of].
    apply (F_of st x v o _ y O) in HE. destruct HE as (l' & D' & IY'). exists u, v, s, o, l'. auto 7.
Qed.
Lemma edges_known st f t u s x k : Inv st f -> at_timestamp st t = Ok u -> nth_error (stmts st) u = Some s ->
  In k (dkeys (par s x)) \/ In k (dkeys (chi s x)) ->
  exists t' v o, at_timestamp st t' = Ok v /\ nth_error (stmts st) v = Some o /\ node o = k /\ from_id st k = Ok v /\ t' <> t.
Proof.
  intros I A S H. pose proof (i_graph _ _ I) as G. assert (LU : Live st u) by (now exists t).
  assert (exists b, Live st b /\ Nd st b = Some k /\ Tm st b <> Tm st u) as (b & (tb & AB) & NB & TB).
  { destruct (g_tidy _ _ _ G u s x S) as (N1 & N2). destruct H as [H|H].
    - apply (neat_some _ _ N1) in H. destruct H as (y & H). apply (E_of st x u s k y S) in H. now apply (g_par _ _ _ G x u k y).
    - apply (neat_some _ _ N2) in H. destruct H as (y & H). apply (F_of st x u s k y S) in H. now apply (g_chi _ _ _ G x u k y). }
  destruct (i_head _ _ I tb b AB) as (q & rest & Q & TQ & _ & D & _). destruct (i_head _ _ I t u A) as (s' & _ & S' & TS & _).
  rewrite (Nd_of _ _ _ Q) in NB. injection NB as <-. rewrite (Tm_of _ _ _ Q), (Tm_of _ _ _ S') in TB.
  exists tb, b, q. repeat split; auto; [unfold from_id; now rewrite D|congruence].
Qed.

(** No two statements depend on each other in the same context. *)
Definition oneway (D : list dep) : Prop := forall x c p y y', In (x, c, p, y) D -> ~ In (x, p, c, y') D.
Lemma oneway_link D x c p y : oneway D -> oneway (link D x c p y).
Proof.
  intros O x' c' p' a b. rewrite !In_link. intros [H|(N & L & [= -> -> -> ->])] [H'|(N' & L' & E)].
  - exact (O _ _ _ _ _ H H').
  - injection E as -> -> -> ->. apply links_false with (y := a) in L'. contradiction.
  - apply links_false with (y := b) in L. contradiction.
  - injection E as E1 E2 E3. congruence.
Qed.
Lemma oneway_step st f e : Inv st f -> fits f e -> oneway (deps f) -> oneway (deps (told f e)).
Proof.
  intros I H O.
  assert (AR : forall t n ex, oneway (deps (arrive f t n ex))).
  { intros t n ex x c p y y'. cbn. rewrite !in_app_iff, !in_flat_map.
    assert (W : forall d, (exists w, In w (waiting f) /\ In d ((fun '(c, p, y) => if ts_eqb t c then [(Static, c, p, y)] else []) w)) ->
      exists p y, d = (Static, t, p, y) /\ ~ In t (ran f) /\ In p (ran f)).
    { intros d (((c0 & p0) & y0) & IW & ID). destruct (ts_eqb t c0) eqn:TC; [|destruct ID]. apply ts_eqb_eq in TC. subst c0. destruct ID as [<-|[]].
      apply (i_later _ _ I) in IW. destruct IW as (ds & ys & L & P & _). destruct (i_keys _ _ I t ds L) as (_ & KR & NR). exists p0, y0. split; auto. split; auto.
      apply KR. apply tsget_In in P. apply in_map_iff. now exists (p0, ys). }
    intros [A|A] [B|B].
    - apply W in A. apply W in B. destruct A as (p1 & y1 & [= -> -> -> ->] & NR & RP). destruct B as (p2 & y2 & [= -> <- ->] & _). contradiction.
    - apply W in A. destruct A as (p1 & y1 & [= -> -> -> ->] & NR & RP). apply (deps_ran _ _ _ _ _ _ I) in B. tauto.
    - apply W in B. destruct B as (p1 & y1 & [= -> -> -> ->] & NR & RP). apply (deps_ran _ _ _ _ _ _ I) in A. tauto.
    - exact (O _ _ _ _ _ A B). }
  destruct e as [n t|[|] c p y|n k t0 y|x t t']; cbn [told].
  - apply AR.
  - destruct (has (ran f) c && has (ran f) p)%bool; auto. cbn. now apply oneway_link.
  - exact O.
  - cbn [deps with_deps]. apply oneway_link, oneway_link, AR.
  - cbn [deps with_deps]. assert (FE : forall l D, oneway D -> oneway (fold_left (fun ds '(x', c, p, y) => if (ctx_eqb x x' && ts_eqb t' c)%bool then link ds x t p y else ds) l D)).
    { induction l as [|[[[x' c] p] y] l IH]; intros D OD; auto. cbn [fold_left]. apply IH. destruct (ctx_eqb x x' && ts_eqb t' c)%bool; auto. now apply oneway_link. }
    now apply FE.
Qed.
Lemma oneway_run es : forall st f, Inv st f -> oneway (deps f) -> all_fit f es -> oneway (deps (tell f es)).
Proof.
  induction es as [|e es IH]; intros st f I O H; auto. destruct H as (A & B). apply (IH (step st e)); auto; [now apply Inv_step|now apply (oneway_step st)].
Qed.

Lemma does_ok st f e : Inv st f -> fits f e -> (forall c p y, e = Depends Dynamic c p y -> In c (ran f) /\ In p (ran f)) -> snd (does e st) = Ok tt.
Proof.
  intros I H U. destruct e as [n t|[|] c p y|n k t0 y|x t t'].
  - destruct (Inv_ran st f n t I H) as (st' & R & I'). now rewrite R.
  - destruct (U c p y eq_refl). now apply (Inv_dynamic st f c p y I).
  - now apply (Inv_static st f c p y I H).
  - destruct (Inv_moved st f n k t0 y I H) as (st' & R & I' & _). now rewrite R.
  - destruct (Inv_reused st f x t t' I H) as (st' & R & I'). now rewrite R.
Qed.
