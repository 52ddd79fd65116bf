(** Lemmas about the table of aliases and the collection of garbage. *)
Require Import List Arith ZArith Bool Lia.
Import ListNotations.
Require Import Verif.Base Verif.Loops Verif.AliasModel Verif.AliasSpec.
Local Open Scope nat_scope.

(** * Tables *)
Lemma dget_dpop : forall {V} (d : dict V) k k', dget (dpop d k) k' = if k' =? k then None else dget d k'.
Proof.
  intros V d k k'. induction d as [|(a, v) d IH]; simpl; [destruct (k' =? k); auto|].
  destruct (Nat.eqb_spec a k) as [->|N]; simpl.
  - rewrite IH. destruct (k' =? k); auto.
  - destruct (k' =? a) eqn:E1.
    + apply Nat.eqb_eq in E1. subst. destruct (Nat.eqb_spec a k); congruence.
    + exact IH.
Qed.
Lemma dpop_keys : forall {V} (d : dict V) k x, In x (dkeys (dpop d k)) -> In x (dkeys d).
Proof.
  intros V d k x I. unfold dkeys, dpop in *. apply in_map_iff in I. destruct I as (r & <- & I). apply filter_In in I. apply in_map, I.
Qed.
Lemma dwf_dpop : forall {V} (d : dict V) k, dwf d -> dwf (dpop d k).
Proof.
  intros V d k W. induction d as [|(a, v) d IH]; [exact W|]. inversion W as [|? ? N W']; subst. unfold dpop. cbn [filter fst]. destruct (negb (a =? k)).
  - unfold dwf, dkeys in *. cbn [map fst]. constructor; [|apply IH; auto]. intros I. apply N. apply (dpop_keys d k a I).
  - apply IH. auto.
Qed.
Definition held_in (a : dict (list nat)) (o s : nat) : Prop := In s (held a o).
Lemma listed_held : forall st o s, listed st o s <-> held_in (aliases st) o s.
Proof.
  intros st o s. unfold listed, held_in, held. destruct (dget (aliases st) o) as [l|]; split.
  - intros (l' & [= <-] & I). auto.
  - eauto.
  - intros (l' & E & _). discriminate.
  - intros [].
Qed.
Lemma held_add : forall a c s o t, held_in (add a c s) o t <-> held_in a o t \/ o = c /\ t = s.
Proof.
  intros a c s o t. unfold held_in, add. unfold held at 1. destruct (Nat.eq_dec o c) as [->|N].
  - rewrite dget_dset_same, In_sadd. tauto.
  - rewrite dget_dset_other by auto. fold (held a o). tauto.
Qed.
Lemma held_discard : forall a c s o t, held_in (discard a c s) o t <-> held_in a o t /\ ~ (o = c /\ t = s).
Proof.
  intros a c s o t. unfold held_in, discard.
  assert (D : forall x, In x (sdiff (held a c) [s]) <-> In x (held a c) /\ x <> s) by (intros x; rewrite In_sdiff; simpl; intuition).
  destruct (is_nil (sdiff (held a c) [s])) eqn:E.
  - apply is_nil_true in E. rewrite E in D. unfold held at 1. rewrite dget_dpop. destruct (Nat.eqb_spec o c) as [->|N].
    + split; [intros []|]. intros (I & X). destruct (proj2 (D t)). split; auto.
    + fold (held a o). tauto.
  - unfold held at 1. destruct (Nat.eq_dec o c) as [->|N].
    + rewrite dget_dset_same, D. intuition.
    + rewrite dget_dset_other by auto. fold (held a o). tauto.
Qed.
Lemma dwf_add : forall a o s, dwf a -> dwf (add a o s).
Proof. intros a o s W. apply dwf_dset. auto. Qed.
Lemma dwf_discard : forall a o s, dwf a -> dwf (discard a o s).
Proof. intros a o s W. unfold discard. cbv zeta. destruct (is_nil _); [apply dwf_dpop|apply dwf_dset]; auto. Qed.
Lemma path_eqb_eq : forall a b, path_eqb a b = true <-> a = b.
Proof.
  induction a as [|x a IH]; intros [|y b]; simpl; split; try discriminate; auto.
  - rewrite andb_true_iff, Nat.eqb_eq, IH. intros (-> & ->). auto.
  - intros [= -> ->]. rewrite andb_true_iff, Nat.eqb_eq, IH. auto.
Qed.
Lemma table_set : forall c sub d sub', table (set_table c sub d) sub' = if Bool.eqb sub' sub then d else table c sub'.
Proof. intros c [|] d [|]; reflexivity. Qed.
Lemma set_table_rest : forall c sub d, s_ns (set_table c sub d) = s_ns c /\ s_obj (set_table c sub d) = s_obj c /\ s_path (set_table c sub d) = s_path c /\
  s_tomb (set_table c sub d) = s_tomb c /\ s_anon (set_table c sub d) = s_anon c /\ s_array (set_table c sub d) = s_array c.
Proof. intros c [|] d; repeat apply conj; reflexivity. Qed.
Lemma sym_of_Ok : forall st s y, sym_of st s = Ok y <-> dget (syms st) s = Some y.
Proof. intros st s y. unfold sym_of. destruct (dget (syms st) s); simpl; split; congruence. Qed.
Lemma scope_of_Ok : forall st s y, scope_of st s = Ok y <-> dget (scopes st) s = Some y.
Proof. intros st s y. unfold scope_of. destruct (dget (scopes st) s); simpl; split; congruence. Qed.

(** * Marking changes nothing but the marks *)
Definition sim_y (y y' : sym) : Prop := set_tomb y true = set_tomb y' true.
Definition sim_c (c c' : scp) : Prop := set_stomb c true = set_stomb c' true.
Definition rel_opt {A} (R : A -> A -> Prop) (a b : option A) : Prop := match a, b with Some x, Some y => R x y | None, None => True | _, _ => False end.
Record sim (st st' : state) : Prop := {
  sim_aliases : aliases st' = aliases st;
  sim_spaces : spaces st' = spaces st;
  sim_next : next st' = next st;
  sim_syms : forall s, rel_opt sim_y (dget (syms st) s) (dget (syms st') s);
  sim_scopes : forall n, rel_opt sim_c (dget (scopes st) n) (dget (scopes st') n) }.
Lemma sim_y_fields : forall y y', sim_y y y' -> y_name y' = y_name y /\ y_sub y' = y_sub y /\ y_scope y' = y_scope y /\ y_obj y' = y_obj y /\
  y_cached y' = y_cached y /\ y_anon y' = y_anon y /\ y_def y' = y_def y.
Proof. intros y y' H. unfold sim_y, set_tomb in H. injection H as -> -> -> -> -> -> ->. repeat apply conj; reflexivity. Qed.
Lemma sim_c_fields : forall c c', sim_c c c' -> (forall sub, table c' sub = table c sub) /\ s_ns c' = s_ns c /\ s_obj c' = s_obj c /\
  s_anon c' = s_anon c /\ s_array c' = s_array c /\ s_path c' = s_path c.
Proof.
  intros c c' H. unfold sim_c, set_stomb in H. injection H as H1 H2 -> -> -> -> ->. split; [|repeat apply conj; reflexivity].
  intros [|]; simpl; congruence.
Qed.
Lemma rel_refl : forall {A} (R : A -> A -> Prop) a, (forall x, R x x) -> rel_opt R a a.
Proof. intros A R [a|] H; simpl; auto. Qed.
Lemma sim_refl : forall st, sim st st.
Proof. intros st. split; auto; intros x; apply rel_refl; reflexivity. Qed.
Lemma sim_trans : forall a b c, sim a b -> sim b c -> sim a c.
Proof.
  intros a b c [A1 A2 A3 A4 A5] [B1 B2 B3 B4 B5]. split; try congruence.
  - intros s. specialize (A4 s). specialize (B4 s). destruct (dget (syms a) s), (dget (syms b) s), (dget (syms c) s); simpl in *; try tauto. unfold sim_y in *. congruence.
  - intros s. specialize (A5 s). specialize (B5 s). destruct (dget (scopes a) s), (dget (scopes b) s), (dget (scopes c) s); simpl in *; try tauto. unfold sim_c in *. congruence.
Qed.
Lemma sim_tomb : forall st s y b, dget (syms st) s = Some y -> sim st (with_sym st s (set_tomb y b)).
Proof.
  intros st s y b D. split; auto; intros t; simpl; [|apply rel_refl; reflexivity].
  destruct (Nat.eq_dec t s) as [->|N]; [rewrite D, dget_dset_same; reflexivity|rewrite dget_dset_other by auto; apply rel_refl; reflexivity].
Qed.
Lemma sim_stomb : forall st s y b, dget (scopes st) s = Some y -> sim st (with_scope st s (set_stomb y b)).
Proof.
  intros st s y b D. split; auto; intros t; simpl; [apply rel_refl; reflexivity|].
  destruct (Nat.eq_dec t s) as [->|N]; [rewrite D, dget_dset_same; reflexivity|rewrite dget_dset_other by auto; apply rel_refl; reflexivity].
Qed.
Lemma sim_sym : forall st st' s y, sim st st' -> dget (syms st) s = Some y -> exists y', dget (syms st') s = Some y' /\ sim_y y y'.
Proof. intros st st' s y H D. pose proof (sim_syms _ _ H s) as R. rewrite D in R. destruct (dget (syms st') s); simpl in R; [eauto|contradiction]. Qed.
Lemma sim_sym' : forall st st' s y, sim st st' -> dget (syms st') s = Some y -> exists y', dget (syms st) s = Some y' /\ sim_y y' y.
Proof. intros st st' s y H D. pose proof (sim_syms _ _ H s) as R. rewrite D in R. destruct (dget (syms st) s); simpl in R; [eauto|contradiction]. Qed.
Lemma sim_scope : forall st st' s y, sim st st' -> dget (scopes st) s = Some y -> exists y', dget (scopes st') s = Some y' /\ sim_c y y'.
Proof. intros st st' s y H D. pose proof (sim_scopes _ _ H s) as R. rewrite D in R. destruct (dget (scopes st') s); simpl in R; [eauto|contradiction]. Qed.
Lemma sim_scope' : forall st st' s y, sim st st' -> dget (scopes st') s = Some y -> exists y', dget (scopes st) s = Some y' /\ sim_c y' y.
Proof. intros st st' s y H D. pose proof (sim_scopes _ _ H s) as R. rewrite D in R. destruct (dget (scopes st) s); simpl in R; [eauto|contradiction]. Qed.

Lemma mark_sim : forall f, (forall st s st', mark_sym f st s = Ok st' -> sim st st') /\ (forall st n st', mark_ns f st n = Ok st' -> sim st st').
Proof.
  induction f as [|f (IHs & IHn)]; (split; intros st x st' H; [|]); try discriminate; cbn [mark_sym mark_ns] in H.
  - apply rbind_Ok in H. destruct H as (y & Y & H). apply sym_of_Ok in Y. destruct (y_tomb y); [injection H as <-; apply sim_refl|].
    pose proof (sim_tomb st x y true Y) as S1. set (st1 := with_sym st x (set_tomb y true)) in *. cbv zeta in H.
    destruct (dget (spaces st1) (y_obj y)) as [n|]; [|injection H as <-; auto].
    apply rbind_Ok in H. destruct H as (b & _ & H). destruct b; [|injection H as <-; auto]. eapply sim_trans; [exact S1|]. eapply IHn; eauto.
  - apply rbind_Ok in H. destruct H as (c & C & H). apply scope_of_Ok in C. destruct (s_tomb c); [injection H as <-; apply sim_refl|].
    eapply sim_trans; [apply (sim_stomb st x c true C)|]. revert H. generalize (with_scope st x (set_stomb c true)). clear C.
    induction (members c) as [|t l IH]; intros st1 H; cbn [rfold] in H; [injection H as <-; apply sim_refl|].
    apply rbind_Ok in H. destruct H as (st2 & H1 & H2). eapply sim_trans; [eapply IHs; eauto|eauto].
Qed.

(** * The invariant *)
(** Symbols in [X] are just being changed. *)
Record inv (X : nat -> Prop) (st : state) : Prop := {
  i_fit : forall t y, dget (syms st) t = Some y -> ~ X t -> forall o, listed st o t <-> o = y_obj y;
  i_set : forall t y, dget (syms st) t = Some y -> ~ X t -> y_cached y = Some (y_obj y);
  i_known : forall o t, listed st o t -> dget (syms st) t <> None;
  i_place : forall n sub k t, bound st n sub k t -> placed st n sub k t;
  i_scope : forall t y, dget (syms st) t = Some y -> dget (scopes st) (y_scope y) <> None;
  i_space : forall o n, dget (spaces st) o = Some n -> exists c, dget (scopes st) n = Some c /\ s_obj c = o /\ s_ns c = true;
  i_fresh : forall t, (dget (syms st) t <> None \/ dget (scopes st) t <> None) -> t < next st;
  i_wf : forall n c sub, dget (scopes st) n = Some c -> dwf (table c sub);
  i_root : exists c, dget (scopes st) 0 = Some c /\ s_ns c = false;
  i_sub : forall t y c, dget (syms st) t = Some y -> dget (scopes st) (y_scope y) = Some c -> y_sub y = true -> s_ns c = true;
  i_wfa : dwf (aliases st);
  i_wfs : dwf (spaces st) }.

Definition plen (st : state) (s : nat) (k : nat) : Prop := exists y c, dget (syms st) s = Some y /\ dget (scopes st) (y_scope y) = Some c /\ length (s_path c) = k.
(** Only what is below depth [L] has changed, apart from [E] and marks. *)
Record frame (L : nat) (E : nat -> Prop) (st st' : state) : Prop := {
  f_sym : forall u y k, dget (syms st) u = Some y -> plen st u k -> k < L -> ~ E u -> exists y', dget (syms st') u = Some y' /\ sim_y y y';
  f_table : forall n c, dget (scopes st) n = Some c -> length (s_path c) < L -> exists c', dget (scopes st') n = Some c' /\ forall sub, table c' sub = table c sub;
  f_path : forall n c, dget (scopes st) n = Some c -> exists c', dget (scopes st') n = Some c' /\ s_path c' = s_path c /\ s_ns c' = s_ns c /\ s_obj c' = s_obj c /\ s_anon c' = s_anon c;
  f_keys : forall u y, dget (syms st) u = Some y -> exists y', dget (syms st') u = Some y' /\ y_anon y' = y_anon y /\ y_sub y' = y_sub y;
  f_keys' : forall u, dget (syms st') u <> None -> dget (syms st) u <> None;
  f_plen : forall u k, plen st u k -> plen st' u k;
  f_listed : forall u k, plen st u k -> k < L -> ~ E u -> forall o, listed st' o u <-> listed st o u;
  f_next : next st <= next st' }.

Lemma listed_same : forall st st', aliases st' = aliases st -> forall o s, listed st' o s <-> listed st o s.
Proof. intros st st' E o s. unfold listed. rewrite E. tauto. Qed.
Lemma sim_plen : forall st st' u k, sim st st' -> plen st u k -> plen st' u k.
Proof.
  intros st st' u k S (y & c & Y & C & L). destruct (sim_sym _ _ _ _ S Y) as (y' & Y' & Ry). destruct (sim_scope _ _ _ _ S C) as (c' & C' & Rc).
  exists y', c'. apply sim_y_fields in Ry. apply sim_c_fields in Rc. destruct Ry as (_ & _ & -> & _). split; auto. split; auto. destruct Rc as (_ & _ & _ & _ & _ & ->). auto.
Qed.
Lemma sim_frame : forall L E st st', sim st st' -> frame L E st st'.
Proof.
  intros L E st st' S. split.
  - intros u y k D _ _ _. eapply sim_sym; eauto.
  - intros n c C _. destruct (sim_scope _ _ _ _ S C) as (c' & C' & R). exists c'. split; auto. apply sim_c_fields in R. apply R.
  - intros n c C. destruct (sim_scope _ _ _ _ S C) as (c' & C' & R). exists c'. split; auto. apply sim_c_fields in R. tauto.
  - intros u y D. destruct (sim_sym _ _ _ _ S D) as (y' & D' & R). exists y'. split; auto. apply sim_y_fields in R. tauto.
  - intros u D. pose proof (sim_syms _ _ S u) as R. destruct (dget (syms st) u), (dget (syms st') u); simpl in R; try tauto; congruence.
  - intros u k. apply sim_plen. auto.
  - intros u k _ _ _ o. apply listed_same. apply (sim_aliases _ _ S).
  - rewrite (sim_next _ _ S). lia.
Qed.
Lemma frame_refl : forall L E st, frame L E st st.
Proof. intros. apply sim_frame, sim_refl. Qed.
Lemma sim_y_trans : forall a b c, sim_y a b -> sim_y b c -> sim_y a c.
Proof. unfold sim_y. congruence. Qed.
Lemma frame_trans : forall L E a b c, frame L E a b -> frame L E b c -> frame L E a c.
Proof.
  intros L E a b c A B. split.
  - intros u y k D P K N. destruct (f_sym _ _ _ _ A u y k D P K N) as (y' & D' & R). destruct (f_sym _ _ _ _ B u y' k D' (f_plen _ _ _ _ A u k P) K N) as (y2 & D2 & R2).
    exists y2. split; auto. eapply sim_y_trans; eauto.
  - intros n x D K. destruct (f_table _ _ _ _ A n x D K) as (x' & D' & T). destruct (f_path _ _ _ _ A n x D) as (x'' & D'' & P & _). assert (x'' = x') by congruence. subst x''.
    destruct (f_table _ _ _ _ B n x' D') as (x2 & D2 & T2); [rewrite P; auto|]. exists x2. split; auto. intros sub. rewrite T2. auto.
  - intros n x D. destruct (f_path _ _ _ _ A n x D) as (x' & D' & P1 & P2 & P3 & P4). destruct (f_path _ _ _ _ B n x' D') as (x2 & D2 & Q1 & Q2 & Q3 & Q4). exists x2. repeat apply conj; congruence.
  - intros u y D. destruct (f_keys _ _ _ _ A u y D) as (y' & D' & A1 & A2). destruct (f_keys _ _ _ _ B u y' D') as (y2 & D2 & B1 & B2). exists y2. repeat apply conj; congruence.
  - intros u N. apply (f_keys' _ _ _ _ A). apply (f_keys' _ _ _ _ B). auto.
  - intros u k P. apply (f_plen _ _ _ _ B). apply (f_plen _ _ _ _ A). auto.
  - intros u k P K N o. rewrite (f_listed _ _ _ _ B u k (f_plen _ _ _ _ A u k P) K N o). apply (f_listed _ _ _ _ A u k); auto.
  - pose proof (f_next _ _ _ _ A). pose proof (f_next _ _ _ _ B). lia.
Qed.
Lemma frame_weaken : forall L (E : nat -> Prop) L' (E' : nat -> Prop) a b, frame L E a b -> L' <= L -> (forall u k, plen a u k -> k < L' -> E u -> E' u) -> frame L' E' a b.
Proof.
  intros L E L' E' a b A LE EE. split.
  - intros u y k D P K N. apply (f_sym _ _ _ _ A u y k); auto; [lia|]. intros X. apply N. eapply EE; eauto.
  - intros n c C K. apply (f_table _ _ _ _ A n c C). lia.
  - apply (f_path _ _ _ _ A).
  - apply (f_keys _ _ _ _ A).
  - apply (f_keys' _ _ _ _ A).
  - apply (f_plen _ _ _ _ A).
  - intros u k P K N. apply (f_listed _ _ _ _ A u k); auto; [lia|]. intros X. apply N. eapply EE; eauto.
  - apply (f_next _ _ _ _ A).
Qed.
Lemma plen_fun : forall st u k k', plen st u k -> plen st u k' -> k = k'.
Proof. intros st u k k' (y & c & Y & C & L) (y' & c' & Y' & C' & L'). assert (y' = y) by congruence. subst. assert (c' = c) by congruence. subst. auto. Qed.

Lemma inv_sim : forall X st st', sim st st' -> inv X st -> inv X st'.
Proof.
  intros X st st' S I. pose proof (listed_same _ _ (sim_aliases _ _ S)) as LS. split.
  - intros t y D N o. destruct (sim_sym' _ _ _ _ S D) as (y' & D' & R). apply sim_y_fields in R. destruct R as (_ & _ & _ & -> & _). rewrite LS. apply (i_fit _ _ I); auto.
  - intros t y D N. destruct (sim_sym' _ _ _ _ S D) as (y' & D' & R). apply sim_y_fields in R. destruct R as (_ & _ & _ & -> & -> & _). apply (i_set _ _ I t); auto.
  - intros o t L. rewrite LS in L. pose proof (i_known _ _ I _ _ L) as K. pose proof (sim_syms _ _ S t) as R. destruct (dget (syms st) t), (dget (syms st') t); simpl in R; try tauto; congruence.
  - intros n sub k t (c & C & D). destruct (sim_scope' _ _ _ _ S C) as (c' & C' & R). apply sim_c_fields in R. destruct R as (R & _). rewrite R in D.
    destruct (i_place _ _ I n sub k t) as (y & Y & P); [exists c'; auto|]. destruct (sim_sym _ _ _ _ S Y) as (y' & Y' & R'). exists y'. split; auto. apply sim_y_fields in R'.
    destruct R' as (-> & -> & -> & _). auto.
  - intros t y D. destruct (sim_sym' _ _ _ _ S D) as (y' & D' & R). apply sim_y_fields in R. destruct R as (_ & _ & -> & _). pose proof (i_scope _ _ I t y' D') as K.
    pose proof (sim_scopes _ _ S (y_scope y')) as R. destruct (dget (scopes st) (y_scope y')), (dget (scopes st') (y_scope y')); simpl in R; try tauto; congruence.
  - intros o n D. rewrite (sim_spaces _ _ S) in D. destruct (i_space _ _ I _ _ D) as (c & C & O & N). destruct (sim_scope _ _ _ _ S C) as (c' & C' & R). apply sim_c_fields in R.
    exists c'. destruct R as (_ & -> & -> & _). auto.
  - intros t [D|D]; rewrite (sim_next _ _ S); apply (i_fresh _ _ I).
    + left. pose proof (sim_syms _ _ S t) as R. destruct (dget (syms st) t), (dget (syms st') t); simpl in R; try tauto; congruence.
    + right. pose proof (sim_scopes _ _ S t) as R. destruct (dget (scopes st) t), (dget (scopes st') t); simpl in R; try tauto; congruence.
  - intros n c sub C. destruct (sim_scope' _ _ _ _ S C) as (c' & C' & R). apply sim_c_fields in R. destruct R as (-> & _). eapply (i_wf _ _ I); eauto.
  - destruct (i_root _ _ I) as (c & C & N). destruct (sim_scope _ _ _ _ S C) as (c' & C' & R). apply sim_c_fields in R. exists c'. split; auto. destruct R as (_ & -> & _). auto.
  - intros t y c D C Sb. destruct (sim_sym' _ _ _ _ S D) as (y' & D' & R). apply sim_y_fields in R. destruct R as (_ & R1 & R2 & _). rewrite R1 in Sb. rewrite R2 in C.
    destruct (sim_scope' _ _ _ _ S C) as (c' & C' & R'). apply sim_c_fields in R'. destruct R' as (_ & -> & _). eapply (i_sub _ _ I); eauto.
  - rewrite (sim_aliases _ _ S). apply (i_wfa _ _ I).
  - rewrite (sim_spaces _ _ S). apply (i_wfs _ _ I).
Qed.
Lemma inv_weaken : forall (X Y : nat -> Prop) st, (forall t, X t -> Y t) -> inv X st -> inv Y st.
Proof.
  intros X Y st H I. split.
  - intros t y D N. apply (i_fit _ _ I); auto.
  - intros t y D N. apply (i_set _ _ I t); auto.
  - apply (i_known _ _ I).
  - apply (i_place _ _ I).
  - apply (i_scope _ _ I).
  - apply (i_space _ _ I).
  - apply (i_fresh _ _ I).
  - apply (i_wf _ _ I).
  - apply (i_root _ _ I).
  - apply (i_sub _ _ I).
  - apply (i_wfa _ _ I).
  - apply (i_wfs _ _ I).
Qed.

(** * The global scope *)
Record glob (E : nat -> Prop) (st st' : state) : Prop := {
  g_sym : forall u y, dget (syms st) u = Some y -> y_scope y = 0 -> ~ E u -> dget (syms st') u = Some y;
  g_sym' : forall u y, dget (syms st') u = Some y -> y_scope y = 0 -> exists y0, dget (syms st) u = Some y0 /\ y_scope y0 = 0;
  g_tab : forall c, dget (scopes st) 0 = Some c -> exists c', dget (scopes st') 0 = Some c' /\ s_names c' = s_names c }.
Lemma glob_refl : forall E st, glob E st st.
Proof. intros E st. split; eauto. Qed.
Lemma glob_trans : forall E a b c, glob E a b -> glob E b c -> glob E a c.
Proof.
  intros E a b c A B. split.
  - intros u y D Z N. apply (g_sym _ _ _ B); auto. apply (g_sym _ _ _ A); auto.
  - intros u y D Z. destruct (g_sym' _ _ _ B u y D Z) as (y0 & D0 & Z0). apply (g_sym' _ _ _ A u y0 D0 Z0).
  - intros x C. destruct (g_tab _ _ _ A x C) as (x' & C' & T). destruct (g_tab _ _ _ B x' C') as (x2 & C2 & T2). exists x2. split; auto. congruence.
Qed.
Lemma glob_weaken : forall (E E' : nat -> Prop) a b, (forall u, E u -> E' u) -> glob E a b -> glob E' a b.
Proof. intros E E' a b H A. split; [|apply (g_sym' _ _ _ A)|apply (g_tab _ _ _ A)]. intros u y D Z N. apply (g_sym _ _ _ A); auto. Qed.
Lemma glob_with_sym : forall (E : nat -> Prop) st s y y', dget (syms st) s = Some y -> (y_scope y' = 0 -> y_scope y = 0) -> (y_scope y = 0 -> E s) -> glob E st (with_sym st s y').
Proof.
  intros E st s y y' D Z H. split; simpl; eauto.
  - intros u z Du Zu N. destruct (Nat.eq_dec u s) as [->|Ne]; [|rewrite dget_dset_other; auto]. exfalso. apply N, H. congruence.
  - intros u z Du Zu. destruct (Nat.eq_dec u s) as [->|Ne]; [|rewrite dget_dset_other in Du by auto; eauto]. rewrite dget_dset_same in Du. injection Du as <-. eauto.
Qed.
Lemma glob_with_scope : forall E st n c', (n = 0 -> exists c, dget (scopes st) 0 = Some c /\ s_names c' = s_names c) -> glob E st (with_scope st n c').
Proof.
  intros E st n c' H. split; simpl; eauto. intros c C. destruct (Nat.eq_dec n 0) as [->|N].
  - destruct H as (c0 & C0 & T); auto. rewrite dget_dset_same. exists c'. split; auto. congruence.
  - exists c. rewrite dget_dset_other by auto. auto.
Qed.
Lemma glob_with_aliases : forall E st a, glob E st (with_aliases st a).
Proof. intros. split; simpl; eauto. Qed.

Lemma members_bound : forall st n c s, dget (scopes st) n = Some c -> (forall sub, dwf (table c sub)) -> In s (members c) -> exists sub k, bound st n sub k s.
Proof.
  intros st n c s C W I. unfold members in I. apply in_app_iff in I. destruct I as [I|I]; unfold dvals in I; apply in_map_iff in I; destruct I as ((k, v) & E & I); simpl in E; subst v.
  - exists false, k, c. split; auto. apply In_dget; [apply (W false)|auto].
  - exists true, k, c. split; auto. apply In_dget; [apply (W true)|auto].
Qed.
Lemma bound_members : forall st n sub k s, bound st n sub k s -> exists c, dget (scopes st) n = Some c /\ In s (members c).
Proof.
  intros st n sub k s (c & C & D). exists c. split; auto. apply dget_In in D. unfold members, dvals. apply in_app_iff. destruct sub; simpl in D; [right|left]; change s with (snd (k, s)); apply in_map; auto.
Qed.
Lemma mark_glob : forall f X, (forall st s st', inv X st -> mark_sym f st s = Ok st' -> glob (eq s) st st') /\
  (forall st n c st', inv X st -> dget (scopes st) n = Some c -> s_ns c = true -> mark_ns f st n = Ok st' -> glob (fun _ => False) st st').
Proof.
  induction f as [|f IH]; intros X; (split; [intros st x st' I H|intros st x c st' I C NS H]); try discriminate; destruct (IH X) as (IHs & IHn); cbn [mark_sym mark_ns] in H.
  - apply rbind_Ok in H. destruct H as (y & Y & H). apply sym_of_Ok in Y. destruct (y_tomb y); [injection H as <-; apply glob_refl|].
    pose proof (sim_tomb st x y true Y) as S1. assert (G1 : glob (eq x) st (with_sym st x (set_tomb y true))) by (apply glob_with_sym with (y := y); auto).
    set (st1 := with_sym st x (set_tomb y true)) in *. cbv zeta in H.
    destruct (dget (spaces st1) (y_obj y)) as [n|] eqn:Sp; [|injection H as <-; auto].
    apply rbind_Ok in H. destruct H as (b & _ & H). destruct b; [|injection H as <-; auto]. eapply glob_trans; [exact G1|]. pose proof (inv_sim _ _ _ S1 I) as I1.
    destruct (i_space _ _ I1 _ _ Sp) as (c & C & _ & NS). apply glob_weaken with (E := fun _ => False); [tauto|]. eapply IHn; eauto.
  - apply rbind_Ok in H. destruct H as (c' & C' & H). apply scope_of_Ok in C'. assert (c' = c) by congruence. subst c'. clear C'. destruct (s_tomb c); [injection H as <-; apply glob_refl|].
    assert (N0 : x <> 0) by (intros ->; destruct (i_root _ _ I) as (c0 & C0 & Z); congruence).
    apply glob_trans with (b := with_scope st x (set_stomb c true)); [apply glob_with_scope; intros Z; contradiction|].
    assert (I1 : inv X (with_scope st x (set_stomb c true))) by (eapply inv_sim; [apply sim_stomb; eauto|auto]).
    assert (P : forall t, In t (members c) -> exists y, dget (syms (with_scope st x (set_stomb c true))) t = Some y /\ y_scope y <> 0).
    { intros t It. destruct (members_bound st x c t C (fun sub => i_wf _ _ I x c sub C) It) as (sub & k & B). destruct (i_place _ _ I _ _ _ _ B) as (y & Y & Sc & _). exists y. simpl. split; auto. congruence. }
    revert I1 P H. generalize (with_scope st x (set_stomb c true)). induction (members c) as [|t l IHl]; intros st1 I1 P H; cbn [rfold] in H; [injection H as <-; apply glob_refl|].
    apply rbind_Ok in H. destruct H as (st2 & H1 & H2). pose proof (proj1 (mark_sim f) _ _ _ H1) as S2. pose proof (IHs _ _ _ I1 H1) as G2. destruct (P t (or_introl eq_refl)) as (y & Y & Sc).
    eapply glob_trans; [|apply IHl; [eapply inv_sim; eauto| |exact H2]].
    + split; [|apply (g_sym' _ _ _ G2)|apply (g_tab _ _ _ G2)]. intros u z D Z _. apply (g_sym _ _ _ G2); auto. intros <-. congruence.
    + intros u Iu. destruct (P u (or_intror Iu)) as (z & Du & Zu). destruct (sim_sym _ _ _ _ S2 Du) as (z' & Dz & R). exists z'. split; auto. apply sim_y_fields in R. destruct R as (_ & _ & -> & _). auto.
Qed.

(** * Changing one thing *)
Lemma inv_with_sym : forall X st s y y', inv X st -> dget (syms st) s = Some y ->
  (forall n sub k, bound st n sub k s -> y_scope y' = n /\ y_sub y' = sub /\ y_name y' = k) ->
  (exists c, dget (scopes st) (y_scope y') = Some c /\ (y_sub y' = true -> s_ns c = true)) ->
  (~ X s -> (forall o, listed st o s <-> o = y_obj y') /\ y_cached y' = Some (y_obj y')) -> inv X (with_sym st s y').
Proof.
  intros X st s y y' I D B (c & C & CS) F. split; simpl.
  - intros t z Dt N o. destruct (Nat.eq_dec t s) as [->|Ne].
    + rewrite dget_dset_same in Dt. injection Dt as <-. apply (proj1 (F N)).
    + rewrite dget_dset_other in Dt by auto. apply (i_fit _ _ I t z Dt N).
  - intros t z Dt N. destruct (Nat.eq_dec t s) as [->|Ne].
    + rewrite dget_dset_same in Dt. injection Dt as <-. apply (proj2 (F N)).
    + rewrite dget_dset_other in Dt by auto. apply (i_set _ _ I t z Dt N).
  - intros o t L. destruct (Nat.eq_dec t s) as [->|Ne]; [rewrite dget_dset_same; discriminate|rewrite dget_dset_other by auto; eapply (i_known _ _ I); eauto].
  - intros n sub k t Bt. destruct (Nat.eq_dec t s) as [->|Ne].
    + exists y'. simpl. rewrite dget_dset_same. split; auto.
    + destruct (i_place _ _ I n sub k t Bt) as (z & Z & P). exists z. simpl. rewrite dget_dset_other by auto. auto.
  - intros t z Dt. destruct (Nat.eq_dec t s) as [->|Ne].
    + rewrite dget_dset_same in Dt. injection Dt as <-. congruence.
    + rewrite dget_dset_other in Dt by auto. eapply (i_scope _ _ I); eauto.
  - apply (i_space _ _ I).
  - intros t [H|H]; apply (i_fresh _ _ I); [|right; auto]. left. destruct (Nat.eq_dec t s) as [->|Ne]; [congruence|]. rewrite dget_dset_other in H by auto. auto.
  - apply (i_wf _ _ I).
  - apply (i_root _ _ I).
  - intros t z x Dt Cx Sb. destruct (Nat.eq_dec t s) as [->|Ne].
    + rewrite dget_dset_same in Dt. injection Dt as <-. assert (x = c) by congruence. subst x. auto.
    + rewrite dget_dset_other in Dt by auto. eapply (i_sub _ _ I); eauto.
  - apply (i_wfa _ _ I).
  - apply (i_wfs _ _ I).
Qed.
(** A scope whose tables change to [c']. *)
Lemma inv_with_scope : forall X st n c c', inv X st -> dget (scopes st) n = Some c -> s_ns c' = s_ns c -> s_obj c' = s_obj c -> (forall sub, dwf (table c' sub)) ->
  (forall sub k t, dget (table c' sub) k = Some t -> placed st n sub k t) -> inv X (with_scope st n c').
Proof.
  intros X st n c c' I C NS OB W P.
  assert (K : forall m x, dget (dset (scopes st) n c') m = Some x -> exists x0, dget (scopes st) m = Some x0 /\ s_ns x = s_ns x0 /\ s_obj x = s_obj x0).
  { intros m x D. destruct (Nat.eq_dec m n) as [->|Ne]; [rewrite dget_dset_same in D; injection D as <-; eauto|rewrite dget_dset_other in D by auto; eauto]. }
  assert (K' : forall m x, dget (scopes st) m = Some x -> exists x0, dget (dset (scopes st) n c') m = Some x0 /\ s_ns x0 = s_ns x /\ s_obj x0 = s_obj x).
  { intros m x D. destruct (Nat.eq_dec m n) as [->|Ne]; [rewrite dget_dset_same; exists c'; split; auto; assert (x = c) by congruence; subst; auto|rewrite dget_dset_other by auto; eauto]. }
  split; simpl.
  - apply (i_fit _ _ I).
  - apply (i_set _ _ I).
  - apply (i_known _ _ I).
  - intros m sub k t (x & Dx & T). simpl in Dx. destruct (Nat.eq_dec m n) as [->|Ne].
    + rewrite dget_dset_same in Dx. injection Dx as <-. apply P; auto.
    + rewrite dget_dset_other in Dx by auto. apply (i_place _ _ I). exists x. auto.
  - intros t y D. pose proof (i_scope _ _ I t y D) as H. destruct (dget (scopes st) (y_scope y)) as [x|] eqn:E; [|congruence]. destruct (K' _ _ E) as (x0 & -> & _). discriminate.
  - intros o m D. destruct (i_space _ _ I _ _ D) as (x & Cx & O & N). destruct (K' _ _ Cx) as (x0 & -> & R1 & R2). exists x0. repeat apply conj; congruence.
  - intros t [H|H]; apply (i_fresh _ _ I); [left; auto|]. right. destruct (dget (dset (scopes st) n c') t) as [x|] eqn:E; [|congruence]. destruct (K _ _ E) as (x0 & -> & _). discriminate.
  - intros m x sub D. destruct (Nat.eq_dec m n) as [->|Ne]; [rewrite dget_dset_same in D; injection D as <-; auto|rewrite dget_dset_other in D by auto; eapply (i_wf _ _ I); eauto].
  - destruct (i_root _ _ I) as (x & Cx & N). destruct (K' _ _ Cx) as (x0 & -> & R1 & R2). exists x0. split; congruence.
  - intros t y x D Cx Sb. destruct (K _ _ Cx) as (x0 & C0 & -> & _). eapply (i_sub _ _ I); eauto.
  - apply (i_wfa _ _ I).
  - apply (i_wfs _ _ I).
Qed.
Lemma inv_with_aliases : forall (X : nat -> Prop) st a, inv X st -> dwf a -> (forall o t, ~ X t -> (held_in a o t <-> listed st o t)) -> (forall o t, held_in a o t -> dget (syms st) t <> None) ->
  inv X (with_aliases st a).
Proof.
  intros X st a I W H K. split; simpl; auto.
  - intros t y D N o. rewrite listed_held. simpl. rewrite H by auto. apply (i_fit _ _ I t y D N).
  - apply (i_set _ _ I).
  - intros o t L. rewrite listed_held in L. apply (K o t L).
  - apply (i_place _ _ I).
  - apply (i_scope _ _ I).
  - apply (i_space _ _ I).
  - apply (i_fresh _ _ I).
  - apply (i_wf _ _ I).
  - apply (i_root _ _ I).
  - apply (i_sub _ _ I).
  - apply (i_wfs _ _ I).
Qed.
Lemma unput_inv : forall X st n sub k st', inv X st -> unput st n sub k = Ok st' -> inv X st'.
Proof.
  intros X st n sub k st' I H. unfold unput in H. apply rmap_Ok in H. destruct H as (c & C & <-). apply scope_of_Ok in C. destruct (set_table_rest c sub (dpop (table c sub) k)) as (R1 & R2 & _).
  eapply inv_with_scope; eauto.
  - intros sub'. rewrite table_set. destruct (Bool.eqb sub' sub); [apply dwf_dpop|]; eapply (i_wf _ _ I); eauto.
  - intros sub' k' t D. apply (i_place _ _ I). exists c. split; auto. rewrite table_set in D. destruct (Bool.eqb sub' sub) eqn:E; auto.
    apply Bool.eqb_prop in E. subst. rewrite dget_dpop in D. destruct (k' =? k); [discriminate|auto].
Qed.
Lemma put_inv : forall X st n sub k t st', inv X st -> placed st n sub k t -> put st n sub k t = Ok st' -> inv X st'.
Proof.
  intros X st n sub k t st' I P H. unfold put in H. apply rmap_Ok in H. destruct H as (c & C & <-). apply scope_of_Ok in C. destruct (set_table_rest c sub (dset (table c sub) k t)) as (R1 & R2 & _).
  eapply inv_with_scope; eauto.
  - intros sub'. rewrite table_set. destruct (Bool.eqb sub' sub); [apply dwf_dset|]; eapply (i_wf _ _ I); eauto.
  - intros sub' k' u D. rewrite table_set in D. destruct (Bool.eqb sub' sub) eqn:E; [|apply (i_place _ _ I); exists c; auto].
    apply Bool.eqb_prop in E. subst. rewrite dget_dset in D. destruct (Nat.eqb_spec k' k) as [->|N]; [injection D as <-; auto|]. apply (i_place _ _ I); exists c; auto.
Qed.
Lemma frame_with_sym : forall L (E : nat -> Prop) st s y y' k, dget (syms st) s = Some y -> plen st s k -> plen (with_sym st s y') s k -> (k < L -> E s) -> y_anon y' = y_anon y -> y_sub y' = y_sub y ->
  frame L E st (with_sym st s y').
Proof.
  intros L E st s y y' k D P P' H A Sb. split; simpl.
  - intros u z m Du Pu K N. destruct (Nat.eq_dec u s) as [->|Ne]; [|rewrite dget_dset_other by auto; exists z; split; auto; reflexivity].
    exfalso. apply N, H. rewrite (plen_fun _ _ _ _ P Pu). auto.
  - eauto.
  - intros n c C. exists c. auto.
  - intros u z Du. destruct (Nat.eq_dec u s) as [->|Ne]; [rewrite dget_dset_same|rewrite dget_dset_other by auto; eauto]. exists y'. assert (z = y) by congruence. subst. auto.
  - intros u Du. destruct (Nat.eq_dec u s) as [->|Ne]; [congruence|rewrite dget_dset_other in Du by auto; auto].
  - intros u m Pu. destruct (Nat.eq_dec u s) as [->|Ne]; [rewrite (plen_fun _ _ _ _ Pu P); auto|]. destruct Pu as (z & c & Du & C & Le). exists z, c. simpl. rewrite dget_dset_other by auto. auto.
  - intros u m Pu K N o. apply listed_same. auto.
  - auto.
Qed.
Lemma frame_with_scope : forall L E st n c c', dget (scopes st) n = Some c -> s_path c' = s_path c -> s_ns c' = s_ns c -> s_obj c' = s_obj c -> s_anon c' = s_anon c -> L <= length (s_path c) ->
  frame L E st (with_scope st n c').
Proof.
  intros L E st n c c' C R1 R2 R3 R4 Le.
  assert (K' : forall m x, dget (scopes st) m = Some x -> exists x0, dget (dset (scopes st) n c') m = Some x0 /\ s_path x0 = s_path x /\ s_ns x0 = s_ns x /\ s_obj x0 = s_obj x /\ s_anon x0 = s_anon x).
  { intros m x D. destruct (Nat.eq_dec m n) as [->|Ne]; [rewrite dget_dset_same; exists c'; split; auto; assert (x = c) by congruence; subst; auto|rewrite dget_dset_other by auto; exists x; auto]. }
  split; simpl.
  - intros u y k D _ _ _. exists y. split; auto. reflexivity.
  - intros m x D K. destruct (Nat.eq_dec m n) as [->|Ne]; [assert (x = c) by congruence; subst; lia|]. exists x. rewrite dget_dset_other by auto. auto.
  - auto.
  - eauto.
  - auto.
  - intros u k (y & x & Y & Cx & Lx). destruct (K' _ _ Cx) as (x0 & D0 & P0 & _). exists y, x0. simpl. rewrite P0. auto.
  - intros u k _ _ _ o. apply listed_same. auto.
  - auto.
Qed.
Lemma frame_with_aliases : forall L (E : nat -> Prop) st a, (forall o t, ~ E t -> (held_in a o t <-> listed st o t)) -> frame L E st (with_aliases st a).
Proof.
  intros L E st a H. split; simpl.
  - intros u y k D _ _ _. exists y. split; auto. reflexivity.
  - eauto.
  - intros n c C. exists c. auto.
  - eauto.
  - auto.
  - auto.
  - intros u k _ _ N o. rewrite listed_held. simpl. apply H. auto.
  - auto.
Qed.

(** * The loops of [transfer_symbols_to] *)
Definition pre (st : state) (t o : nat) : Prop := exists y c, dget (syms st) t = Some y /\ y_cached y = Some c /\ (forall o', listed st o' t -> o' = c \/ o' = o) /\ (c = o -> listed st o t).
Definition self (st st' : state) (t o : nat) : Prop := forall y, dget (syms st) t = Some y ->
  exists b, dget (syms st') t = Some (set_tomb (set_cached (set_obj y o) (Some o)) b) /\ (y_scope y = 0 -> b = false).
Definition upd_ok (upd : state -> nat -> nat -> res state) : Prop := forall st t o st' (X : nat -> Prop) L, inv (fun x => X x \/ x = t) st -> plen st t L ->
  (forall x, X x -> exists k, plen st x k /\ k < L) -> pre st t o -> upd st t o = Ok st' ->
  inv X st' /\ frame (S L) (eq t) st st' /\ glob (eq t) st st' /\ self st st' t o.
Lemma inv_pre : forall (X : nat -> Prop) st t o y, inv X st -> ~ X t -> dget (syms st) t = Some y -> pre st t o.
Proof.
  intros X st t o y I N D. exists y, (y_obj y). repeat apply conj; auto.
  - apply (i_set _ _ I t y D N).
  - intros o' Lo. left. apply (i_fit _ _ I t y D N). auto.
  - intros <-. apply (i_fit _ _ I t y D N). auto.
Qed.
Lemma move_ok : forall upd look old new sub, upd_ok upd -> forall l st st' (X : nat -> Prop) P co cn, inv X st -> (forall x, X x -> exists k, plen st x k /\ k < P) ->
  dget (scopes st) old = Some co -> length (s_path co) = P -> s_ns co = true -> dget (scopes st) new = Some cn -> length (s_path cn) = P -> s_ns cn = true -> old <> new ->
  NoDup l -> (forall t, In t l -> exists k, bound st old sub k t) -> move upd look old new sub l st = Ok st' ->
  inv X st' /\ frame P (fun _ => False) st st' /\ glob (fun _ => False) st st'.
Proof.
  intros upd look old new sub U. induction l as [|t l IH]; intros st st' X P co cn I XP CO PO NO CN PN NN ON ND BD H; cbn [move] in H.
  { injection H as <-. split; auto. split; [apply frame_refl|apply glob_refl]. }
  apply rbind_Ok in H. destruct H as (y & Y & H). apply sym_of_Ok in Y. inversion ND as [|? ? NI ND']; subst x l0.
  destruct (look (y_name y) sub) as [o| |]; [|eapply IH; eauto; intros u Iu; apply BD; right; auto|injection H as <-; split; auto; split; [apply frame_refl|apply glob_refl]].
  apply rbind_Ok in H. destruct H as (st1 & H1 & H). apply rbind_Ok in H. destruct H as (y1 & Y1 & H). apply sym_of_Ok in Y1.
  apply rbind_Ok in H. destruct H as (st2 & H2 & H). apply rbind_Ok in H. destruct H as (st3 & H3 & H4).
  destruct (BD t (or_introl eq_refl)) as (k & Bt). destruct (i_place _ _ I _ _ _ _ Bt) as (y0 & Y0 & Sc & Sb & Nm). assert (y0 = y) by congruence. subst y0. clear Y0.
  assert (PT : plen st t P) by (exists y, co; rewrite Sc; auto).
  assert (NX : ~ X t). { intros Xt. destruct (XP t Xt) as (k' & Pk & Lk). rewrite (plen_fun _ _ _ _ Pk PT) in Lk. lia. }
  destruct (U st t o st1 X P) as (I1 & F1 & G1 & S1); auto.
  { eapply inv_weaken; [|exact I]. auto. }
  { eapply inv_pre; eauto. }
  destruct (S1 y Y) as (b & Y1' & _). rewrite Y1 in Y1'. injection Y1' as E1.
  assert (y_name y1 = k /\ y_scope y1 = old /\ y_sub y1 = sub /\ y_anon y1 = y_anon y) as (N1 & Sc1 & Sb1 & A1) by (subst y1; simpl; auto). clear E1.
  destruct (f_table _ _ _ _ F1 old co CO) as (co1 & CO1 & T1); [lia|]. destruct (f_path _ _ _ _ F1 old co CO) as (co1' & CO1' & Po1 & No1 & Oo1 & Ao1). assert (co1' = co1) by congruence. subst co1'. clear CO1'.
  destruct (f_table _ _ _ _ F1 new cn CN) as (cn1 & CN1 & U1); [lia|]. destruct (f_path _ _ _ _ F1 new cn CN) as (cn1' & CN1' & Pn1 & Nn1 & On1 & An1). assert (cn1' = cn1) by congruence. subst cn1'. clear CN1'.
  assert (B1 : bound st1 old sub k t). { exists co1. split; auto. rewrite T1. destruct Bt as (c' & C' & D'). assert (c' = co) by congruence. subst. auto. }
  pose proof (unput_inv _ _ _ _ _ _ I1 H2) as I2.
  unfold unput in H2. apply rmap_Ok in H2. destruct H2 as (x & Cx & E2). apply scope_of_Ok in Cx. assert (x = co1) by congruence. subst x. clear Cx. rewrite N1 in E2.
  unfold put in H3. apply rmap_Ok in H3. destruct H3 as (x & Cx & E3). apply scope_of_Ok in Cx. rewrite <- E2 in Cx. simpl in Cx. rewrite dget_dset_other in Cx by auto. assert (x = cn1) by congruence. subst x. clear Cx.
  set (co2 := set_table co1 sub (dpop (table co1 sub) k)) in *. set (cn2 := set_table cn1 sub (dset (table cn1 sub) (y_name y1) t)) in *.
  destruct (set_table_rest co1 sub (dpop (table co1 sub) k)) as (Ro1 & Ro2 & Ro3 & _ & Ro4 & _). destruct (set_table_rest cn1 sub (dset (table cn1 sub) (y_name y1) t)) as (Rn1 & Rn2 & Rn3 & _ & Rn4 & _). fold co2 in Ro1, Ro2, Ro3, Ro4. fold cn2 in Rn1, Rn2, Rn3, Rn4.
  set (y4 := set_place y1 new (y_name y1)) in *.
  assert (UB : forall n sb k', ~ bound st2 n sb k' t).
  { intros n sb k' B. destruct (i_place _ _ I2 _ _ _ _ B) as (z & Z & Zs & Zb & Zn). assert (z = y1) by (rewrite <- E2 in Z; simpl in Z; congruence). subst z.
    assert (n = old) by congruence. assert (sb = sub) by congruence. assert (k' = k) by congruence. subst n sb k'. destruct B as (c' & C' & D'). rewrite <- E2 in C'. simpl in C'. rewrite Sc1 in C'. rewrite Sb1, N1 in D'. rewrite dget_dset_same in C'. injection C' as <-.
    unfold co2 in D'. rewrite table_set, Bool.eqb_reflx, dget_dpop, Nat.eqb_refl in D'. discriminate. }
  assert (Y2 : dget (syms st2) t = Some y1) by (rewrite <- E2; exact Y1).
  assert (CN2 : dget (scopes st2) new = Some cn1) by (rewrite <- E2; simpl; rewrite dget_dset_other by auto; auto).
  assert (I3 : inv X (with_sym st2 t y4)).
  { refine (inv_with_sym X st2 t y1 y4 I2 Y2 _ _ _).
    - intros n sb k' B. destruct (UB _ _ _ B).
    - exists cn1. simpl. split; auto. congruence.
    - intros _. unfold y4. simpl. split; [apply (i_fit _ _ I2 t y1 Y2 NX)|apply (i_set _ _ I2 t y1 Y2 NX)]. }
  set (st4 := with_sym st3 t y4) in *.
  assert (E4 : put (with_sym st2 t y4) new sub (y_name y1) t = Ok st4).
  { unfold put, scope_of. simpl. rewrite CN2. simpl. f_equal. unfold st4. rewrite <- E3. reflexivity. }
  assert (I4 : inv X st4).
  { eapply put_inv; [exact I3| |exact E4]. exists y4. simpl. rewrite dget_dset_same. repeat apply conj; auto. }
  assert (PT1 : plen st1 t P) by (apply (f_plen _ _ _ _ F1); auto).
  assert (F2 : frame P (fun _ => False) st1 st2).
  { rewrite <- E2. apply frame_with_scope with (c := co1); auto; try congruence. rewrite Po1; lia. }
  assert (F3 : frame P (fun _ => False) st2 (with_sym st2 t y4)).
  { apply frame_with_sym with (y := y1) (k := P); auto; [apply (f_plen _ _ _ _ F2); auto| |lia].
    exists y4, cn1. simpl. rewrite dget_dset_same. repeat apply conj; auto. congruence. }
  assert (F4 : frame P (fun _ => False) (with_sym st2 t y4) st4).
  { replace st4 with (with_scope (with_sym st2 t y4) new cn2) by (unfold st4; rewrite <- E3; reflexivity). apply frame_with_scope with (c := cn1); auto; try congruence. rewrite Pn1. lia. }
  assert (Z0 : old <> 0 /\ new <> 0). { destruct (i_root _ _ I) as (r & R & RN). split; intros ->; congruence. }
  assert (FG : frame P (fun _ => False) st st4).
  { eapply frame_trans; [eapply frame_weaken; [exact F1|lia|]|eapply frame_trans; [exact F2|eapply frame_trans; [exact F3|exact F4]]].
    intros u k' Pu Lu <-. rewrite (plen_fun _ _ _ _ Pu PT) in Lu. lia. }
  assert (GG : glob (fun _ => False) st st4).
  { apply glob_trans with (b := st1).
    { split; [|apply (g_sym' _ _ _ G1)|apply (g_tab _ _ _ G1)]. intros u z Du Zu _. apply (g_sym _ _ _ G1); auto. intros <-. destruct Z0 as (Z0 & _). apply Z0. congruence. }
    apply glob_trans with (b := st2). { rewrite <- E2. apply glob_with_scope. intros Z. destruct Z0; contradiction. }
    apply glob_trans with (b := with_sym st2 t y4). { apply glob_with_sym with (y := y1); auto; simpl; [intros Z; destruct Z0; contradiction|]. intros Z. destruct Z0 as (Z0 & _). apply Z0. congruence. }
    replace st4 with (with_scope (with_sym st2 t y4) new cn2) by (unfold st4; rewrite <- E3; reflexivity). apply glob_with_scope. intros Z. destruct Z0; contradiction. }
  destruct (f_path _ _ _ _ FG old co CO) as (co4 & CO4 & Q1 & Q2 & _). destruct (f_path _ _ _ _ FG new cn CN) as (cn4 & CN4 & Q3 & Q4 & _).
  destruct (IH st4 st' X P co4 cn4) as (I5 & F5 & G5); auto; try congruence.
  - intros x Xx. destruct (XP x Xx) as (k' & Pk & Lk). exists k'. split; auto. apply (f_plen _ _ _ _ FG). auto.
  - intros u Iu. destruct (BD u (or_intror Iu)) as (ku & (cu & Cu & Du)). assert (cu = co) by congruence. subst cu. exists ku, co2.
    split; [unfold st4; rewrite <- E3, <- E2; simpl; rewrite dget_dset_other by auto; apply dget_dset_same|]. unfold co2. rewrite table_set, Bool.eqb_reflx, dget_dpop, T1.
    destruct (Nat.eqb_spec ku k) as [->|Nk]; auto. destruct Bt as (ct & Ct & Dt). assert (ct = co) by congruence. subst ct. exfalso. apply NI. replace t with u by congruence. auto.
  - split; auto. split; [eapply frame_trans; eauto|eapply glob_trans; eauto].
Qed.

(** * [update_obj_ref] *)
Lemma vals_bound : forall X st n c sub t, inv X st -> dget (scopes st) n = Some c -> In t (dvals (table c sub)) -> exists k, bound st n sub k t.
Proof.
  intros X st n c sub t I C H. unfold dvals in H. apply in_map_iff in H. destruct H as ((k, v) & E & H). simpl in E. subst v. exists k, c. split; auto. apply In_dget; auto. apply (i_wf _ _ I n); auto.
Qed.
Lemma vals_NoDup : forall X st n c sub, inv X st -> dget (scopes st) n = Some c -> NoDup (dvals (table c sub)).
Proof.
  intros X st n c sub I C.
  assert (B : forall k t, In (k, t) (table c sub) -> exists y, dget (syms st) t = Some y /\ y_name y = k).
  { intros k t H. destruct (i_place _ _ I n sub k t) as (y & Y & _ & _ & N); [|eauto]. exists c. split; auto. apply In_dget; auto. apply (i_wf _ _ I n); auto. }
  pose proof (i_wf _ _ I n c sub C) as W. revert B W. unfold dwf, dkeys, dvals. induction (table c sub) as [|(k, t) d IH]; simpl; intros B W; [constructor|].
  inversion W as [|? ? N W']; subst. constructor; [|apply IH; auto]. intros H. apply in_map_iff in H. destruct H as ((k', t') & E & H). simpl in E. subst t'.
  destruct (B k t) as (y & Y & E1); auto. destruct (B k' t) as (y' & Y' & E2); auto. assert (y' = y) by congruence. subst. apply N. change (y_name y) with (fst (y_name y, t)). apply in_map. auto.
Qed.
Lemma fresh_ok : forall X st c o array L, inv X st -> inv X (fresh_copy st c o array) /\ frame L (fun _ => False) st (fresh_copy st c o array) /\ glob (fun _ => False) st (fresh_copy st c o array).
Proof.
  intros X st c o array L I. unfold fresh_copy. set (x := mkS [] [] true o false (s_anon c) array (s_path c)).
  assert (N : forall n z, dget (scopes st) n = Some z -> n <> next st). { intros n z D ->. assert (next st < next st); [|lia]. apply (i_fresh _ _ I). right. congruence. }
  assert (K : forall n z, dget (scopes st) n = Some z -> dget (dset (scopes st) (next st) x) n = Some z). { intros n z D. rewrite dget_dset_other; auto. eauto. }
  split; [|split].
  - split; simpl.
    + apply (i_fit _ _ I).
    + apply (i_set _ _ I).
    + apply (i_known _ _ I).
    + intros n sub k t (z & Dz & T). simpl in Dz. destruct (Nat.eq_dec n (next st)) as [->|Ne].
      * rewrite dget_dset_same in Dz. injection Dz as <-. destruct sub; discriminate.
      * rewrite dget_dset_other in Dz by auto. apply (i_place _ _ I). exists z. auto.
    + intros t y D. pose proof (i_scope _ _ I t y D) as H. destruct (dget (scopes st) (y_scope y)) as [z|] eqn:E; [|congruence]. rewrite (K _ _ E). discriminate.
    + intros o' n D. destruct (Nat.eq_dec o' o) as [->|Ne].
      * rewrite dget_dset_same in D. injection D as <-. exists x. rewrite dget_dset_same. auto.
      * rewrite dget_dset_other in D by auto. destruct (i_space _ _ I _ _ D) as (z & Z & R). exists z. rewrite (K _ _ Z). auto.
    + intros t [H|H]; [assert (t < next st) by (apply (i_fresh _ _ I); auto); lia|]. destruct (Nat.eq_dec t (next st)) as [->|Ne]; [lia|]. rewrite dget_dset_other in H by auto.
      assert (t < next st) by (apply (i_fresh _ _ I); auto). lia.
    + intros n z sub D. destruct (Nat.eq_dec n (next st)) as [->|Ne].
      * rewrite dget_dset_same in D. injection D as <-. destruct sub; apply dwf_nil.
      * rewrite dget_dset_other in D by auto. eapply (i_wf _ _ I); eauto.
    + destruct (i_root _ _ I) as (z & Z & R). exists z. rewrite (K _ _ Z). auto.
    + intros t y z D Dz Sb. destruct (Nat.eq_dec (y_scope y) (next st)) as [E|Ne].
      * rewrite E, dget_dset_same in Dz. injection Dz as <-. auto.
      * rewrite dget_dset_other in Dz by auto. eapply (i_sub _ _ I); eauto.
    + apply (i_wfa _ _ I).
    + apply dwf_dset, (i_wfs _ _ I).
  - split; simpl.
    + intros u y k D _ _ _. exists y. split; auto. reflexivity.
    + intros n z D _. exists z. rewrite (K _ _ D). auto.
    + intros n z D. exists z. rewrite (K _ _ D). auto.
    + eauto.
    + auto.
    + intros u k (y & z & Y & Z & Le). exists y, z. simpl. rewrite (K _ _ Z). auto.
    + intros u k _ _ _ o'. apply listed_same. auto.
    + lia.
  - split; simpl; eauto.
Qed.
Lemma finish_ok : forall (X : nat -> Prop) st s y o st', inv (fun x => X x \/ x = s) st -> dget (syms st) s = Some y -> y_obj y = o -> (forall o', listed st o' s <-> o' = o) -> refresh_cached st s = Ok st' ->
  inv X st' /\ st' = with_sym st s (set_cached y (Some o)).
Proof.
  intros X st s y o st' I D O Ls H. unfold refresh_cached in H. apply rmap_Ok in H. destruct H as (z & Z & <-). apply sym_of_Ok in Z. assert (z = y) by congruence. subst z. clear Z. rewrite O. split; auto.
  pose (y' := set_cached y (Some o)). assert (I' : inv (fun x => X x \/ x = s) (with_sym st s y')).
  { refine (inv_with_sym _ st s y y' I D _ _ _).
    - intros n sub k B. destruct (i_place _ _ I _ _ _ _ B) as (z & Z & P). assert (z = y) by congruence. subst z. exact P.
    - simpl. pose proof (i_scope _ _ I s y D) as N. destruct (dget (scopes st) (y_scope y)) as [c|] eqn:C; [|congruence]. exists c. split; auto. intros Sb. eapply (i_sub _ _ I); eauto.
    - intros N. exfalso. apply N. auto. }
  split; try apply I'.
  - intros t z Dz N o'. destruct (Nat.eq_dec t s) as [->|Ne].
    + simpl in Dz. rewrite dget_dset_same in Dz. injection Dz as <-. simpl. rewrite O. apply Ls.
    + apply (i_fit _ _ I' t z Dz). intros [Hx|Hx]; auto.
  - intros t z Dz N. destruct (Nat.eq_dec t s) as [->|Ne].
    + simpl in Dz. rewrite dget_dset_same in Dz. injection Dz as <-. simpl. congruence.
    + apply (i_set _ _ I' t z Dz). intros [Hx|Hx]; auto.
Qed.
Lemma update_ok : forall fuel look, upd_ok (update_obj_ref fuel look true).
Proof.
  induction fuel as [|fuel IH]; intros look st s o st' X L I PL XP PR H; [discriminate|]. cbn [update_obj_ref] in H. specialize (IH look).
  apply rbind_Ok in H. destruct H as (y & Y & H). apply sym_of_Ok in Y. apply rbind_Ok in H. destruct H as (sc & C & H). apply scope_of_Ok in C. cbv zeta in H.
  destruct PR as (y' & c & Y' & CA & LI & LO). assert (y' = y) by congruence. subst y'. clear Y'.
  assert (PSC : length (s_path sc) = L). { destruct PL as (y' & c' & Y' & C' & E). assert (y' = y) by congruence. subst. assert (c' = sc) by congruence. subst. auto. }
  set (y1 := set_tomb (set_obj y o) false) in *. set (st1 := with_sym st s y1) in *. pose (X' := fun x => X x \/ x = s).
  assert (Y1 : dget (syms st1) s = Some y1) by apply dget_dset_same.
  assert (I1 : inv X' st1).
  { refine (inv_with_sym _ st s y y1 I Y _ _ _).
    - intros n sub k B. destruct (i_place _ _ I _ _ _ _ B) as (z & Z & P). assert (z = y) by congruence. subst z. exact P.
    - simpl. exists sc. split; auto. intros Sb. eapply (i_sub _ _ I); eauto.
    - intros N. exfalso. apply N. right. auto. }
  assert (P1 : plen st1 s L) by (exists y1, sc; auto).
  assert (F1 : frame (S L) (eq s) st st1) by (apply frame_with_sym with (y := y) (k := L); auto).
  assert (G1 : glob (eq s) st st1) by (apply glob_with_sym with (y := y); auto).
  assert (LI1 : forall o', listed st1 o' s <-> listed st o' s) by (intros o'; apply listed_same; reflexivity).
  rewrite CA in H. destruct (Nat.eqb_spec c o) as [->|NE].
  { cbn [rbind] in H. destruct (finish_ok X st1 s y1 o st' I1 Y1 eq_refl) as (I2 & E2); auto.
    { intros o'. rewrite LI1. split; [intros Lo; destruct (LI _ Lo); auto|intros ->; auto]. }
    split; auto. rewrite E2. repeat apply conj.
    - eapply frame_trans; [exact F1|]. apply frame_with_sym with (y := y1) (k := L); auto. exists (set_cached y1 (Some o)), sc. simpl. rewrite dget_dset_same. auto.
    - eapply glob_trans; [exact G1|]. apply glob_with_sym with (y := y1); auto.
    - intros z Z. assert (z = y) by congruence. subst z. exists false. simpl. rewrite dget_dset_same. split; auto. }
  set (old := dget (spaces st1) c) in *. apply rbind_Ok in H. destruct H as (st6 & H & H6). apply rbind_Ok in H. destruct H as (st2 & H2 & H).
  assert (A : inv X' st2 /\ frame (S L) (fun _ => False) st1 st2 /\ glob (fun _ => False) st1 st2).
  { destruct old as [n|] eqn:Old; [|injection H2 as <-; split; auto; split; [apply frame_refl|apply glob_refl]].
    apply rbind_Ok in H2. destruct H2 as (nc & NC & H2). apply scope_of_Ok in NC.
    destruct (path_eqb (s_path nc) (s_path sc ++ [y_name y])) eqn:EP; cbn [negb] in H2; [|injection H2 as <-; split; auto; split; [apply frame_refl|apply glob_refl]].
    destruct (dget (spaces st1) o) eqn:SO; [injection H2 as <-; split; auto; split; [apply frame_refl|apply glob_refl]|]. cbv zeta in H2.
    apply path_eqb_eq in EP. assert (PN : length (s_path nc) = S L) by (rewrite EP, app_length; simpl; lia).
    destruct (i_space _ _ I1 c n Old) as (nc' & NC' & _ & NS). assert (nc' = nc) by congruence. subst nc'. clear NC'.
    destruct (fresh_ok X' st1 nc o (s_array nc) (S L) I1) as (If & Ff & Gf). set (stf := fresh_copy st1 nc o (s_array nc)) in *.
    apply rbind_Ok in H2. destruct H2 as (st3 & H3 & H2). apply rbind_Ok in H2. destruct H2 as (nc2 & NC2 & H4). apply scope_of_Ok in NC2.
    assert (NN : n <> next st1). { intros ->. assert (next st1 < next st1); [|lia]. apply (i_fresh _ _ I1). right. congruence. }
    assert (NCf : dget (scopes stf) n = Some nc) by (simpl; rewrite dget_dset_other; auto).
    assert (XPf : forall x, X' x -> exists k, plen stf x k /\ k < S L).
    { intros x [Hx| ->].
      - destruct (XP x Hx) as (k & Pk & Lk). exists k. split; [|lia]. apply (f_plen _ _ _ _ Ff). apply (f_plen _ _ _ _ F1). auto.
      - exists L. split; [|lia]. apply (f_plen _ _ _ _ Ff). auto. }
    assert (Cf : dget (scopes stf) (next st1) = Some (mkS [] [] true o false (s_anon nc) (s_array nc) (s_path nc))) by (simpl; apply dget_dset_same).
    destruct (move_ok _ (look o) n (next st1) false IH (dvals (s_names nc)) stf st3 X' (S L) nc _ If XPf NCf PN NS Cf PN eq_refl NN) as (I3 & F3 & G3); auto.
    { apply (vals_NoDup X' stf n nc false If NCf). }
    { intros t Ht. apply (vals_bound X' stf n nc false t If NCf Ht). }
    destruct (f_path _ _ _ _ F3 n nc NCf) as (nc3 & NC3 & Q1 & Q2 & _). assert (nc3 = nc2) by congruence. subst nc3. clear NC3.
    destruct (f_path _ _ _ _ F3 _ _ Cf) as (cn3 & CN3 & Q3 & Q4 & _). simpl in Q3, Q4.
    destruct (move_ok _ (look o) n (next st1) true IH (dvals (s_subs nc2)) st3 st2 X' (S L) nc2 cn3 I3) as (I4 & F4 & G4); auto; try congruence.
    { intros x Hx. destruct (XPf x Hx) as (k & Pk & Lk). exists k. split; auto. apply (f_plen _ _ _ _ F3). auto. }
    { apply (vals_NoDup X' st3 n nc2 true I3 NC2). }
    { intros t Ht. apply (vals_bound X' st3 n nc2 true t I3 NC2 Ht). }
    split; auto. split; [eapply frame_trans; [exact Ff|eapply frame_trans; eauto]|eapply glob_trans; [exact Gf|eapply glob_trans; eauto]]. }
  destruct A as (I2 & F2 & G2). destruct (f_sym _ _ _ _ F2 s y1 L Y1 P1 (Nat.lt_succ_diag_r L) (fun h => h)) as (y2 & Y2 & R2). apply sim_y_fields in R2. destruct R2 as (M1 & M2 & M3 & M4 & M5 & M6 & M7).
  assert (Z2 : y_scope y = 0 -> y2 = y1). { intros Z. pose proof (g_sym _ _ _ G2 s y1 Y1 Z (fun h => h)). congruence. }
  pose proof (f_listed _ _ _ _ F2 s L P1 (Nat.lt_succ_diag_r L) (fun h => h)) as LI2.
  apply rbind_Ok in H. destruct H as (st3 & H3 & H). unfold handle_aliases in H3. apply rmap_Ok in H3. destruct H3 as (z & Z & E3). apply sym_of_Ok in Z. assert (z = y2) by congruence. subst z. clear Z.
  assert (CA2 : y_cached y2 = Some c) by (rewrite M5; exact CA). assert (O2 : y_obj y2 = o) by (rewrite M4; reflexivity). rewrite CA2, O2 in E3. set (a := add (discard (aliases st2) c s) o s) in *.
  assert (HA : forall o' t, held_in a o' t <-> listed st2 o' t /\ ~ (o' = c /\ t = s) \/ o' = o /\ t = s) by (intros o' t; unfold a; rewrite held_add, held_discard, listed_held; tauto).
  assert (HO : forall o' t, s <> t -> (held_in a o' t <-> listed st2 o' t)) by (intros o' t N; rewrite HA; intuition congruence).
  assert (I3 : inv X' st3).
  { rewrite <- E3. apply inv_with_aliases; auto; [apply dwf_add, dwf_discard; apply (i_wfa _ _ I2)| |].
    - intros o' t N. apply HO. intros <-. apply N. right. auto.
    - intros o' t Ha. rewrite HA in Ha. destruct Ha as [(Ha & _)|(_ & ->)]; [eapply (i_known _ _ I2); eauto|congruence]. }
  assert (F3 : frame (S L) (eq s) st2 st3) by (rewrite <- E3; apply frame_with_aliases; auto).
  assert (G3 : glob (fun _ => False) st2 st3) by (rewrite <- E3; apply glob_with_aliases).
  assert (LI3 : forall o', listed st3 o' s <-> o' = o).
  { intros o'. rewrite listed_held, <- E3. simpl. rewrite HA, LI2, LI1. split.
    - intros [(Lo & N)|(-> & _)]; auto. destruct (LI _ Lo); auto. exfalso. apply N. auto.
    - intros ->. auto. }
  assert (Y3 : dget (syms st3) s = Some y2) by (rewrite <- E3; exact Y2).
  apply rbind_Ok in H. destruct H as (z3 & _ & H).
  assert (A : sim st3 st6 /\ glob (fun _ => False) st3 st6).
  { destruct old as [n|] eqn:Old; [|injection H as <-; split; [apply sim_refl|apply glob_refl]].
    match type of H with (if ?b then _ else _) = _ => destruct b end; [|injection H as <-; split; [apply sim_refl|apply glob_refl]].
    split; [apply (proj2 (mark_sim fuel) _ _ _ H)|]. destruct (i_space _ _ I1 c n Old) as (nc & NC & _ & NS).
    destruct (f_path _ _ _ _ F2 n nc NC) as (nc2 & NC2 & _ & Q2 & _). destruct (f_path _ _ _ _ F3 n nc2 NC2) as (nc3 & NC3 & _ & Q3 & _).
    apply (proj2 (mark_glob fuel X') st3 n nc3 st6 I3 NC3); auto. congruence. }
  destruct A as (S6 & G6). pose proof (inv_sim _ _ _ S6 I3) as I6. destruct (sim_sym _ _ _ _ S6 Y3) as (y6 & Y6 & R6). pose proof (sim_y_fields _ _ R6) as (U1 & U2 & U3 & U4 & U5 & U6 & U7).
  destruct (finish_ok X st6 s y6 o st' I6 Y6) as (I7 & E7); auto.
  { congruence. }
  { intros o'. rewrite (listed_same _ _ (sim_aliases _ _ S6)). auto. }
  split; auto. assert (G26 : glob (eq s) st st6).
  { eapply glob_trans; [exact G1|]. apply glob_weaken with (E := fun _ => False); [tauto|]. eapply glob_trans; [exact G2|]. eapply glob_trans; eauto. }
  assert (F26 : frame (S L) (eq s) st st6).
  { eapply frame_trans; [exact F1|]. eapply frame_trans; [eapply frame_weaken; [exact F2|auto|intros ? ? _ _ []]|]. eapply frame_trans; [exact F3|apply sim_frame; auto]. }
  assert (P6 : plen st6 s L) by (apply (f_plen _ _ _ _ F26); auto).
  rewrite E7. repeat apply conj.
  - eapply frame_trans; [exact F26|]. apply frame_with_sym with (y := y6) (k := L); auto. destruct P6 as (z & c6 & Dz & C6 & Le). assert (z = y6) by congruence. subst z.
    exists (set_cached y6 (Some o)), c6. simpl. rewrite dget_dset_same. auto.
  - eapply glob_trans; [exact G26|]. apply glob_with_sym with (y := y6); auto.
  - intros z Z. assert (z = y) by congruence. subst z. exists (y_tomb y6). simpl. rewrite dget_dset_same. split.
    + f_equal. unfold set_tomb, set_cached, set_obj. simpl. rewrite U1, U2, U3, U4, U6, U7, M1, M2, M3, M4, M6, M7. reflexivity.
    + intros Zs. assert (y6 = y1); [|subst y6; reflexivity]. rewrite (Z2 Zs) in Y3. pose proof (g_sym _ _ _ G6 s y1 Y3 Zs (fun h => h)). congruence.
Qed.

(** * What is marked *)
Definition none : nat -> Prop := fun _ => False.
Lemma garbage_dec : forall st s, garbage st s \/ ~ garbage st s.
Proof.
  intros st s. unfold garbage. destruct (dget (syms st) s) as [y|]; [|right; intros (y & E & _); discriminate]. destruct (y_tomb y) eqn:T; [left; eauto|right; intros (z & [= <-] & T'); congruence].
Qed.
Lemma garbage_space_dec : forall st n, garbage_space st n \/ ~ garbage_space st n.
Proof.
  intros st s. unfold garbage_space. destruct (dget (scopes st) s) as [y|]; [|right; intros (y & E & _); discriminate]. destruct (s_tomb y) eqn:T; [left; eauto|right; intros (z & [= <-] & T'); congruence].
Qed.
Lemma sim_listed : forall st st' o s, sim st st' -> (listed st' o s <-> listed st o s).
Proof. intros st st' o s S. apply listed_same. apply (sim_aliases _ _ S). Qed.
Lemma sim_holds : forall st st' s o, sim st st' -> (holds st' s o <-> holds st s o).
Proof.
  intros st st' s o S. split; intros (y & Y & O).
  - destruct (sim_sym' _ _ _ _ S Y) as (y' & Y' & R). exists y'. split; auto. apply sim_y_fields in R. destruct R as (_ & _ & _ & R & _). congruence.
  - destruct (sim_sym _ _ _ _ S Y) as (y' & Y' & R). exists y'. split; auto. apply sim_y_fields in R. destruct R as (_ & _ & _ & R & _). congruence.
Qed.
Lemma sim_bound : forall st st' n sub k s, sim st st' -> (bound st' n sub k s <-> bound st n sub k s).
Proof.
  intros st st' n sub k s S. split; intros (c & C & D).
  - destruct (sim_scope' _ _ _ _ S C) as (c' & C' & R). exists c'. split; auto. apply sim_c_fields in R. destruct R as (R & _). congruence.
  - destruct (sim_scope _ _ _ _ S C) as (c' & C' & R). exists c'. split; auto. apply sim_c_fields in R. destruct R as (R & _). congruence.
Qed.
Lemma sim_placed : forall st st' n sub k s, sim st st' -> (placed st' n sub k s <-> placed st n sub k s).
Proof.
  intros st st' n sub k s S. split; intros (y & Y & P).
  - destruct (sim_sym' _ _ _ _ S Y) as (y' & Y' & R). exists y'. split; auto. apply sim_y_fields in R. destruct R as (R1 & R2 & R3 & _). rewrite <- R1, <- R2, <- R3. auto.
  - destruct (sim_sym _ _ _ _ S Y) as (y' & Y' & R). exists y'. split; auto. apply sim_y_fields in R. destruct R as (R1 & R2 & R3 & _). rewrite R1, R2, R3. auto.
Qed.
Record marks (st st' : state) : Prop := {
  m_sim : sim st st';
  m_sym : forall s, garbage st s -> garbage st' s;
  m_ns : forall n, garbage_space st n -> garbage_space st' n;
  m_space : forall s o n, garbage st' s -> ~ garbage st s -> holds st s o -> dget (spaces st) o = Some n -> (forall t, listed st o t -> garbage st' t) -> garbage_space st' n;
  m_member : forall n sub k s, garbage_space st' n -> ~ garbage_space st n -> bound st n sub k s -> garbage st' s }.
Lemma marks_refl : forall st, marks st st.
Proof. intros st. split; auto; try contradiction. apply sim_refl. Qed.
Lemma listed_holds : forall (X : nat -> Prop) st o t, inv X st -> listed st o t -> ~ X t -> holds st t o.
Proof.
  intros X st o t I Lo N. pose proof (i_known _ _ I _ _ Lo) as K. destruct (dget (syms st) t) as [y|] eqn:Y; [|congruence]. exists y. split; auto. symmetry. apply (i_fit _ _ I t y Y N). auto.
Qed.
Lemma holds_listed : forall (X : nat -> Prop) st o t, inv X st -> holds st t o -> ~ X t -> listed st o t.
Proof. intros X st o t I (y & Y & O) N. apply (i_fit _ _ I t y Y N). auto. Qed.
Lemma marks_trans : forall a b c, inv none a -> marks a b -> marks b c -> marks a c.
Proof.
  intros a b c I A B. pose proof (m_sim _ _ A) as S. split.
  - eapply sim_trans; [apply (m_sim _ _ A)|apply (m_sim _ _ B)].
  - intros s G. apply (m_sym _ _ B), (m_sym _ _ A), G.
  - intros s G. apply (m_ns _ _ B), (m_ns _ _ A), G.
  - intros s o n G N Ho Sp Al. assert (Sp' : dget (spaces b) o = Some n) by (rewrite (sim_spaces _ _ S); auto).
    assert (Al' : forall t, listed b o t -> garbage c t) by (intros t Lt; apply Al; rewrite <- (sim_listed a b); auto).
    destruct (garbage_dec b s) as [Gb|Nb]; [|apply (m_space _ _ B s o n); auto; rewrite (sim_holds a b); auto].
    assert (D : (forall t, listed a o t -> garbage b t) \/ exists t, listed a o t /\ ~ garbage b t).
    { assert (D0 : forall l, (forall t, In t l -> garbage b t) \/ exists t, In t l /\ ~ garbage b t).
      { induction l as [|t l [IH|(t' & It & Nt)]]; [left; intros t []| |right; exists t'; split; auto; right; auto].
        destruct (garbage_dec b t) as [Gt|Nt]; [left; intros u [<-|Iu]; auto|right; exists t; split; auto; left; auto]. }
      destruct (D0 (held (aliases a) o)) as [D1|(t & It & Nt)]; [left; intros t Lt; apply D1; apply listed_held; auto|right; exists t; split; auto; apply listed_held; auto]. }
    destruct D as [D|(t & Lt & Nt)]; [apply (m_ns _ _ B), (m_space _ _ A s o n); auto|].
    apply (m_space _ _ B t o n); auto. rewrite (sim_holds a b) by auto. eapply listed_holds; eauto.
  - intros n sub k s G N Bd. destruct (garbage_space_dec b n) as [Gb|Nb]; [apply (m_sym _ _ B), (m_member _ _ A n sub k); auto|].
    apply (m_member _ _ B n sub k); auto. rewrite (sim_bound a b); auto.
Qed.
Lemma all_garbage_spec : forall st l b, all_garbage st l = Ok b -> (b = true <-> forall t, In t l -> garbage st t).
Proof.
  intros st l b H. unfold all_garbage in H.
  assert (A : forall l b0 b, rfold (fun b t => rmap (fun y => b && y_tomb y) (sym_of st t)) l b0 = Ok b -> (b = true <-> b0 = true /\ forall t, In t l -> garbage st t)).
  { clear l b H. induction l as [|t l IH]; cbn [rfold]; intros b0 b H; [injection H as <-; split; [intros ->; split; auto; intros t []|tauto]|].
    apply rbind_Ok in H. destruct H as (b1 & H1 & H). apply rmap_Ok in H1. destruct H1 as (y & Y & <-). apply sym_of_Ok in Y. rewrite (IH _ _ H), andb_true_iff. split.
    - intros ((B & T) & A). split; auto. intros u [<-|Iu]; auto. exists y. auto.
    - intros (B & A). split; [|intros u Iu; apply A; right; auto]. split; auto. destruct (A t (or_introl eq_refl)) as (z & Z & T). assert (z = y) by congruence. subst. auto. }
  rewrite (A _ _ _ H). tauto.
Qed.
Lemma garbage_set : forall st s y t, dget (syms st) s = Some y -> (garbage (with_sym st s (set_tomb y true)) t <-> t = s \/ garbage st t).
Proof.
  intros st s y t D. unfold garbage. simpl. destruct (Nat.eq_dec t s) as [->|N]; [rewrite dget_dset_same; split; eauto|rewrite dget_dset_other by auto; tauto].
Qed.
Lemma garbage_space_set : forall st s y t, dget (scopes st) s = Some y -> (garbage_space (with_scope st s (set_stomb y true)) t <-> t = s \/ garbage_space st t).
Proof.
  intros st s y t D. unfold garbage_space. simpl. destruct (Nat.eq_dec t s) as [->|N]; [rewrite dget_dset_same; split; eauto|rewrite dget_dset_other by auto; tauto].
Qed.
Lemma mark_marks : forall f, (forall st s st', inv none st -> mark_sym f st s = Ok st' -> marks st st' /\ garbage st' s) /\
  (forall st n st', inv none st -> mark_ns f st n = Ok st' -> marks st st' /\ garbage_space st' n).
Proof.
  induction f as [|f (IHs & IHn)]; (split; intros st x st' I H; [|]); try discriminate; cbn [mark_sym mark_ns] in H.
  - apply rbind_Ok in H. destruct H as (y & Y & H). apply sym_of_Ok in Y. destruct (y_tomb y) eqn:T; [injection H as <-; split; [apply marks_refl|exists y; auto]|].
    pose proof (sim_tomb st x y true Y) as S1. pose proof (inv_sim _ _ _ S1 I) as I1. pose proof (fun t => garbage_set st x y t Y) as GS. set (st1 := with_sym st x (set_tomb y true)) in *. cbv zeta in H.
    assert (Gn : forall n, garbage_space st1 n <-> garbage_space st n) by (intros n; reflexivity).
    assert (B : forall b, all_garbage st1 (held (aliases st1) (y_obj y)) = Ok b -> (b = true <-> forall t, listed st (y_obj y) t -> garbage st1 t)).
    { intros b Hb. rewrite (all_garbage_spec _ _ _ Hb). split; intros A t Ht; apply A; [rewrite listed_held in Ht; exact Ht|apply listed_held; exact Ht]. }
    assert (base : (forall n, dget (spaces st) (y_obj y) = Some n -> (forall t, listed st (y_obj y) t -> garbage st1 t) -> False) -> marks st st1 /\ garbage st1 x).
    { intros NO. split; [|apply GS; auto]. split; auto.
      - intros s G. apply GS. auto.
      - intros s o n G N (z & Z & O) Sp Al. apply GS in G. destruct G as [->|G]; [|contradiction]. assert (z = y) by congruence. subst. destruct (NO n); auto.
      - intros n sub k s G N. apply Gn in G. contradiction. }
    destruct (dget (spaces st1) (y_obj y)) as [n|] eqn:Sp; [|injection H as <-; apply base; intros n E; change (dget (spaces st1) (y_obj y) = Some n) in E; congruence].
    apply rbind_Ok in H. destruct H as (b & Hb & H). pose proof (B b Hb) as Ab. destruct b; [|injection H as <-; apply base; intros n' _ A; apply Ab in A; discriminate].
    destruct (IHn _ _ _ I1 H) as (M & G). split; [|apply (m_sym _ _ M), GS; auto]. split.
    + eapply sim_trans; [exact S1|apply (m_sim _ _ M)].
    + intros s Gs. apply (m_sym _ _ M), GS. auto.
    + intros m Gm. apply (m_ns _ _ M). auto.
    + intros s o m Gs N Ho Sm Al. destruct (Nat.eq_dec s x) as [->|Ne].
      * destruct Ho as (z & Z & O). assert (z = y) by congruence. subst z o. replace m with n; auto. change (dget (spaces st1) (y_obj y) = Some m) in Sm. congruence.
      * apply (m_space _ _ M s o m); auto; [intros G1; apply GS in G1; tauto|apply (sim_holds st st1); auto].
    + intros m sub k s Gm N Bd. apply (m_member _ _ M m sub k); auto. 
  - apply rbind_Ok in H. destruct H as (c & C & H). apply scope_of_Ok in C. destruct (s_tomb c) eqn:T; [injection H as <-; split; [apply marks_refl|exists c; auto]|].
    pose proof (sim_stomb st x c true C) as S1. pose proof (inv_sim _ _ _ S1 I) as I1. pose proof (fun t => garbage_space_set st x c t C) as GS. set (st1 := with_scope st x (set_stomb c true)) in *.
    assert (A : marks st1 st' /\ forall t, In t (members c) -> garbage st' t).
    { clear GS S1. clearbody st1. revert st1 I1 H. induction (members c) as [|t l IHl]; intros st1 I1 H; cbn [rfold] in H; [injection H as <-; split; [apply marks_refl|intros t []]|].
      apply rbind_Ok in H. destruct H as (st2 & H1 & H2). destruct (IHs _ _ _ I1 H1) as (M1 & G1). destruct (IHl _ (inv_sim _ _ _ (m_sim _ _ M1) I1) H2) as (M2 & G2).
      split; [eapply marks_trans; eauto|]. intros u [<-|Iu]; auto. apply (m_sym _ _ M2). auto. }
    destruct A as (M & Gm). split; [|apply (m_ns _ _ M), GS; auto]. split.
    + eapply sim_trans; [exact S1|apply (m_sim _ _ M)].
    + intros s Gs. apply (m_sym _ _ M). exact Gs.
    + intros m G. apply (m_ns _ _ M), GS. auto.
    + intros s o m Gs N Ho Sm Al. apply (m_space _ _ M s o m); auto.
    + intros m sub k s G N Bd. destruct (Nat.eq_dec m x) as [->|Ne].
      * destruct (bound_members _ _ _ _ _ Bd) as (c' & C' & Im). assert (c' = c) by congruence. subst. auto.
      * apply (m_member _ _ M m sub k); auto; [intros G1; apply GS in G1; tauto|apply (sim_bound st st1); auto].
Qed.
Lemma goes_alive : forall st D s, goes st D (inl s) -> ~ garbage st s.
Proof. intros st D s G. inversion G; auto. Qed.
Lemma goes_marked : forall st (D : nat -> Prop) st', marks st st' -> (forall x, D x -> ~ garbage st x -> garbage st' x) -> forall z, goes st D z -> match z with inl s => garbage st' s | inr n => garbage_space st' n end.
Proof.
  intros st D st' M H z G. induction G as [x Dx N|s o n Gs IHs Ho Sp N Al IHa|n sub k s Gn IHn Bd N]; auto.
  - apply (m_space _ _ M s o n); auto; [eapply goes_alive; eauto|]. intros t Lt. destruct (garbage_dec st t) as [Gt|Nt]; [apply (m_sym _ _ M); auto|]. apply (IHa t Lt Nt).
  - assert (Nn : ~ garbage_space st n) by (inversion Gn; auto). apply (m_member _ _ M n sub k); auto.
Qed.
(** Whatever is marked was marked before or goes. *)
Record just (D : nat -> Prop) (st0 st : state) : Prop := {
  j_sim : sim st0 st;
  j_mono : forall s, garbage st0 s -> garbage st s;
  j_mono_ns : forall n, garbage_space st0 n -> garbage_space st n;
  j_sym : forall s, garbage st s -> garbage st0 s \/ goes st0 D (inl s);
  j_ns : forall n, garbage_space st n -> garbage_space st0 n \/ goes st0 D (inr n) }.
Lemma just_refl : forall D st, just D st st.
Proof. intros D st. split; auto. apply sim_refl. Qed.
Lemma mark_just : forall f D st0, inv none st0 -> (forall st s st', just D st0 st -> (garbage st0 s \/ goes st0 D (inl s)) -> mark_sym f st s = Ok st' -> just D st0 st') /\
  (forall st n st', just D st0 st -> (garbage_space st0 n \/ goes st0 D (inr n)) -> mark_ns f st n = Ok st' -> just D st0 st').
Proof.
  intros f D st0 I. induction f as [|f (IHs & IHn)]; (split; intros st x st' J Gx H; [|]); try discriminate; cbn [mark_sym mark_ns] in H.
  - apply rbind_Ok in H. destruct H as (y & Y & H). apply sym_of_Ok in Y. destruct (y_tomb y) eqn:T; [injection H as <-; auto|].
    pose proof (sim_tomb st x y true Y) as S1. pose proof (fun t => garbage_set st x y t Y) as GS. set (st1 := with_sym st x (set_tomb y true)) in *. cbv zeta in H.
    assert (J1 : just D st0 st1).
    { split.
      - eapply sim_trans; [apply (j_sim _ _ _ J)|auto].
      - intros s G. apply GS. right. apply (j_mono _ _ _ J); auto.
      - apply (j_mono_ns _ _ _ J).
      - intros s G. apply GS in G. destruct G as [->|G]; auto. apply (j_sym _ _ _ J); auto.
      - apply (j_ns _ _ _ J). }
    assert (Nx : ~ garbage st0 x). { intros G. apply (j_mono _ _ _ J) in G. destruct G as (z & Z & T'). congruence. }
    destruct Gx as [Gx|Gx]; [contradiction|].
    destruct (dget (spaces st1) (y_obj y)) as [n|] eqn:Sp; [|injection H as <-; auto].
    apply rbind_Ok in H. destruct H as (b & Hb & H). destruct b; [|injection H as <-; auto]. eapply IHn; [exact J1| |exact H].
    destruct (garbage_space_dec st0 n) as [Gn|Nn]; auto. right. pose proof (proj1 (all_garbage_spec _ _ _ Hb) eq_refl) as Al. pose proof (j_sim _ _ _ J1) as S0.
    apply goes_space with (s := x) (o := y_obj y); auto.
    + apply (sim_holds st0 st); [apply (j_sim _ _ _ J)|]. exists y. auto.
    + rewrite <- (sim_spaces _ _ S0). auto.
    + intros t Lt Nt. destruct (j_sym _ _ _ J1 t) as [G|G]; auto; [|contradiction]. apply Al. apply listed_held. apply (sim_listed st0 st1); auto.
  - apply rbind_Ok in H. destruct H as (c & C & H). apply scope_of_Ok in C. destruct (s_tomb c) eqn:T; [injection H as <-; auto|].
    pose proof (sim_stomb st x c true C) as S1. pose proof (fun t => garbage_space_set st x c t C) as GS. set (st1 := with_scope st x (set_stomb c true)) in *.
    assert (J1 : just D st0 st1).
    { split.
      - eapply sim_trans; [apply (j_sim _ _ _ J)|auto].
      - apply (j_mono _ _ _ J).
      - intros s G. apply GS. right. apply (j_mono_ns _ _ _ J); auto.
      - apply (j_sym _ _ _ J).
      - intros s G. apply GS in G. destruct G as [->|G]; auto. apply (j_ns _ _ _ J); auto. }
    assert (Nx : ~ garbage_space st0 x). { intros G. apply (j_mono_ns _ _ _ J) in G. destruct G as (z & Z & T'). congruence. }
    destruct Gx as [Gx|Gx]; [contradiction|].
    assert (W : forall sub, dwf (table c sub)) by (intros sub; apply (i_wf _ _ (inv_sim _ _ _ (j_sim _ _ _ J) I) x c sub C)).
    assert (P : forall t, In t (members c) -> garbage st0 t \/ goes st0 D (inl t)).
    { intros t It. destruct (members_bound st x c t C W It) as (sub & k & B). destruct (garbage_dec st0 t) as [G|G]; auto. right. apply goes_member with (n := x) (sub := sub) (k := k); auto.
      apply (sim_bound st0 st); auto. apply (j_sim _ _ _ J). }
    clear GS S1. clearbody st1. revert st1 J1 H P. induction (members c) as [|t l IHl]; intros st1 J1 H P; cbn [rfold] in H; [injection H as <-; auto|].
    apply rbind_Ok in H. destruct H as (st2 & H1 & H2). apply (IHl st2); auto; [|intros u Iu; apply P; right; auto]. eapply IHs; eauto. apply P. left. auto.
Qed.
Lemma mark_exact : forall f st x st', inv none st -> mark_sym f st x = Ok st' ->
  (forall s, garbage st' s <-> garbage st s \/ goes st (eq x) (inl s)) /\ (forall n, garbage_space st' n <-> garbage_space st n \/ goes st (eq x) (inr n)).
Proof.
  intros f st x st' I H. destruct (proj1 (mark_marks f) st x st' I H) as (M & Gx).
  assert (J : just (eq x) st st').
  { apply (proj1 (mark_just f (eq x) st I) st x st'); auto; [apply just_refl|]. destruct (garbage_dec st x) as [G|G]; auto. right. apply goes_it; auto. }
  assert (Q : forall z, goes st (eq x) z -> match z with inl s => garbage st' s | inr n => garbage_space st' n end) by (apply goes_marked; auto; intros u <- _; auto).
  split; intros z; split.
  - apply (j_sym _ _ _ J).
  - intros [G|G]; [apply (m_sym _ _ M); auto|apply (Q (inl z) G)].
  - apply (j_ns _ _ _ J).
  - intros [G|G]; [apply (m_ns _ _ M); auto|apply (Q (inr z) G)].
Qed.

(** * Marking ends *)
Definition clean (st : state) (s : nat) : bool := match dget (syms st) s with Some y => negb (y_tomb y) | None => false end.
Definition clean_ns (st : state) (n : nat) : bool := match dget (scopes st) n with Some c => negb (s_tomb c) | None => false end.
(** How much there is to mark. *)
Definition cnt (st : state) : nat := length (filter (clean st) (seq 0 (next st))) + length (filter (clean_ns st) (seq 0 (next st))).
Lemma filter_le : forall (f g : nat -> bool) l, (forall x, In x l -> f x = true -> g x = true) -> length (filter f l) <= length (filter g l).
Proof.
  intros f g l H. induction l as [|x l IH]; simpl; auto. assert (IH' : length (filter f l) <= length (filter g l)) by (apply IH; intros; apply H; simpl; auto).
  destruct (f x) eqn:F; [rewrite (H x (or_introl eq_refl) F); simpl; lia|]. destruct (g x); simpl; lia.
Qed.
Lemma filter_lt : forall (f g : nat -> bool) l x, (forall x, In x l -> f x = true -> g x = true) -> In x l -> f x = false -> g x = true -> length (filter f l) < length (filter g l).
Proof.
  intros f g l x H. induction l as [|a l IH]; [intros []|]. intros [->|I] F G; simpl.
  - rewrite F, G. simpl. pose proof (filter_le f g l (fun y Iy => H y (or_intror Iy))). lia.
  - assert (IH' : length (filter f l) < length (filter g l)) by (apply IH; auto; intros; apply H; simpl; auto). destruct (f a) eqn:Fa; [rewrite (H a (or_introl eq_refl) Fa); simpl; lia|]. destruct (g a); simpl; lia.
Qed.
Lemma clean_iff : forall st s, clean st s = true <-> dget (syms st) s <> None /\ ~ garbage st s.
Proof.
  intros st s. unfold clean, garbage. destruct (dget (syms st) s) as [y|]; split.
  - intros T. split; [discriminate|]. intros (z & [= <-] & T'). rewrite T' in T. discriminate.
  - intros (_ & N). destruct (y_tomb y) eqn:T; auto. exfalso. apply N. eauto.
  - discriminate.
  - intros (N & _). congruence.
Qed.
Lemma clean_ns_iff : forall st s, clean_ns st s = true <-> dget (scopes st) s <> None /\ ~ garbage_space st s.
Proof.
  intros st s. unfold clean_ns, garbage_space. destruct (dget (scopes st) s) as [y|]; split.
  - intros T. split; [discriminate|]. intros (z & [= <-] & T'). rewrite T' in T. discriminate.
  - intros (_ & N). destruct (s_tomb y) eqn:T; auto. exfalso. apply N. eauto.
  - discriminate.
  - intros (N & _). congruence.
Qed.
Lemma sim_known : forall st st' s, sim st st' -> (dget (syms st') s <> None <-> dget (syms st) s <> None).
Proof. intros st st' s S. pose proof (sim_syms _ _ S s) as R. destruct (dget (syms st) s), (dget (syms st') s); simpl in R; try tauto; split; congruence. Qed.
Lemma sim_known_ns : forall st st' s, sim st st' -> (dget (scopes st') s <> None <-> dget (scopes st) s <> None).
Proof. intros st st' s S. pose proof (sim_scopes _ _ S s) as R. destruct (dget (scopes st) s), (dget (scopes st') s); simpl in R; try tauto; split; congruence. Qed.
Lemma clean_mono : forall st st', sim st st' -> (forall s, garbage st s -> garbage st' s) -> (forall s, garbage_space st s -> garbage_space st' s) ->
  (forall s, clean st' s = true -> clean st s = true) /\ (forall s, clean_ns st' s = true -> clean_ns st s = true).
Proof.
  intros st st' S A B. split; intros s.
  - rewrite !clean_iff, (sim_known st st') by auto. intros (K & N). auto.
  - rewrite !clean_ns_iff, (sim_known_ns st st') by auto. intros (K & N). auto.
Qed.
Lemma cnt_le : forall st st', marks st st' -> cnt st' <= cnt st.
Proof.
  intros st st' M. destruct (clean_mono st st' (m_sim _ _ M) (m_sym _ _ M) (m_ns _ _ M)) as (A & B). unfold cnt. rewrite (sim_next _ _ (m_sim _ _ M)).
  pose proof (filter_le (clean st') (clean st) (seq 0 (next st)) (fun x _ => A x)). pose proof (filter_le (clean_ns st') (clean_ns st) (seq 0 (next st)) (fun x _ => B x)). lia.
Qed.
Lemma all_garbage_total : forall st l, (forall t, In t l -> dget (syms st) t <> None) -> exists b, all_garbage st l = Ok b.
Proof.
  intros st l H. apply rfold_total. intros t b It. specialize (H t It). unfold sym_of. destruct (dget (syms st) t); [|congruence]. simpl. eauto.
Qed.
Lemma mark_total : forall f, (forall st s, inv none st -> cnt st < f -> dget (syms st) s <> None -> exists st', mark_sym f st s = Ok st') /\
  (forall st n, inv none st -> cnt st < f -> dget (scopes st) n <> None -> exists st', mark_ns f st n = Ok st').
Proof.
  induction f as [|f (IHs & IHn)]; (split; intros st x I L K; [|]); try lia; cbn [mark_sym mark_ns].
  - unfold sym_of at 1. destruct (dget (syms st) x) as [y|] eqn:Y; [|congruence]. cbn [of_option rbind]. destruct (y_tomb y) eqn:T; [eauto|]. cbv zeta.
    pose proof (sim_tomb st x y true Y) as S1. pose proof (fun t => garbage_set st x y t Y) as GS. set (st1 := with_sym st x (set_tomb y true)) in *. pose proof (inv_sim _ _ _ S1 I) as I1.
    destruct (dget (spaces st1) (y_obj y)) as [n|] eqn:Sp; [|eauto]. destruct (all_garbage_total st1 (held (aliases st1) (y_obj y))) as (b & ->).
    { intros t It. apply (i_known _ _ I1 (y_obj y)). apply listed_held. exact It. }
    cbn [rbind]. destruct b; [|eauto]. apply IHn; auto.
    + destruct (clean_mono st st1 S1) as (A & B); [intros s G; apply GS; auto|auto|]. assert (X : In x (seq 0 (next st))) by (apply in_seq; split; [lia|simpl; apply (i_fresh _ _ I); left; congruence]).
      assert (C1 : clean st1 x = false). { destruct (clean st1 x) eqn:E; auto. apply clean_iff in E. destruct E as (_ & N). exfalso. apply N, GS. auto. }
      assert (C2 : clean st x = true) by (unfold clean; rewrite Y, T; reflexivity).
      unfold cnt in *. rewrite (sim_next _ _ S1). pose proof (filter_lt (clean st1) (clean st) (seq 0 (next st)) x (fun x _ => A x) X C1 C2). pose proof (filter_le (clean_ns st1) (clean_ns st) (seq 0 (next st)) (fun x _ => B x)). lia.
    + destruct (i_space _ _ I1 _ _ Sp) as (c & C & _). congruence.
  - unfold scope_of at 1. destruct (dget (scopes st) x) as [c|] eqn:C; [|congruence]. cbn [of_option rbind]. destruct (s_tomb c) eqn:T; [eauto|].
    pose proof (sim_stomb st x c true C) as S1. pose proof (fun t => garbage_space_set st x c t C) as GS. set (st1 := with_scope st x (set_stomb c true)) in *. pose proof (inv_sim _ _ _ S1 I) as I1.
    assert (L1 : cnt st1 < f).
    { destruct (clean_mono st st1 S1) as (A & B); [auto|intros s G; apply GS; auto|]. assert (X : In x (seq 0 (next st))) by (apply in_seq; split; [lia|simpl; apply (i_fresh _ _ I); right; congruence]).
      assert (C1 : clean_ns st1 x = false). { destruct (clean_ns st1 x) eqn:E; auto. apply clean_ns_iff in E. destruct E as (_ & N). exfalso. apply N, GS. auto. }
      assert (C2 : clean_ns st x = true) by (unfold clean_ns; rewrite C, T; reflexivity).
      unfold cnt in *. rewrite (sim_next _ _ S1). pose proof (filter_lt (clean_ns st1) (clean_ns st) (seq 0 (next st)) x (fun x _ => B x) X C1 C2). pose proof (filter_le (clean st1) (clean st) (seq 0 (next st)) (fun x _ => A x)). lia. }
    assert (P : forall t, In t (members c) -> dget (syms st1) t <> None).
    { intros t It. destruct (members_bound st x c t C (fun sub => i_wf _ _ I x c sub C) It) as (sub & k & B). destruct (i_place _ _ I _ _ _ _ B) as (y & Y & _). simpl. congruence. }
    clear GS S1. clearbody st1. revert st1 I1 L1 P. induction (members c) as [|t l IHl]; intros st1 I1 L1 P; cbn [rfold]; [eauto|].
    destruct (IHs st1 t I1 L1 (P t (or_introl eq_refl))) as (st2 & H2). rewrite H2. cbn [rbind]. destruct (proj1 (mark_marks f) _ _ _ I1 H2) as (M & _). pose proof (m_sim _ _ M) as S2.
    apply IHl; [eapply inv_sim; eauto|pose proof (cnt_le _ _ M); lia|]. intros u Iu. apply (sim_known st1 st2); auto. apply P. right. auto.
Qed.

(** * Collection *)
Definition popped (st : state) (l : list nat) (n : nat) (sub : bool) (k : nat) : Prop := exists s, In s l /\ placed st n sub k s.
Record taken (st : state) (l : list nat) (st' : state) : Prop := {
  k_inv : inv none st';
  k_sym : forall t, dget (syms st') t = if memb t l then None else dget (syms st) t;
  k_scope : forall n c, dget (scopes st) n = Some c -> exists c', dget (scopes st') n = Some c' /\
    (forall sub k t, dget (table c' sub) k = Some t <-> dget (table c sub) k = Some t /\ ~ popped st l n sub k) /\
    s_ns c' = s_ns c /\ s_obj c' = s_obj c /\ s_tomb c' = s_tomb c /\ s_anon c' = s_anon c /\ s_array c' = s_array c /\ s_path c' = s_path c;
  k_scope' : forall n, dget (scopes st') n <> None -> dget (scopes st) n <> None;
  k_rest : spaces st' = spaces st /\ next st' = next st }.
Lemma collect_total : forall st s, inv none st -> exists st', collect st s = Ok st'.
Proof.
  intros st s I. unfold collect. destruct (dget (syms st) s) as [y|] eqn:Y; [|eauto]. pose proof (i_scope _ _ I s y Y) as K. unfold scope_of at 1. destruct (dget (scopes st) (y_scope y)) as [c|] eqn:C; [|congruence].
  cbn [of_option rbind]. cbv zeta. unfold unput, scope_of. simpl. rewrite C. destruct (y_sub y); [destruct (s_ns c)|]; simpl; eauto.
Qed.
Lemma collect_taken : forall st done s st1 st2, inv none st -> taken st done st1 -> collect st1 s = Ok st2 -> taken st (done ++ [s]) st2.
Proof.
  intros st done s st1 st2 I T H. unfold collect in H. pose proof (k_inv _ _ _ T) as I1. pose proof (k_sym _ _ _ T) as KS. destruct (dget (syms st1) s) as [y|] eqn:Y.
  - apply rbind_Ok in H. destruct H as (c & C & H). apply scope_of_Ok in C. cbv zeta in H. apply rmap_Ok in H. destruct H as (st3 & H3 & E).
    assert (Y0 : dget (syms st) s = Some y) by (rewrite KS in Y; destruct (memb s done); [discriminate|auto]).
    assert (H4 : unput (with_aliases st1 (discard (aliases st1) (y_obj y) s)) (y_scope y) (y_sub y) (y_name y) = Ok st3).
    { destruct (y_sub y) eqn:Sb; [rewrite (i_sub _ _ I1 s y c Y C Sb) in H3|]; exact H3. }
    clear H3. set (sta := with_aliases st1 (discard (aliases st1) (y_obj y) s)) in *.
    assert (HL : forall o t, listed sta o t <-> listed st1 o t /\ t <> s).
    { intros o t. rewrite listed_held. simpl. rewrite held_discard, <- listed_held. split.
      - intros (Lt & N). split; auto. intros ->. apply N. split; auto. apply (i_fit _ _ I1 s y Y); auto.
      - intros (Lt & N). split; auto. tauto. }
    assert (Ia : inv (eq s) sta).
    { apply inv_with_aliases; [eapply inv_weaken; [|exact I1]; intros ? []|apply dwf_discard; apply (i_wfa _ _ I1)| |].
      - intros o t N. pose proof (HL o t) as Q. rewrite listed_held in Q. simpl in Q. rewrite Q. intuition.
      - intros o t Ht. change (listed sta o t) with (listed sta o t) in *. assert (Q : listed sta o t) by (apply listed_held; exact Ht). apply HL in Q. eapply (i_known _ _ I1); apply Q. }
    pose proof (unput_inv _ _ _ _ _ _ Ia H4) as Ib. unfold unput in H4. apply rmap_Ok in H4. destruct H4 as (c' & C' & E3). apply scope_of_Ok in C'. assert (c' = c) by (simpl in C'; congruence). subst c'. clear C'.
    set (cb := set_table c (y_sub y) (dpop (table c (y_sub y)) (y_name y))) in *. destruct (set_table_rest c (y_sub y) (dpop (table c (y_sub y)) (y_name y))) as (R1 & R2 & R3 & R4 & R5 & R6). fold cb in R1, R2, R3, R4, R5, R6.
    assert (NB : forall n sub k, ~ bound st3 n sub k s).
    { intros n sub k B. destruct (i_place _ _ Ib _ _ _ _ B) as (z & Z & Zs & Zb & Zn). assert (z = y) by (rewrite <- E3 in Z; simpl in Z; congruence). subst z. destruct B as (x & Cx & D).
      rewrite <- E3 in Cx. simpl in Cx. rewrite <- Zs, dget_dset_same in Cx. injection Cx as <-. rewrite <- Zb, <- Zn in D. unfold cb in D. rewrite table_set, Bool.eqb_reflx, dget_dpop, Nat.eqb_refl in D. discriminate. }
    assert (NL : forall o, ~ listed st3 o s). { intros o Lo. assert (Q : listed sta o s) by (rewrite <- E3 in Lo; exact Lo). apply HL in Q. tauto. }
    assert (ID : inv (eq s) st3 -> inv none (mkSt (dpop (syms st3) s) (scopes st3) (aliases st3) (spaces st3) (next st3))).
    { intros _. assert (I3 : forall t z, t <> s -> dget (syms st3) t = Some z -> (forall o, listed st3 o t <-> o = y_obj z) /\ y_cached z = Some (y_obj z)).
      { intros t z Ne D. split; [apply (i_fit _ _ Ib t z D); congruence|apply (i_set _ _ Ib t z D); congruence]. }
      assert (K : forall t z, dget (dpop (syms st3) s) t = Some z -> t <> s /\ dget (syms st3) t = Some z) by (intros t z D; rewrite dget_dpop in D; destruct (Nat.eqb_spec t s); [discriminate|auto]).
      split; simpl.
      - intros t z D N. destruct (K _ _ D) as (Ne & D'). apply (I3 t z Ne D').
      - intros t z D N. destruct (K _ _ D) as (Ne & D'). apply (I3 t z Ne D').
      - intros o t Lt. rewrite dget_dpop. destruct (Nat.eqb_spec t s) as [->|Ne]; [destruct (NL o Lt)|]. eapply (i_known _ _ Ib); eauto.
      - intros n sub k t B. destruct (i_place _ _ Ib n sub k t B) as (z & Z & P). exists z. simpl. rewrite dget_dpop. destruct (Nat.eqb_spec t s) as [->|Ne]; [destruct (NB n sub k B)|auto].
      - intros t z D. destruct (K _ _ D) as (Ne & D'). apply (i_scope _ _ Ib t); auto.
      - apply (i_space _ _ Ib).
      - intros t [H|H]; apply (i_fresh _ _ Ib); [left|right; auto]. intros E'. apply H. rewrite dget_dpop, E'. destruct (t =? s); auto.
      - apply (i_wf _ _ Ib).
      - apply (i_root _ _ Ib).
      - intros t z x D. destruct (K _ _ D) as (Ne & D'). apply (i_sub _ _ Ib t); auto.
      - apply (i_wfa _ _ Ib).
      - apply (i_wfs _ _ Ib). }
    rewrite <- E. specialize (ID Ib). clear HL NL NB. split; auto.
    + intros t. rewrite <- E3. simpl. rewrite dget_dpop, KS. unfold memb. rewrite existsb_app. simpl. rewrite orb_false_r. destruct (Nat.eqb_spec t s) as [->|Ne]; [rewrite ?Nat.eqb_refl, orb_true_r; auto|].
      replace (s =? t) with false by (symmetry; apply Nat.eqb_neq; auto). rewrite ?orb_false_r. reflexivity.
    + intros n x Cx. destruct (k_scope _ _ _ T n x Cx) as (x1 & C1 & TB & Q1 & Q2 & Q3 & Q4 & Q5 & Q6).
      assert (PP : forall sub k, popped st (done ++ [s]) n sub k <-> popped st done n sub k \/ n = y_scope y /\ sub = y_sub y /\ k = y_name y).
      { intros sub k. unfold popped. split.
        - intros (u & Iu & Pu). apply in_app_iff in Iu. destruct Iu as [Iu|[<-|[]]]; [left; eauto|]. right. destruct Pu as (z & Z & P1 & P2 & P3). assert (z = y) by congruence. subst z. auto.
        - intros [(u & Iu & Pu)|(-> & -> & ->)]; [exists u; split; auto; apply in_app_iff; auto|]. exists s. split; [apply in_app_iff; simpl; auto|]. exists y. auto. }
      destruct (Nat.eq_dec n (y_scope y)) as [->|Ne].
      * assert (x1 = c) by congruence. subst x1. exists cb. rewrite <- E3. simpl. rewrite dget_dset_same. split; auto. split; [|repeat apply conj; congruence].
        intros sub k t. unfold cb. rewrite table_set, PP. destruct (Bool.eqb sub (y_sub y)) eqn:Es.
        -- apply Bool.eqb_prop in Es. subst sub. rewrite dget_dpop. destruct (Nat.eqb_spec k (y_name y)) as [->|Nk]; [split; [discriminate|intros (_ & N); exfalso; apply N; auto]|]. rewrite TB. tauto.
        -- rewrite TB. split; [intros (A & B); split; auto; intros [P|(_ & -> & _)]; [auto|rewrite Bool.eqb_reflx in Es; discriminate]|tauto].
      * exists x1. rewrite <- E3. simpl. rewrite dget_dset_other by auto. split; auto. split; [|repeat apply conj; congruence]. intros sub k t. rewrite TB, PP. tauto.
    + intros n Hn. apply (k_scope' _ _ _ T). rewrite <- E3 in Hn. simpl in Hn. destruct (Nat.eq_dec n (y_scope y)) as [->|Ne]; [congruence|]. rewrite dget_dset_other in Hn; auto.
    + rewrite <- E3. simpl. apply (k_rest _ _ _ T).
  - injection H as <-. assert (G : forall t, (if memb t (done ++ [s]) then None else dget (syms st) t) = if memb t done then None else dget (syms st) t).
    { intros t. unfold memb. rewrite existsb_app. simpl. rewrite orb_false_r. destruct (existsb _ done) eqn:M; auto. simpl. rewrite KS in Y. destruct (Nat.eqb_spec t s) as [->|Ne]; auto.
      unfold memb in Y. rewrite M in Y. auto. }
    assert (PP : forall n sub k, popped st (done ++ [s]) n sub k -> popped st done n sub k).
    { intros n sub k (u & Iu & Pu). apply in_app_iff in Iu. destruct Iu as [Iu|[<-|[]]]; [exists u; auto|]. rewrite KS in Y. destruct (memb s done) eqn:M; [exists s; split; auto; apply memb_In; auto|].
      destruct Pu as (z & Z & _). congruence. }
    split; auto.
    + intros t. rewrite G. apply KS.
    + intros n x Cx. destruct (k_scope _ _ _ T n x Cx) as (x1 & C1 & TB & Q). exists x1. split; auto. split; auto. intros sub k t. rewrite TB. split; intros (A & B); split; auto.
      intros P. apply B. destruct P as (u & Iu & Pu). exists u. split; auto. apply in_app_iff. auto.
    + apply (k_scope' _ _ _ T).
    + apply (k_rest _ _ _ T).
Qed.
Lemma taken_nil : forall st, inv none st -> taken st [] st.
Proof.
  intros st I. split; auto. intros n c C. exists c. split; auto. split; [|repeat apply conj; auto]. intros sub k t. split; [|tauto]. intros D. split; auto. intros (s & [] & _).
Qed.
Lemma collect_all : forall st l st', inv none st -> rfold collect l st = Ok st' -> taken st l st'.
Proof.
  intros st l st' I H. refine (rfold_prefix _ (taken st) l st st' _ _ H).
  - apply taken_nil. auto.
  - intros done a t t' _ T E. eapply collect_taken; eauto.
Qed.

Lemma all_symbols_listed : forall st s, dwf (aliases st) -> (In s (all_symbols st) <-> exists o, listed st o s).
Proof.
  intros st s W. unfold all_symbols. rewrite in_flat_map. split.
  - intros ((o, l) & I & Is). exists o, l. split; auto. apply In_dget; auto.
  - intros (o & l & D & Is). exists (o, l). split; auto. apply dget_In. auto.
Qed.
Lemma listed_all : forall st o s, listed st o s -> In s (all_symbols st).
Proof. intros st o s (l & D & Is). unfold all_symbols. apply in_flat_map. exists (o, l). split; auto. apply dget_In. auto. Qed.
Definition seeds (st : state) (prev : Z) (s : nat) : Prop := (0 < prev)%Z /\ (unnamed st prev s \/ in_array st prev s).
Lemma known_all : forall st s, inv none st -> dget (syms st) s <> None -> In s (all_symbols st).
Proof.
  intros st s I K. destruct (dget (syms st) s) as [y|] eqn:Y; [|congruence]. apply listed_all with (o := y_obj y). apply (i_fit _ _ I s y Y); auto.
Qed.
Lemma gc_mark_ok : forall fuel prev st st1, inv none st -> gc_mark fuel prev st = Ok st1 ->
  marks st st1 /\ just (seeds st prev) st st1 /\ (forall s, (0 < prev)%Z -> unnamed st prev s -> garbage st1 s) /\
  (forall u y, dget (syms st) u = Some y -> y_scope y = 0 -> exists y', dget (syms st1) u = Some y' /\ (y' = y \/ y_anon y = true)).
Proof.
  intros fuel prev st st1 I H. unfold gc_mark in H. destruct (Z.ltb_spec 0 prev) as [Pp|Pp].
  2:{ injection H as <-. repeat apply conj; eauto; [apply marks_refl|apply just_refl|]. intros s Q. lia. }
  pose (P := fun (done : list nat) t => marks st t /\ just (seeds st prev) st t /\ (forall s, In s done -> unnamed st prev s -> garbage t s) /\
    (forall u y, dget (syms st) u = Some y -> y_scope y = 0 -> exists y', dget (syms t) u = Some y' /\ (y' = y \/ y_anon y = true))).
  assert (A : P (all_symbols st) st1).
  { refine (rfold_prefix _ P (all_symbols st) st st1 _ _ H).
    - repeat apply conj; eauto; [apply marks_refl|apply just_refl|intros s []].
    - intros done s t t' _ (M & J & Un & Gz) E. apply rbind_Ok in E. destruct E as (y & Y & E). apply sym_of_Ok in Y. apply rbind_Ok in E. destruct E as (c & C & E). apply scope_of_Ok in C.
      pose proof (m_sim _ _ M) as S. pose proof (inv_sim _ _ _ S I) as It. destruct (sim_sym' _ _ _ _ S Y) as (y0 & Y0 & Ry). pose proof (sim_y_fields _ _ Ry) as (R1 & R2 & R3 & R4 & R5 & R6 & R7).
      rewrite R3 in C. destruct (sim_scope' _ _ _ _ S C) as (c0 & C0 & Rc). pose proof (sim_c_fields _ _ Rc) as (Q0 & Q1 & Q2 & Q3 & Q4 & Q5).
      assert (skip : (unnamed st prev s -> garbage t s) -> t = t' -> P (done ++ [s]) t').
      { intros Us <-. repeat apply conj; auto. intros u Iu. apply in_app_iff in Iu. destruct Iu as [Iu|[<-|[]]]; auto. }
      rewrite R7 in E. destruct (Z.eqb_spec (y_def y0) prev) as [Dp|Dp]; cbn [negb] in E.
      2:{ apply skip; [|congruence]. intros (z & x & Z & X & Dz & _). congruence. }
      destruct (anonymous y c || new_garbage y c) eqn:Sd.
      2:{ apply skip; [|congruence]. intros (z & x & Z & X & _ & An). assert (z = y0) by congruence. subst z. assert (x = c0) by congruence. subst x. apply orb_false_iff in Sd. destruct Sd as (Sd & _). unfold anonymous in Sd.
          rewrite R6, Q1, Q3 in Sd. destruct An as [An|(A1 & A2)]; [rewrite An in Sd; discriminate|rewrite A1, A2, orb_true_r in Sd; discriminate]. }
      destruct (proj1 (mark_marks fuel) t s t' It E) as (M2 & G2). assert (SS : seeds st prev s).
      { split; auto. apply orb_true_iff in Sd. destruct Sd as [Sd|Sd].
        - left. exists y0, c0. repeat apply conj; auto. unfold anonymous in Sd. apply orb_true_iff in Sd. destruct Sd as [Sd|Sd]; [left; congruence|right; apply andb_true_iff in Sd; split; [rewrite <- Q1|rewrite <- Q3]; tauto].
        - right. exists y0, c0. unfold new_garbage in Sd. rewrite !andb_true_iff in Sd. destruct Sd as (_ & (Sd1 & Sd2) & _). repeat apply conj; auto; [rewrite <- Q1|rewrite <- Q4]; auto. }
      repeat apply conj.
      + eapply marks_trans; eauto.
      + apply (proj1 (mark_just fuel _ st I) t s t'); auto. destruct (garbage_dec st s) as [G|G]; auto. right. apply goes_it; auto.
      + intros u Iu Uu. apply in_app_iff in Iu. destruct Iu as [Iu|[<-|[]]]; auto. apply (m_sym _ _ M2); auto.
      + intros u z Z Zs. destruct (Gz u z Z Zs) as (z1 & Z1 & Dz). pose proof (proj1 (mark_glob fuel none) t s t' It E) as G. destruct (Nat.eq_dec u s) as [->|Ne].
        * assert (z = y0) by congruence. subst z. destruct (sim_sym _ _ _ _ (m_sim _ _ M2) Y) as (y2 & Y2 & _). exists y2. split; auto. right. apply orb_true_iff in Sd. 
          assert (s_ns c = false). { rewrite Zs in C. destruct (i_root _ _ It) as (r & Cr & Nr). congruence. }
          unfold anonymous, new_garbage in Sd. rewrite H0 in Sd. simpl in Sd. rewrite orb_false_r, andb_false_r in Sd. destruct Sd as [Sd|Sd]; [congruence|discriminate].
        * destruct Dz as [->|An].
          -- exists z. split; auto. apply (g_sym _ _ _ G); auto.
          -- destruct (sim_sym _ _ _ _ (m_sim _ _ M2) Z1) as (z2 & Z2 & _). exists z2. auto. }
  destruct A as (A1 & A2 & A3 & A4). repeat apply conj; auto. intros s _ U. apply A3; auto. apply known_all; auto. destruct U as (y & c & Y & _). congruence.
Qed.
Lemma gc_mark_total : forall fuel prev st, inv none st -> cnt st < fuel -> exists st1, gc_mark fuel prev st = Ok st1.
Proof.
  intros fuel prev st I L. unfold gc_mark. destruct (0 <? prev)%Z; [|eauto].
  assert (A : forall l t, (forall s, In s l -> dget (syms st) s <> None) -> marks st t -> exists t', rfold (fun st s =>
      rbind (sym_of st s) (fun y =>
      rbind (scope_of st (y_scope y)) (fun c =>
        if negb (y_def y =? prev)%Z then Ok st else if anonymous y c || new_garbage y c then mark_sym fuel st s else Ok st))) l t = Ok t').
  { induction l as [|s l IH]; intros t K M; cbn [rfold]; [eauto|]. pose proof (m_sim _ _ M) as S. pose proof (inv_sim _ _ _ S I) as It.
    assert (Ks : dget (syms t) s <> None) by (apply (sim_known st t); auto; apply K; left; auto). unfold sym_of at 1. destruct (dget (syms t) s) as [y|] eqn:Y; [|congruence]. cbn [of_option rbind].
    pose proof (i_scope _ _ It s y Y) as Kc. unfold scope_of at 1. destruct (dget (scopes t) (y_scope y)) as [c|]; [|congruence]. cbn [of_option rbind].
    assert (K' : forall u, In u l -> dget (syms st) u <> None) by (intros u Iu; apply K; right; auto).
    destruct (negb _); [apply IH; auto|]. destruct (anonymous y c || new_garbage y c); [|apply IH; auto].
    destruct (proj1 (mark_total fuel) t s It) as (t2 & E2); [pose proof (cnt_le _ _ M); lia|congruence|]. rewrite E2. cbn [rbind]. apply IH; auto. eapply marks_trans; eauto. apply (proj1 (mark_marks fuel) t s t2 It E2). }
  apply A; [|apply marks_refl]. intros s Is. apply all_symbols_listed in Is; [|apply (i_wfa _ _ I)]. destruct Is as (o & Lo). eapply (i_known _ _ I); eauto.
Qed.
Lemma gc_garbage_spec : forall st l, inv none st -> gc_garbage st = Ok l -> forall s, In s l <-> garbage st s.
Proof.
  intros st l I H s. unfold gc_garbage in H.
  assert (A : forall todo acc l, rfold (fun acc s => rmap (fun y => if y_tomb y then acc ++ [s] else acc) (sym_of st s)) todo acc = Ok l -> (In s l <-> In s acc \/ In s todo /\ garbage st s)).
  { clear l H. induction todo as [|t todo IH]; cbn [rfold]; intros acc l H; [injection H as <-; simpl; tauto|]. apply rbind_Ok in H. destruct H as (acc' & H1 & H2). apply rmap_Ok in H1. destruct H1 as (y & Y & <-).
    apply sym_of_Ok in Y. rewrite (IH _ _ H2). simpl. destruct (y_tomb y) eqn:T.
    - rewrite in_app_iff. simpl. assert (t = s -> garbage st s) by (intros <-; exists y; auto). tauto.
    - assert (t = s -> ~ garbage st s) by (intros <- (z & Z & T'); congruence). tauto. }
  rewrite (A _ _ _ H). simpl. split; [tauto|]. intros G. right. split; auto. apply known_all; auto. destruct G as (y & Y & _). congruence.
Qed.
Lemma gc_garbage_total : forall st, inv none st -> exists l, gc_garbage st = Ok l.
Proof.
  intros st I. apply rfold_total. intros s acc Is. apply all_symbols_listed in Is; [|apply (i_wfa _ _ I)]. destruct Is as (o & Lo). pose proof (i_known _ _ I _ _ Lo) as K. unfold sym_of. destruct (dget (syms st) s); [|congruence]. simpl. eauto.
Qed.
Lemma nil_members : forall st n c, dget (scopes st) n = Some c -> (members c = [] <-> forall sub k s, ~ bound st n sub k s).
Proof.
  intros st n c C. split.
  - intros E sub k s B. destruct (bound_members _ _ _ _ _ B) as (c' & C' & I). assert (c' = c) by congruence. subst c'. rewrite E in I. destruct I.
  - intros N. unfold members, dvals. destruct (s_names c) as [|(k, t) d] eqn:E1; [destruct (s_subs c) as [|(k, t) d] eqn:E2; auto|]; exfalso.
    + apply (N true k t). exists c. split; auto. simpl. rewrite E2. simpl. rewrite Nat.eqb_refl. auto.
    + apply (N false k t). exists c. split; auto. simpl. rewrite E1. simpl. rewrite Nat.eqb_refl. auto.
Qed.
Record swept (st : state) (l : list nat) (st' : state) : Prop := {
  w_inv : inv none st';
  w_syms : syms st' = syms st;
  w_aliases : aliases st' = aliases st;
  w_scope : forall n c, dget (scopes st) n = Some c -> exists c', dget (scopes st') n = Some c' /\ sim_c c c' /\ (c' = c \/ s_tomb c' = false) /\ (In n l -> members c <> [] -> s_tomb c' = false);
  w_scope' : forall n, dget (scopes st') n <> None -> dget (scopes st) n <> None;
  w_spaces : forall o n, dget (spaces st') o = Some n <-> dget (spaces st) o = Some n /\ ~ (In n l /\ forall sub k s, ~ bound st n sub k s) }.
Lemma sim_c_members : forall c c', sim_c c c' -> members c' = members c.
Proof. intros c c' S. apply sim_c_fields in S. destruct S as (T & _). unfold members. change (s_names c') with (table c' false). change (s_subs c') with (table c' true). rewrite !T. reflexivity. Qed.
Lemma inv_spaces : forall st st', inv none st -> syms st' = syms st -> scopes st' = scopes st -> aliases st' = aliases st -> next st' = next st -> dwf (spaces st') ->
  (forall o n, dget (spaces st') o = Some n -> dget (spaces st) o = Some n) -> inv none st'.
Proof.
  intros st st' I E1 E2 E3 E4 Wf Sp. split; unfold listed, bound, placed; rewrite ?E1, ?E2, ?E3, ?E4.
  - apply (i_fit _ _ I).
  - apply (i_set _ _ I).
  - apply (i_known _ _ I).
  - apply (i_place _ _ I).
  - apply (i_scope _ _ I).
  - intros o n D. apply (i_space _ _ I). auto.
  - apply (i_fresh _ _ I).
  - apply (i_wf _ _ I).
  - apply (i_root _ _ I).
  - apply (i_sub _ _ I).
  - apply (i_wfa _ _ I).
  - exact Wf.
Qed.
Lemma sweep_ok : forall st l st', inv none st -> (forall n, In n l -> exists o, dget (spaces st) o = Some n) -> rfold (fun st n =>
    rmap (fun c =>
      if is_nil (members c) then mkSt (syms st) (scopes st) (aliases st) (dpop (spaces st) (s_obj c)) (next st)
      else with_scope st n (set_stomb c false)) (scope_of st n)) l st = Ok st' -> swept st l st'.
Proof.
  intros st l st' I Sp H. refine (rfold_prefix _ (swept st) l st st' _ _ H).
  - split; auto.
    + intros n c C. exists c. split; auto. split; [reflexivity|]. split; auto. intros [].
    + intros o n. split; [|tauto]. intros D. split; auto. intros ([] & _).
  - clear H. intros done n t t' Inc W E. apply rmap_Ok in E. destruct E as (c & C & E). apply scope_of_Ok in C. pose proof (w_inv _ _ _ W) as It.
    assert (K : dget (scopes st) n <> None) by (apply (w_scope' _ _ _ W); congruence). destruct (dget (scopes st) n) as [c0|] eqn:C0; [|congruence]. clear K.
    destruct (w_scope _ _ _ W n c0 C0) as (c' & C' & Sc & Dc & Tc). assert (c' = c) by congruence. subst c'. clear C'. pose proof (sim_c_members _ _ Sc) as Mb. destruct (Sp n) as (o0 & So); [apply Inc, in_app_iff; simpl; auto|].
    destruct (i_space _ _ I _ _ So) as (c1 & C1 & O1 & _). assert (c1 = c0) by congruence. subst c1. clear C1. assert (Oc : s_obj c = o0) by (apply sim_c_fields in Sc; destruct Sc as (_ & _ & -> & _); auto).
    pose proof (nil_members st n c0 C0) as NM. destruct (is_nil (members c)) eqn:Nil.
    + apply is_nil_true in Nil. rewrite Mb in Nil. pose proof (proj1 NM Nil) as NB. subst t'. split; simpl.
      * apply inv_spaces with (st := t); auto; simpl; [apply dwf_dpop, (i_wfs _ _ It)|]. intros o m D. rewrite dget_dpop in D. destruct (o =? s_obj c); [discriminate|auto].
      * apply (w_syms _ _ _ W).
      * apply (w_aliases _ _ _ W).
      * intros m x X. destruct (w_scope _ _ _ W m x X) as (x' & X' & Sx & Dx & Tx). exists x'. repeat (split; [assumption|]). intros Im. apply in_app_iff in Im. destruct Im as [Im|[<-|[]]]; auto.
        assert (x = c0) by congruence. subst x. intros Ne. contradiction.
      * apply (w_scope' _ _ _ W).
      * intros o m. rewrite dget_dpop, Oc. destruct (Nat.eqb_spec o o0) as [->|Ne].
        -- split; [discriminate|]. intros (D & N). exfalso. apply N. assert (m = n) by congruence. subst m. split; auto. apply in_app_iff. simpl. auto.
        -- rewrite (w_spaces _ _ _ W). split; intros (D & N); split; auto; intros (Im & Nb); apply N; split; auto; [|apply in_app_iff; auto]. apply in_app_iff in Im. destruct Im as [Im|[<-|[]]]; auto.
           exfalso. apply Ne. destruct (i_space _ _ I _ _ D) as (z & Z & Oz & _). congruence.
    + apply is_nil_false in Nil. rewrite Mb in Nil. subst t'. pose proof (sim_stomb t n c false C) as S. split.
      * eapply inv_sim; eauto.
      * apply (w_syms _ _ _ W).
      * apply (w_aliases _ _ _ W).
      * intros m x X. destruct (w_scope _ _ _ W m x X) as (x' & X' & Sx & Dx & Tx). simpl. destruct (Nat.eq_dec m n) as [->|Ne].
        -- exists (set_stomb c false). rewrite dget_dset_same. split; auto. assert (x = c0) by congruence. subst x. split; [|auto]. unfold sim_c in *. rewrite Sc. reflexivity.
        -- exists x'. rewrite dget_dset_other by auto. repeat (split; [assumption|]). intros Im. apply in_app_iff in Im. destruct Im as [Im|[<-|[]]]; auto. contradiction.
      * intros m. simpl. intros Hm. apply (w_scope' _ _ _ W). destruct (Nat.eq_dec m n) as [->|Ne]; [congruence|]. rewrite dget_dset_other in Hm; auto.
      * intros o m. simpl. rewrite (w_spaces _ _ _ W). split; intros (D & N); split; auto; intros (Im & Nb); apply N; split; auto; [|apply in_app_iff; auto]. apply in_app_iff in Im. destruct Im as [Im|[<-|[]]]; auto.
        exfalso. apply Nil, NM. auto.
Qed.
Lemma garbage_spaces_spec : forall st l0 l, (forall n, In n l0 -> dget (scopes st) n <> None) ->
  rfold (fun acc n => rmap (fun c => if s_tomb c then acc ++ [n] else acc) (scope_of st n)) l0 [] = Ok l -> forall n, In n l <-> In n l0 /\ garbage_space st n.
Proof.
  intros st l0 l K H n.
  assert (A : forall todo acc l, rfold (fun acc n => rmap (fun c => if s_tomb c then acc ++ [n] else acc) (scope_of st n)) todo acc = Ok l -> (In n l <-> In n acc \/ In n todo /\ garbage_space st n)).
  { clear l0 l K H. induction todo as [|t todo IH]; cbn [rfold]; intros acc l H; [injection H as <-; simpl; tauto|]. apply rbind_Ok in H. destruct H as (acc' & H1 & H2). apply rmap_Ok in H1. destruct H1 as (y & Y & <-).
    apply scope_of_Ok in Y. rewrite (IH _ _ H2). simpl. destruct (s_tomb y) eqn:T.
    - rewrite in_app_iff. simpl. assert (t = n -> garbage_space st n) by (intros <-; exists y; auto). tauto.
    - assert (t = n -> ~ garbage_space st n) by (intros <- (z & Z & T'); congruence). tauto. }
  rewrite (A _ _ _ H). simpl. tauto.
Qed.

Lemma spaces_vals : forall st n, inv none st -> (In n (dvals (spaces st)) <-> exists o, dget (spaces st) o = Some n).
Proof.
  intros st n I. unfold dvals. rewrite in_map_iff. split.
  - intros ((o, m) & <- & H). exists o. apply In_dget; auto. apply (i_wfs _ _ I).
  - intros (o & D). exists (o, n). split; auto. apply dget_In. auto.
Qed.
Lemma gc_spaces_ok : forall st st', inv none st -> gc_spaces st = Ok st' -> exists l, (forall n, In n l <-> (exists o, dget (spaces st) o = Some n) /\ garbage_space st n) /\ swept st l st'.
Proof.
  intros st st' I H. unfold gc_spaces in H. apply rbind_Ok in H. destruct H as (l & Hl & H). exists l.
  assert (A : forall n, In n l <-> (exists o, dget (spaces st) o = Some n) /\ garbage_space st n).
  { intros n. rewrite <- spaces_vals by auto. eapply garbage_spaces_spec; eauto. intros m Im. apply spaces_vals in Im; auto. destruct Im as (o & D). destruct (i_space _ _ I _ _ D) as (c & C & _). congruence. }
  split; auto. apply sweep_ok; auto. intros n In'. apply A in In'. apply In'.
Qed.
Lemma gc_spaces_total : forall st, inv none st -> exists st', gc_spaces st = Ok st'.
Proof.
  intros st I. unfold gc_spaces.
  assert (K : forall n, In n (dvals (spaces st)) -> dget (scopes st) n <> None) by (intros n Im; apply spaces_vals in Im; auto; destruct Im as (o & D); destruct (i_space _ _ I _ _ D) as (c & C & _); congruence).
  destruct (rfold_total (fun acc n => rmap (fun c => if s_tomb c then acc ++ [n] else acc) (scope_of st n)) (dvals (spaces st)) []) as (l & Hl).
  { intros n acc Im. specialize (K n Im). unfold scope_of. destruct (dget (scopes st) n); [|congruence]. simpl. eauto. }
  rewrite Hl. cbn [rbind]. pose proof (garbage_spaces_spec st _ l K Hl) as S.
  assert (A : forall l t, (forall n, In n l -> dget (scopes st) n <> None) -> (forall n, dget (scopes st) n <> None -> dget (scopes t) n <> None) -> exists t', rfold (fun st n =>
    rmap (fun c => if is_nil (members c) then mkSt (syms st) (scopes st) (aliases st) (dpop (spaces st) (s_obj c)) (next st) else with_scope st n (set_stomb c false)) (scope_of st n)) l t = Ok t').
  { clear. induction l as [|n l IH]; intros t K1 K2; cbn [rfold]; [eauto|]. assert (Kn := K2 n (K1 n (or_introl eq_refl))). assert (Es : exists c, scope_of t n = Ok c) by (unfold scope_of; destruct (dget (scopes t) n) as [c|]; [simpl; eauto|congruence]). destruct Es as (c & ->). cbn [rmap rbind].
    apply IH; [intros m Im; apply K1; right; auto|]. intros m Km. destruct (is_nil (members c)); simpl; auto. destruct (Nat.eq_dec m n) as [->|Ne]; [rewrite dget_dset_same; discriminate|rewrite dget_dset_other by auto; auto]. }
  apply A; auto. intros n Im. apply K. apply S. auto.
Qed.
(** All of a collection: [st1] has the marks. *)
Lemma gc_ok : forall fuel prev st st', inv none st -> gc fuel prev st = Ok st' -> exists st1 l st2 l2, gc_mark fuel prev st = Ok st1 /\ inv none st1 /\
  (forall s, In s l <-> garbage st1 s) /\ taken st1 l st2 /\ (forall n, In n l2 <-> (exists o, dget (spaces st2) o = Some n) /\ garbage_space st2 n) /\ swept st2 l2 st'.
Proof.
  intros fuel prev st st' I H. unfold gc in H. apply rbind_Ok in H. destruct H as (st1 & H1 & H). apply rbind_Ok in H. destruct H as (l & Hl & H). apply rbind_Ok in H. destruct H as (st2 & H2 & H3).
  destruct (gc_mark_ok _ _ _ _ I H1) as (M & _). pose proof (inv_sim _ _ _ (m_sim _ _ M) I) as I1. pose proof (collect_all _ _ _ I1 H2) as T.
  destruct (gc_spaces_ok _ _ (k_inv _ _ _ T) H3) as (l2 & A & W). exists st1, l, st2, l2. repeat (split; [solve [auto]|]). split; [apply gc_garbage_spec; auto|]. auto.
Qed.
Lemma gc_total : forall fuel prev st, inv none st -> cnt st < fuel -> exists st', gc fuel prev st = Ok st'.
Proof.
  intros fuel prev st I L. unfold gc. destruct (gc_mark_total fuel prev st I L) as (st1 & H1). rewrite H1. cbn [rbind]. destruct (gc_mark_ok _ _ _ _ I H1) as (M & _). pose proof (inv_sim _ _ _ (m_sim _ _ M) I) as I1.
  destruct (gc_garbage_total st1 I1) as (l & Hl). rewrite Hl. cbn [rbind].
  assert (A : forall l done t, taken st1 done t -> exists t', rfold collect l t = Ok t').
  { clear l Hl. induction l as [|s l IH]; intros done t T; cbn [rfold]; [eauto|]. destruct (collect_total t s (k_inv _ _ _ T)) as (t2 & E). rewrite E. cbn [rbind]. apply (IH (done ++ [s])). eapply collect_taken; eauto. }
  destruct (A l [] st1 (taken_nil _ I1)) as (st2 & H2). rewrite H2. cbn [rbind]. apply gc_spaces_total. apply (k_inv _ _ _ (collect_all _ _ _ I1 H2)).
Qed.

Lemma gc_final : forall fuel prev st st', inv none st -> gc fuel prev st = Ok st' -> exists st1, gc_mark fuel prev st = Ok st1 /\ inv none st1 /\ inv none st' /\
  (forall s y, dget (syms st') s = Some y <-> dget (syms st) s = Some y /\ ~ garbage st1 s) /\
  (forall n sub k t, bound st' n sub k t <-> bound st n sub k t /\ forall s, garbage st1 s -> ~ placed st n sub k s) /\
  (forall o n, dget (spaces st') o = Some n <-> dget (spaces st) o = Some n /\ ~ (garbage_space st1 n /\ forall sub k s, ~ bound st' n sub k s)) /\
  (forall s, ~ garbage st' s) /\ (forall o n, dget (spaces st') o = Some n -> ~ garbage_space st' n).
Proof.
  intros fuel prev st st' I H. destruct (gc_ok _ _ _ _ I H) as (st1 & l & st2 & l2 & H1 & I1 & Gl & T & Gl2 & W). destruct (gc_mark_ok _ _ _ _ I H1) as (M & _). pose proof (m_sim _ _ M) as S. exists st1.
  pose proof (k_inv _ _ _ T) as I2. destruct (k_rest _ _ _ T) as (Sp2 & _).
  assert (E1 : forall s y, ~ garbage st1 s -> (dget (syms st1) s = Some y <-> dget (syms st) s = Some y)).
  { intros s y N. assert (A : forall y y', dget (syms st) s = Some y -> dget (syms st1) s = Some y' -> y = y').
    { clear y. intros y y' Y Y'. destruct (sim_sym _ _ _ _ S Y) as (y2 & Y2 & R). assert (y2 = y') by congruence. subst y2. assert (T1 : y_tomb y' = false) by (destruct (y_tomb y') eqn:E; auto; exfalso; apply N; exists y'; auto).
      assert (T0 : y_tomb y = false) by (destruct (y_tomb y) eqn:E; auto; exfalso; apply N; apply (m_sym _ _ M); exists y; auto). unfold sim_y, set_tomb in R. destruct y, y'. simpl in *. subst. injection R as -> -> -> -> -> -> ->. reflexivity. }
    split; intros Y; [destruct (sim_sym' _ _ _ _ S Y) as (y2 & Y2 & _)|destruct (sim_sym _ _ _ _ S Y) as (y2 & Y2 & _)]; [rewrite <- (A _ _ Y2 Y); auto|rewrite (A _ _ Y Y2); auto]. }
  assert (KS : forall s y, dget (syms st') s = Some y <-> dget (syms st) s = Some y /\ ~ garbage st1 s).
  { intros s y. rewrite (w_syms _ _ _ W), (k_sym _ _ _ T). destruct (memb s l) eqn:Ml.
    - apply memb_In, Gl in Ml. split; [discriminate|tauto].
    - assert (N : ~ garbage st1 s) by (intros G; apply Gl, memb_In in G; congruence). rewrite E1; tauto. }
  assert (B2 : forall n sub k t, bound st2 n sub k t <-> bound st n sub k t /\ forall s, garbage st1 s -> ~ placed st n sub k s).
  { intros n sub k t. rewrite <- (sim_bound st st1) by auto. split.
    - intros (c & C & D). assert (K : dget (scopes st1) n <> None) by (apply (k_scope' _ _ _ T); congruence). destruct (dget (scopes st1) n) as [c1|] eqn:C1; [|congruence].
      destruct (k_scope _ _ _ T n c1 C1) as (c' & C' & TB & _). assert (c' = c) by congruence. subst c'. apply TB in D. destruct D as (D & N). split; [exists c1; auto|]. intros s G P. apply N. exists s. split; [apply Gl; auto|apply (sim_placed st st1); auto].
    - intros ((c1 & C1 & D) & N). destruct (k_scope _ _ _ T n c1 C1) as (c' & C' & TB & _). exists c'. split; auto. apply TB. split; auto. intros (s & Is & P). apply (N s); [apply Gl; auto|apply (sim_placed st st1); auto]. }
  assert (B3 : forall n sub k t, bound st' n sub k t <-> bound st2 n sub k t).
  { intros n sub k t. split; intros (c & C & D).
    - assert (K : dget (scopes st2) n <> None) by (apply (w_scope' _ _ _ W); congruence). destruct (dget (scopes st2) n) as [c1|] eqn:C1; [|congruence]. destruct (w_scope _ _ _ W n c1 C1) as (c' & C' & R & _).
      assert (c' = c) by congruence. subst c'. exists c1. split; auto. apply sim_c_fields in R. destruct R as (R & _). rewrite <- R. auto.
    - destruct (w_scope _ _ _ W n c C) as (c' & C' & R & _). exists c'. split; auto. apply sim_c_fields in R. destruct R as (R & _). rewrite R. auto. }
  assert (G2 : forall n, garbage_space st2 n <-> garbage_space st1 n).
  { intros n. split; intros (c & C & Tc).
    - assert (K : dget (scopes st1) n <> None) by (apply (k_scope' _ _ _ T); congruence). destruct (dget (scopes st1) n) as [c1|] eqn:C1; [|congruence]. destruct (k_scope _ _ _ T n c1 C1) as (c' & C' & _ & _ & _ & Q & _).
      assert (c' = c) by congruence. subst c'. exists c1. split; auto. congruence.
    - destruct (k_scope _ _ _ T n c C) as (c' & C' & _ & _ & _ & Q & _). exists c'. split; auto. congruence. }
  repeat apply conj; auto.
  - apply (w_inv _ _ _ W).
  - intros n sub k t. rewrite B3. apply B2.
  - intros o n. rewrite (w_spaces _ _ _ W), Sp2, (sim_spaces _ _ S). split; intros (D & N); split; auto; intros (G & Nb); apply N; split.
    + apply Gl2. split; [exists o; rewrite Sp2, (sim_spaces _ _ S); auto|apply G2; auto].
    + intros sub k s. rewrite <- B3. auto.
    + apply G2. apply Gl2 in G. apply G.
    + intros sub k s. rewrite B3. auto.
  - intros s (y & Y & Ty). apply KS in Y. destruct Y as (Y & N). apply N, (m_sym _ _ M). exists y. auto.
  - intros o n D (c & C & Tc). pose proof D as D0. apply (w_spaces _ _ _ W) in D. destruct D as (D & N). assert (K : dget (scopes st2) n <> None) by (apply (w_scope' _ _ _ W); congruence).
    destruct (dget (scopes st2) n) as [c2|] eqn:C2; [|congruence]. destruct (w_scope _ _ _ W n c2 C2) as (c' & C' & _ & Dc & Tm). assert (c' = c) by congruence. subst c'. destruct Dc as [->|Dc]; [|congruence].
    assert (Il : In n l2) by (apply Gl2; split; [eauto|exists c2; auto]). apply N. split; auto. apply (nil_members st2 n c2 C2). destruct (members c2) as [|m q] eqn:Mb; auto. rewrite (Tm Il) in Tc; [discriminate|]. discriminate.
Qed.

(** * Each operation *)
Lemma update_split : forall fuel look st s o, update_obj_ref fuel look true st s o = rbind (update_obj_ref fuel look false st s o) (fun st => refresh_cached st s).
Proof.
  intros [|fuel] look st s o; [reflexivity|]. cbn [update_obj_ref]. destruct (sym_of st s) as [y|]; [|reflexivity]. cbn [rbind]. destruct (scope_of st (y_scope y)) as [c|]; [|reflexivity]. cbn [rbind]. cbv zeta.
  match goal with |- rbind ?a _ = _ => destruct a end; reflexivity.
Qed.
Lemma update_top : forall fuel look st s o st' y, inv (eq s) st -> dget (syms st) s = Some y -> pre st s o -> update_obj_ref fuel look true st s o = Ok st' ->
  inv none st' /\ glob (eq s) st st' /\ self st st' s o /\ forall n c, dget (scopes st) n = Some c -> dget (scopes st') n <> None.
Proof.
  intros fuel look st s o st' y I Y P H. pose proof (i_scope _ _ I s y Y) as K. destruct (dget (scopes st) (y_scope y)) as [c|] eqn:C; [|congruence].
  destruct (update_ok fuel look st s o st' none (length (s_path c))) as (I' & F & G & Sf); auto.
  - eapply inv_weaken; [|exact I]. intros t <-. auto.
  - exists y, c. auto.
  - intros x [].
  - repeat apply conj; auto. intros n x Cx. destruct (f_path _ _ _ _ F n x Cx) as (x' & -> & _). discriminate.
Qed.
Lemma inv_none_eq : forall s st, inv none st -> inv (eq s) st.
Proof. intros s st I. eapply inv_weaken; [|exact I]. intros t []. Qed.
Lemma update_plain : forall fuel look st s o st', inv none st -> update_obj_ref fuel look true st s o = Ok st' -> exists y, dget (syms st) s = Some y /\ inv none st' /\ glob (eq s) st st' /\ self st st' s o.
Proof.
  intros fuel look st s o st' I H. assert (K : exists y, dget (syms st) s = Some y).
  { destruct fuel; [discriminate|]. cbn [update_obj_ref] in H. apply rbind_Ok in H. destruct H as (y & Y & _). apply sym_of_Ok in Y. eauto. }
  destruct K as (y & Y). exists y. split; auto. destruct (update_top fuel look st s o st' y) as (A & B & C & _); auto; [apply inv_none_eq; auto|eapply inv_pre; eauto].
Qed.
Lemma refresh_plain : forall st s st', inv none st -> refresh_cached st s = Ok st' -> inv none st' /\ (forall u, dget (syms st') u = dget (syms st) u) /\ scopes st' = scopes st /\ aliases st' = aliases st /\ spaces st' = spaces st /\ next st' = next st.
Proof.
  intros st s st' I H. unfold refresh_cached in H. apply rmap_Ok in H. destruct H as (y & Y & <-). apply sym_of_Ok in Y. pose proof (i_set _ _ I s y Y (fun h => h)) as E.
  assert (E' : set_cached y (Some (y_obj y)) = y) by (destruct y; simpl in *; subst; reflexivity). rewrite E'. repeat apply conj; auto.
  - refine (inv_with_sym _ st s y y I Y _ _ _).
    + intros n sub k B. destruct (i_place _ _ I _ _ _ _ B) as (z & Z & P). assert (z = y) by congruence. subst z. exact P.
    + pose proof (i_scope _ _ I s y Y) as N. destruct (dget (scopes st) (y_scope y)) as [c|] eqn:C; [|congruence]. exists c. split; auto. intros Sb. eapply (i_sub _ _ I); eauto.
    + intros _. split; auto. apply (i_fit _ _ I s y Y). auto.
  - intros u. simpl. destruct (Nat.eq_dec u s) as [->|N]; [rewrite dget_dset_same; auto|rewrite dget_dset_other; auto].
Qed.
Lemma glob_same : forall E st st', (forall u, dget (syms st') u = dget (syms st) u) -> scopes st' = scopes st -> glob E st st'.
Proof. intros E st st' A B. split. - intros u y D _ _. rewrite A. auto. - intros u y D Z. rewrite A in D. eauto. - intros c C. rewrite B. eauto. Qed.
Lemma not_zero : forall X st n c, inv X st -> dget (scopes st) n = Some c -> s_ns c = true -> n <> 0.
Proof. intros X st n c I C N ->. destruct (i_root _ _ I) as (r & R & Z). congruence. Qed.
Lemma bound_sub_zero : forall X st k s, inv X st -> ~ bound st 0 true k s.
Proof.
  intros X st k s I B. destruct (i_place _ _ I _ _ _ _ B) as (y & Y & Sc & Sb & _). destruct B as (c & C & _). pose proof (i_sub _ _ I s y c Y) as Q. rewrite Sc in Q. eapply not_zero; eauto.
Qed.
(** New scopes. *)
Lemma new_scope_inv : forall X st c, inv X st -> s_names c = [] -> s_subs c = [] -> inv X (mkSt (syms st) (dset (scopes st) (next st) c) (aliases st) (spaces st) (S (next st))).
Proof.
  intros X st x I E1 E2.
  assert (N : forall n z, dget (scopes st) n = Some z -> n <> next st). { intros n z D ->. assert (next st < next st); [|lia]. apply (i_fresh _ _ I). right. congruence. }
  assert (K : forall n z, dget (scopes st) n = Some z -> dget (dset (scopes st) (next st) x) n = Some z). { intros n z D. rewrite dget_dset_other; auto. eauto. }
  split; simpl.
  + apply (i_fit _ _ I).
  + apply (i_set _ _ I).
  + apply (i_known _ _ I).
  + intros n sub k t (z & Dz & T). simpl in Dz. destruct (Nat.eq_dec n (next st)) as [->|Ne].
    * rewrite dget_dset_same in Dz. injection Dz as <-. destruct sub; simpl in T; [rewrite E2 in T|rewrite E1 in T]; discriminate.
    * rewrite dget_dset_other in Dz by auto. apply (i_place _ _ I). exists z. auto.
  + intros t y D. pose proof (i_scope _ _ I t y D) as H. destruct (dget (scopes st) (y_scope y)) as [z|] eqn:E; [|congruence]. rewrite (K _ _ E). discriminate.
  + intros o' n D. destruct (i_space _ _ I _ _ D) as (z & Z & R). exists z. rewrite (K _ _ Z). auto.
  + intros t [H|H]; [assert (t < next st) by (apply (i_fresh _ _ I); auto); lia|]. destruct (Nat.eq_dec t (next st)) as [->|Ne]; [lia|]. rewrite dget_dset_other in H by auto.
    assert (t < next st) by (apply (i_fresh _ _ I); auto). lia.
  + intros n z sub D. destruct (Nat.eq_dec n (next st)) as [->|Ne].
    * rewrite dget_dset_same in D. injection D as <-. destruct sub; simpl; [rewrite E2|rewrite E1]; apply dwf_nil.
    * rewrite dget_dset_other in D by auto. eapply (i_wf _ _ I); eauto.
  + destruct (i_root _ _ I) as (z & Z & R). exists z. rewrite (K _ _ Z). auto.
  + intros t y z D Dz Sb. destruct (Nat.eq_dec (y_scope y) (next st)) as [E|Ne].
    * exfalso. pose proof (i_scope _ _ I t y D) as H. rewrite E in H. assert (next st < next st); [|lia]. apply (i_fresh _ _ I). auto.
    * rewrite dget_dset_other in Dz by auto. eapply (i_sub _ _ I); eauto.
  + apply (i_wfa _ _ I).
  + apply (i_wfs _ _ I).
Qed.
Lemma set_space_inv : forall X st o n c, inv X st -> dget (scopes st) n = Some c -> s_obj c = o -> s_ns c = true -> inv X (mkSt (syms st) (scopes st) (aliases st) (dset (spaces st) o n) (next st)).
Proof.
  intros X st o n c I C O N. split; simpl.
  - apply (i_fit _ _ I).
  - apply (i_set _ _ I).
  - apply (i_known _ _ I).
  - apply (i_place _ _ I).
  - apply (i_scope _ _ I).
  - intros o' m D. destruct (Nat.eq_dec o' o) as [->|Ne]; [rewrite dget_dset_same in D; injection D as <-; eauto|rewrite dget_dset_other in D by auto; apply (i_space _ _ I); auto].
  - apply (i_fresh _ _ I).
  - apply (i_wf _ _ I).
  - apply (i_root _ _ I).
  - apply (i_sub _ _ I).
  - apply (i_wfa _ _ I).
  - apply dwf_dset, (i_wfs _ _ I).
Qed.
Lemma new_sym_inv : forall (st : state) n c sub k anon d o, inv none st -> dget (scopes st) n = Some c -> (sub = true -> s_ns c = true) ->
  inv (eq (next st)) (mkSt (dset (syms st) (next st) (mkY k sub n o None false anon d)) (scopes st) (add (aliases st) o (next st)) (spaces st) (S (next st))).
Proof.
  intros st n c sub k anon d o I C NS. set (s := next st). set (y := mkY k sub n o None false anon d).
  assert (F : dget (syms st) s = None). { destruct (dget (syms st) s) eqn:E; auto. assert (s < next st); [|unfold s in *; lia]. apply (i_fresh _ _ I). left. congruence. }
  assert (K : forall t z, t <> s -> dget (dset (syms st) s y) t = Some z -> dget (syms st) t = Some z) by (intros t z Ne D; rewrite dget_dset_other in D; auto).
  assert (LE : forall o' t, listed (mkSt (dset (syms st) s y) (scopes st) (add (aliases st) o s) (spaces st) (S s)) o' t <-> listed st o' t \/ o' = o /\ t = s) by (intros; rewrite !listed_held; simpl; apply held_add).
  split; simpl.
  - intros t z D N o'. rewrite LE. pose proof (i_fit _ _ I t z (K t z (not_eq_sym N) D) (fun h => h) o') as Q. split; [intros [L|(_ & ->)]; [apply Q; auto|congruence]|intros ->; left; apply Q; auto].
  - intros t z D N. apply (i_set _ _ I t z (K t z (not_eq_sym N) D)). auto.
  - intros o' t Lt. apply LE in Lt. destruct (Nat.eq_dec t s) as [->|Ne]; [rewrite dget_dset_same; discriminate|]. rewrite dget_dset_other by auto. destruct Lt as [Lt|(_ & Lt)]; [|contradiction]. eapply (i_known _ _ I); eauto.
  - intros m sb k' t B. destruct (i_place _ _ I m sb k' t B) as (z & Z & P). exists z. split; auto. simpl. rewrite dget_dset_other; auto. congruence.
  - intros t z D. destruct (Nat.eq_dec t s) as [->|Ne]; [rewrite dget_dset_same in D; injection D as <-; simpl; congruence|]. apply (i_scope _ _ I t); auto.
  - apply (i_space _ _ I).
  - intros t [H|H]; [destruct (Nat.eq_dec t s) as [->|Ne]; [lia|]; rewrite dget_dset_other in H by auto|]; assert (t < next st) by (apply (i_fresh _ _ I); auto); fold s in H0; lia.
  - apply (i_wf _ _ I).
  - apply (i_root _ _ I).
  - intros t z x D Cx Sb. destruct (Nat.eq_dec t s) as [->|Ne]; [rewrite dget_dset_same in D; injection D as <-; simpl in *; assert (x = c) by congruence; subst; auto|]. eapply (i_sub _ _ I t); eauto.
  - apply dwf_add, (i_wfa _ _ I).
  - apply (i_wfs _ _ I).
Qed.

(** * What becomes of variables *)
Record hist (gone : list nat) (k : nat) (b : bool) (st : state) : Prop := {
  h_bound : forall j s, bound st 0 false j s -> ~ garbage st s;
  h_dead : forall u y, dget (syms st) u = Some y -> y_scope y = 0 -> y_tomb y = true -> In (y_name y) gone;
  h_live : forall u y, dget (syms st) u = Some y -> y_scope y = 0 -> y_tomb y = false -> bound st 0 false (y_name y) u;
  h_gone : forall j, In j gone -> forall s, ~ bound st 0 false j s;
  h_flag : b = true -> exists s y, bound st 0 false k s /\ dget (syms st) s = Some y /\ y_anon y = false }.
Lemma glob_bound : forall E X st st' j s, inv X st -> glob E st st' -> (bound st' 0 false j s <-> bound st 0 false j s).
Proof.
  intros E X st st' j s I G. destruct (i_root _ _ I) as (c & C & _). destruct (g_tab _ _ _ G c C) as (c' & C' & T). split; intros (x & Cx & D).
  - exists c. split; auto. assert (x = c') by congruence. subst. simpl in *. congruence.
  - exists c'. split; auto. assert (x = c) by congruence. subst. simpl in *. congruence.
Qed.
Lemma hist_self : forall gone k b b' X st st' s y y', inv X st -> hist gone k b st -> glob (eq s) st st' -> dget (syms st) s = Some y -> y_scope y = 0 -> y_tomb y = false ->
  dget (syms st') s = Some y' -> y_scope y' = 0 -> y_name y' = y_name y -> y_tomb y' = false ->
  (b' = true -> y_name y = k /\ y_anon y' = false \/ b = true /\ (y_name y = k -> y_anon y' = y_anon y)) -> hist gone k b' st'.
Proof.
  intros gone k b b' X st st' s y y' I H G Y Sc T Y' Sc' Nm T' F. pose proof (fun j u => glob_bound (eq s) X st st' j u I G) as B.
  assert (P : forall u z, dget (syms st') u = Some z -> y_scope z = 0 -> u <> s -> dget (syms st) u = Some z).
  { intros u z D Z N. destruct (g_sym' _ _ _ G u z D Z) as (z0 & D0 & Z0). pose proof (g_sym _ _ _ G u z0 D0 Z0 (not_eq_sym N)). congruence. }
  pose proof (h_live _ _ _ _ H s y Y Sc T) as Bs. split.
  - intros j u Bu. apply B in Bu. pose proof (h_bound _ _ _ _ H j u Bu) as N. intros (z & D & Tz). destruct (Nat.eq_dec u s) as [->|Ne]; [congruence|].
    destruct (i_place _ _ I _ _ _ _ Bu) as (z0 & D0 & Z0 & _). pose proof (g_sym _ _ _ G u z0 D0 Z0 (not_eq_sym Ne)) as Q. apply N. exists z0. split; auto. congruence.
  - intros u z D Z Tz. destruct (Nat.eq_dec u s) as [->|Ne]; [congruence|]. apply (h_dead _ _ _ _ H u); auto.
  - intros u z D Z Tz. apply B. destruct (Nat.eq_dec u s) as [->|Ne]; [assert (z = y') by congruence; subst; rewrite Nm; auto|]. apply (h_live _ _ _ _ H u); auto.
  - intros j Ij u. rewrite B. apply (h_gone _ _ _ _ H); auto.
  - intros E. destruct (F E) as [(Ek & An)|(Eb & An)].
    + exists s, y'. split; [apply B; rewrite <- Ek; auto|auto].
    + destruct (h_flag _ _ _ _ H Eb) as (u & z & Bu & D & Az). destruct (Nat.eq_dec u s) as [->|Ne].
      * exists s, y'. split; [apply B; auto|]. split; auto. assert (z = y) by congruence. subst z. rewrite An; auto. destruct (i_place _ _ I _ _ _ _ Bu) as (z0 & D0 & _ & _ & Z0). congruence.
      * exists u, z. split; [apply B; auto|]. split; auto. destruct (i_place _ _ I _ _ _ _ Bu) as (z0 & D0 & Z0 & _). assert (z0 = z) by congruence. subst z0. apply (g_sym _ _ _ G); auto.
Qed.
Lemma hist_glob : forall gone k b X st st', inv X st -> glob none st st' -> hist gone k b st -> hist gone k b st'.
Proof.
  intros gone k b X st st' I G H. pose proof (fun j u => glob_bound none X st st' j u I G) as B.
  assert (P : forall u z, dget (syms st') u = Some z -> y_scope z = 0 -> dget (syms st) u = Some z).
  { intros u z D Z. destruct (g_sym' _ _ _ G u z D Z) as (z0 & D0 & Z0). pose proof (g_sym _ _ _ G u z0 D0 Z0 (fun h => h)). congruence. }
  split.
  - intros j u Bu (z & D & Tz). apply B in Bu. destruct (i_place _ _ I _ _ _ _ Bu) as (z0 & D0 & Z0 & _). pose proof (g_sym _ _ _ G u z0 D0 Z0 (fun h => h)) as Q. apply (h_bound _ _ _ _ H j u Bu). exists z0. split; auto. congruence.
  - intros u z D Z Tz. apply (h_dead _ _ _ _ H u); auto.
  - intros u z D Z Tz. apply B. apply (h_live _ _ _ _ H u); auto.
  - intros j Ij u. rewrite B. apply (h_gone _ _ _ _ H); auto.
  - intros Eb. destruct (h_flag _ _ _ _ H Eb) as (u & z & Bu & D & Az). exists u, z. split; [apply B; auto|]. split; auto. destruct (i_place _ _ I _ _ _ _ Bu) as (z0 & D0 & Z0 & _). assert (z0 = z) by congruence. subst z0. apply (g_sym _ _ _ G); auto.
Qed.
(** A step leaves alone what does not belong to the global scope: [glob] with the exception of a symbol of another scope. *)
Lemma glob_other : forall st st' s y, glob (eq s) st st' -> dget (syms st) s = Some y -> y_scope y <> 0 -> glob none st st'.
Proof. intros st st' s y G D N. split; [|apply (g_sym' _ _ _ G)|apply (g_tab _ _ _ G)]. intros u z Du Zu _. apply (g_sym _ _ _ G); auto. intros <-. congruence. Qed.

Lemma store_ok : forall fuel look st n sub k anon d o st', inv none st -> store fuel look false st n sub k anon d o = Ok st' ->
  inv none st' /\ (n <> 0 -> glob none st st') /\
  (n = 0 -> sub = false /\
    ((exists s y y', bound st 0 false k s /\ dget (syms st) s = Some y /\ dget (syms st') s = Some y' /\ y_scope y' = 0 /\ y_name y' = y_name y /\ y_tomb y' = false /\ y_anon y' = anon /\ glob (eq s) st st') \/
     (forall s, ~ bound st 0 false k s) /\ (exists s y', dget (syms st) s = None /\ dget (syms st') s = Some y' /\ y_scope y' = 0 /\ y_name y' = k /\ y_tomb y' = false /\ y_anon y' = anon /\
        (forall u, u <> s -> dget (syms st') u = dget (syms st) u) /\ (forall j t, bound st' 0 false j t <-> j = k /\ t = s \/ j <> k /\ bound st 0 false j t)))).
Proof.
  intros fuel look st n sub k anon d o st' I H. unfold store in H. apply rbind_Ok in H. destruct H as (c & C & H). apply scope_of_Ok in C.
  destruct (sub && negb (s_ns c)) eqn:Sn; [discriminate|]. assert (SN : sub = true -> s_ns c = true) by (intros ->; destruct (s_ns c); [auto|discriminate]).
  assert (Z0 : n = 0 -> sub = false). { intros ->. destruct sub; auto. destruct (not_zero _ _ _ _ I C (SN eq_refl)). auto. }
  destruct (dget (table c sub) k) as [s|] eqn:D.
  - apply rbind_Ok in H. destruct H as (y & Y & H). apply sym_of_Ok in Y. rewrite <- update_split in H.
    assert (B : bound st n sub k s) by (exists c; auto). destruct (i_place _ _ I _ _ _ _ B) as (y0 & Y0 & P1 & P2 & P3). assert (y0 = y) by congruence. subst y0. clear Y0.
    set (y1 := set_anon y anon) in *. assert (I1 : inv none (with_sym st s y1)).
    { refine (inv_with_sym _ st s y y1 I Y _ _ _).
      - intros m sb j Bm. destruct (i_place _ _ I _ _ _ _ Bm) as (z & Z & P). assert (z = y) by congruence. subst z. exact P.
      - exists c. simpl. rewrite P1. split; auto. rewrite P2. auto.
      - intros _. split; [apply (i_fit _ _ I s y Y); auto|apply (i_set _ _ I s y Y); auto]. }
    destruct (update_plain _ _ _ _ _ _ I1 H) as (y2 & Y2 & I2 & G2 & S2). simpl in Y2. rewrite dget_dset_same in Y2. injection Y2 as <-.
    assert (G : glob (eq s) st st') by (eapply glob_trans; [apply glob_with_sym with (y := y) (y' := y1) (s := s); auto|exact G2]).
    split; auto. split; [intros N; eapply glob_other; eauto; congruence|]. intros Zn. split; auto. left. destruct (S2 y1) as (t & Y3 & Tf); [simpl; apply dget_dset_same|]. rewrite Zn, (Z0 Zn) in B. assert (Zy : y_scope y = 0) by congruence.
    exists s, y, (set_tomb (set_cached (set_obj y1 o) (Some o)) t). simpl. repeat apply conj; auto.
  - cbv zeta in H. set (s := next st) in *. set (st1 := mkSt _ _ _ _ _) in *. pose proof (new_sym_inv st n c sub k anon d o I C SN) as I1. fold s in I1. fold st1 in I1.
    apply rbind_Ok in H. destruct H as (st2 & H2 & H).
    assert (F : dget (syms st) s = None). { destruct (dget (syms st) s) eqn:E; auto. assert (s < next st); [|unfold s in *; lia]. apply (i_fresh _ _ I). left. congruence. }
    set (y1 := mkY k sub n o None false anon d) in *. assert (I2 : inv (eq s) st2) by (eapply put_inv; [exact I1| |exact H2]; exists y1; simpl; rewrite dget_dset_same; auto).
    unfold put in H2. apply rmap_Ok in H2. destruct H2 as (c' & C' & E2). apply scope_of_Ok in C'. assert (c' = c) by (simpl in C'; congruence). subst c'. clear C'.
    destruct (finish_ok none st2 s y1 o st') as (I3 & E3); auto.
    { eapply inv_weaken; [|exact I2]. intros t <-. auto. }
    { rewrite <- E2. simpl. apply dget_dset_same. }
    { intros o'. rewrite listed_held, <- E2. simpl. rewrite held_add. split; [intros [Q|Q]; [|tauto]|auto]. exfalso. apply (i_known _ _ I o' s); auto. apply listed_held. auto. }
    split; auto. rewrite E3, <- E2. split.
    + intros Nn. split; simpl.
      * intros u z Du Zu _. rewrite !dget_dset_other; auto; congruence.
      * intros u z Du Zu. destruct (Nat.eq_dec u s) as [->|Ne]; [rewrite dget_dset_same in Du; injection Du as <-; simpl in Zu; contradiction|]. rewrite !dget_dset_other in Du by auto. eauto.
      * intros x Cx. exists x. rewrite dget_dset_other; auto.
    + intros ->. specialize (Z0 eq_refl). subst sub. split; auto. right. split.
      * intros t (x & Cx & Dx). assert (x = c) by congruence. subst. congruence.
      * exists s. eexists. simpl. rewrite dget_dset_same. repeat apply conj; try reflexivity; auto.
        -- intros u Ne. rewrite !dget_dset_other; auto.
        -- intros j t. unfold bound. simpl. split.
           ++ intros (x & Cx & Dx). rewrite dget_dset_same in Cx. injection Cx as <-. simpl in Dx. rewrite dget_dset in Dx. destruct (Nat.eqb_spec j k) as [->|Ne]; [left; split; congruence|right; split; auto; exists c; auto].
           ++ intros Q. eexists. rewrite dget_dset_same. split; [reflexivity|]. simpl. rewrite dget_dset. destruct (Nat.eqb_spec j k) as [->|Ne].
              ** destruct Q as [(_ & ->)|(Q & _)]; [auto|contradiction].
              ** destruct Q as [(Q & _)|(_ & x & Cx & Dx)]; [contradiction|]. assert (x = c) by congruence. subst. auto.
Qed.
Lemma unput_glob : forall E st n sub k st', unput st n sub k = Ok st' -> (n = 0 -> sub = true) -> glob E st st'.
Proof.
  intros E st n sub k st' H Z. unfold unput in H. apply rmap_Ok in H. destruct H as (c & C & <-). apply scope_of_Ok in C. apply glob_with_scope. intros ->. exists c. split; auto. rewrite (Z eq_refl). reflexivity.
Qed.
Lemma put_glob : forall E st n sub k s st', put st n sub k s = Ok st' -> (n = 0 -> sub = true) -> glob E st st'.
Proof.
  intros E st n sub k s st' H Z. unfold put in H. apply rmap_Ok in H. destruct H as (c & C & <-). apply scope_of_Ok in C. apply glob_with_scope. intros ->. exists c. split; auto. rewrite (Z eq_refl). reflexivity.
Qed.
Lemma delete_ok : forall fuel st n k st', inv none st -> delete fuel st n k = Ok st' ->
  inv none st' /\ (n <> 0 -> glob none st st') /\
  (n = 0 -> st' = st /\ (forall s, ~ bound st 0 false k s) \/
     exists s, bound st 0 false k s /\ garbage st' s /\ (forall u y, dget (syms st) u = Some y -> y_scope y = 0 -> u <> s -> dget (syms st') u = Some y) /\
       (forall u y, dget (syms st') u = Some y -> exists y0, dget (syms st) u = Some y0 /\ sim_y y0 y) /\ (forall j t, bound st' 0 false j t <-> j <> k /\ bound st 0 false j t)).
Proof.
  intros fuel st n k st' I H. unfold delete in H. apply rbind_Ok in H. destruct H as (c & C & H). apply scope_of_Ok in C. destruct (dget (s_names c) k) as [s|] eqn:D.
  2:{ injection H as <-. split; auto. split; [intros _; apply glob_refl|]. intros ->. left. split; auto. intros s (x & Cx & Dx). assert (x = c) by congruence. subst. simpl in Dx. congruence. }
  assert (B : bound st n false k s) by (exists c; auto). destruct (i_place _ _ I _ _ _ _ B) as (y & Y & P1 & P2 & P3).
  apply rbind_Ok in H. destruct H as (st1 & H1 & H). apply rbind_Ok in H. destruct H as (st2 & H2 & H3). pose proof (unput_inv _ _ _ _ _ _ I H1) as I1. destruct (refresh_plain _ _ _ I1 H2) as (I2 & Q1 & Q2 & Q3 & _).
  destruct (proj1 (mark_marks fuel) st2 s st' I2 H3) as (M & Gs). pose proof (m_sim _ _ M) as S. pose proof (proj1 (mark_glob fuel none) st2 s st' I2 H3) as G3.
  split; [eapply inv_sim; eauto|]. assert (Y1 : forall u, dget (syms st2) u = dget (syms st) u). { intros u. rewrite Q1. unfold unput in H1. apply rmap_Ok in H1. destruct H1 as (x & _ & <-). reflexivity. }
  split.
  - intros Nn. eapply glob_trans; [eapply unput_glob; [exact H1|tauto]|]. eapply glob_trans; [apply glob_same; [exact Q1|exact Q2]|]. eapply glob_other; [exact G3| |]; [rewrite Y1; exact Y|congruence].
  - intros ->. right. exists s. repeat apply conj; auto.
    + intros u z Du Zu Ne. apply (g_sym _ _ _ G3); auto. rewrite Y1. auto.
    + intros u z Du. destruct (sim_sym' _ _ _ _ S Du) as (z0 & D0 & R). rewrite Y1 in D0. eauto.
    + intros j t. rewrite (glob_bound _ _ _ _ j t I2 G3). unfold unput in H1. apply rmap_Ok in H1. destruct H1 as (x & Cx & E1). apply scope_of_Ok in Cx. assert (x = c) by congruence. subst x. unfold bound. rewrite Q2, <- E1. simpl. split.
      * intros (x & Dx & T). rewrite dget_dset_same in Dx. injection Dx as <-. simpl in T. rewrite dget_dpop in T. destruct (Nat.eqb_spec j k) as [->|Ne]; [discriminate|]. split; auto. exists c. auto.
      * intros (Ne & x & Dx & T). assert (x = c) by congruence. subst x. eexists. rewrite dget_dset_same. split; [reflexivity|]. simpl. rewrite dget_dpop. destruct (Nat.eqb_spec j k); [contradiction|auto].
Qed.
Lemma delete_sub_ok : forall st n k st', inv none st -> delete_sub st n k = Ok st' -> inv none st' /\ glob none st st'.
Proof.
  intros st n k st' I H. unfold delete_sub in H. apply rbind_Ok in H. destruct H as (c & C & H). destruct (dget (s_subs c) k) as [s|]; [|injection H as <-; split; auto; apply glob_refl].
  apply rbind_Ok in H. destruct H as (st1 & H1 & H2). pose proof (unput_inv _ _ _ _ _ _ I H1) as I1. destruct (refresh_plain _ _ _ I1 H2) as (I2 & Q1 & Q2 & _). split; auto.
  eapply glob_trans; [eapply unput_glob; [exact H1|auto]|apply glob_same; auto].
Qed.
Lemma rename_ok : forall st n a b st', inv none st -> rename st n a b = Ok st' -> inv none st' /\ glob none st st'.
Proof.
  intros st n a b st' I H. unfold rename in H. apply rbind_Ok in H. destruct H as (c & C & H). apply scope_of_Ok in C. destruct (dget (s_subs c) a) as [s|] eqn:D; [|injection H as <-; split; auto; apply glob_refl].
  assert (B : bound st n true a s) by (exists c; auto). destruct (i_place _ _ I _ _ _ _ B) as (y & Y & P1 & P2 & P3).
  assert (NS : s_ns c = true) by (eapply (i_sub _ _ I s y); eauto; congruence). pose proof (not_zero _ _ _ _ I C NS) as N0.
  apply rbind_Ok in H. destruct H as (st1 & H1 & H). apply rbind_Ok in H. destruct H as (y1 & Y1 & H). apply sym_of_Ok in Y1. apply rbind_Ok in H. destruct H as (st2 & H2 & H3).
  pose proof (unput_inv _ _ _ _ _ _ I H1) as I1. pose proof (unput_glob none _ _ _ _ _ H1 (fun _ => eq_refl)) as G1. assert (E1 := H1). unfold unput in E1. apply rmap_Ok in E1. destruct E1 as (x & Cx & E1). apply scope_of_Ok in Cx.
  assert (x = c) by congruence. subst x. clear Cx. assert (y1 = y) by (rewrite <- E1 in Y1; simpl in Y1; congruence). subst y1.
  set (y2 := set_cached (set_place y (y_scope y) b) None) in *.
  assert (NB : forall m sub k, ~ bound st1 m sub k s).
  { intros m sub k Bm. destruct (i_place _ _ I1 _ _ _ _ Bm) as (z & Z & Zs & Zb & Zn). assert (z = y) by congruence. subst z. destruct Bm as (w & Cw & Dw). rewrite <- E1 in Cw. simpl in Cw. rewrite <- Zs, P1, dget_dset_same in Cw. injection Cw as <-.
    rewrite <- Zb, P2, <- Zn, P3 in Dw. simpl in Dw. rewrite dget_dpop, Nat.eqb_refl in Dw. discriminate. }
  assert (C1 : exists c1, dget (scopes st1) n = Some c1 /\ s_ns c1 = true) by (rewrite <- E1; simpl; eexists; rewrite dget_dset_same; split; [reflexivity|]; simpl; auto). destruct C1 as (c1 & C1 & NS1).
  assert (I2 : inv (fun x => none x \/ x = s) (with_sym st1 s y2)).
  { refine (inv_with_sym _ st1 s y y2 _ Y1 _ _ _).
    - eapply inv_weaken; [|exact I1]. auto.
    - intros m sub k Bm. destruct (NB m sub k Bm).
    - exists c1. simpl. rewrite P1. auto.
    - intros N. exfalso. apply N. right. auto. }
  destruct (finish_ok none (with_sym st1 s y2) s y2 (y_obj y) st2) as (I3 & E3); auto.
  { simpl. apply dget_dset_same. }
  { intros o'. apply (i_fit _ _ I1 s y Y1). auto. }
  assert (G2 : glob none st1 st2).
  { rewrite E3. eapply glob_trans; [apply glob_with_sym with (y := y) (y' := y2) (s := s); auto; intros Z; exfalso; apply N0; congruence|]. apply glob_with_sym with (y := y2); auto; [simpl; apply dget_dset_same|simpl; intros Z; congruence]. }
  split.
  - eapply put_inv; [exact I3| |exact H3]. rewrite E3. eexists. simpl. rewrite dget_dset_same. split; [reflexivity|]. simpl. auto.
  - eapply glob_trans; [exact G1|]. eapply glob_trans; [exact G2|]. eapply put_glob; eauto.
Qed.
Lemma self_scope : forall st st' s o y, self st st' s o -> dget (syms st) s = Some y -> exists y', dget (syms st') s = Some y' /\ y_scope y' = y_scope y /\ y_name y' = y_name y /\ y_sub y' = y_sub y /\ y_anon y' = y_anon y /\ (y_scope y = 0 -> y_tomb y' = false).
Proof. intros st st' s o y S Y. destruct (S y Y) as (b & Y' & T). eexists. split; [exact Y'|]. simpl. repeat apply conj; auto. Qed.
Lemma resync_loop : forall fuel look last o l st st', inv none st -> rfold (fun st t =>
          rbind (sym_of st t) (fun yt =>
          rbind (scope_of st (y_scope yt)) (fun c =>
            match (if s_ns c && y_sub yt then last t else None) with
            | None => Ok st
            | Some k =>
              rbind (unput st (y_scope yt) true (y_name yt)) (fun st =>
              rbind (update_obj_ref fuel look true (with_sym st t (set_place yt (y_scope yt) k)) t o) (fun st => put st (y_scope yt) true k t))
            end))) l st = Ok st' -> inv none st' /\ glob none st st'.
Proof.
  intros fuel look last o. induction l as [|t l IH]; intros st st' I H; cbn [rfold] in H; [injection H as <-; split; auto; apply glob_refl|].
  apply rbind_Ok in H. destruct H as (st3 & H1 & H2). assert (A : inv none st3 /\ glob none st st3).
  { clear H2 IH. apply rbind_Ok in H1. destruct H1 as (y & Y & H). apply sym_of_Ok in Y. apply rbind_Ok in H. destruct H as (c & C & H). apply scope_of_Ok in C.
    destruct (s_ns c && y_sub y) eqn:Q; [|injection H as <-; split; auto; apply glob_refl]. apply andb_true_iff in Q. destruct Q as (NS & Sb). destruct (last t) as [k|]; [|injection H as <-; split; auto; apply glob_refl].
    apply rbind_Ok in H. destruct H as (st1 & H1 & H). apply rbind_Ok in H. destruct H as (st2 & H2 & H3). pose proof (not_zero _ _ _ _ I C NS) as N0.
    pose proof (unput_inv _ _ _ _ _ _ I H1) as I1. pose proof (unput_glob none _ _ _ _ _ H1 (fun _ => eq_refl)) as G1. unfold unput in H1. apply rmap_Ok in H1. destruct H1 as (x & Cx & E1). apply scope_of_Ok in Cx. assert (x = c) by congruence. subst x. clear Cx.
    assert (Y1 : dget (syms st1) t = Some y) by (rewrite <- E1; exact Y). set (y2 := set_place y (y_scope y) k) in *.
    assert (C1 : exists c1, dget (scopes st1) (y_scope y) = Some c1 /\ s_ns c1 = true) by (rewrite <- E1; simpl; eexists; rewrite dget_dset_same; split; [reflexivity|]; simpl; auto). destruct C1 as (c1 & C1 & NS1).
    assert (I2 : inv none (with_sym st1 t y2)).
    { refine (inv_with_sym _ st1 t y y2 I1 Y1 _ _ _).
      - intros m sub j Bm. exfalso. destruct (i_place _ _ I1 _ _ _ _ Bm) as (z & Z & Zs & Zb & Zn). assert (z = y) by congruence. subst z. destruct Bm as (w & Cw & Dw). rewrite <- E1 in Cw. simpl in Cw. rewrite <- Zs, dget_dset_same in Cw. injection Cw as <-.
        rewrite <- Zb, Sb, <- Zn in Dw. simpl in Dw. rewrite dget_dpop, Nat.eqb_refl in Dw. discriminate.
      - exists c1. simpl. auto.
      - intros _. split; [apply (i_fit _ _ I1 t y Y1); auto|apply (i_set _ _ I1 t y Y1); auto]. }
    destruct (update_plain _ _ _ _ _ _ I2 H2) as (z & Z & I3 & G3 & S3). simpl in Z. rewrite dget_dset_same in Z. injection Z as <-. destruct (self_scope _ _ _ _ y2 S3) as (y3 & Y3 & W1 & W2 & W3 & _); [simpl; apply dget_dset_same|].
    split.
    - eapply put_inv; [exact I3| |exact H3]. exists y3. split; auto. rewrite W1, W2, W3. simpl. auto.
    - eapply glob_trans; [exact G1|]. eapply glob_trans; [apply glob_with_sym with (y := y) (y' := y2) (s := t); auto; intros Q; contradiction|]. eapply glob_trans; [|eapply put_glob; eauto].
      eapply glob_other; [exact G3|simpl; apply dget_dset_same|simpl; auto]. }
  destruct A as (I3 & G3). destruct (IH st3 st' I3 H2) as (I4 & G4). split; auto. eapply glob_trans; eauto.
Qed.
Lemma resync_ok : forall fuel look last st s o st', inv none st -> resync fuel look last st s o = Ok st' -> inv none st' /\
  exists y, dget (syms st) s = Some y /\ (glob none st st' \/ y_scope y = 0 /\ glob (eq s) st st' /\
    exists y', dget (syms st') s = Some y' /\ y_scope y' = 0 /\ y_name y' = y_name y /\ y_anon y' = y_anon y /\ y_tomb y' = false).
Proof.
  intros fuel look last st s o st' I H. unfold resync in H. apply rbind_Ok in H. destruct H as (y & Y & H). apply sym_of_Ok in Y. destruct (Nat.eqb_spec (y_scope y) 0) as [Z|Z]; cbn [negb] in H.
  2:{ injection H as <-. split; auto. exists y. split; auto. left. apply glob_refl. }
  destruct (y_obj y =? o). { destruct (refresh_plain _ _ _ I H) as (I' & Q1 & Q2 & _). split; auto. exists y. split; auto. left. apply glob_same; auto. }
  cbv zeta in H. apply rbind_Ok in H. destruct H as (st1 & H1 & H). apply resync_loop in H1; auto. destruct H1 as (I1 & G1). apply rbind_Ok in H. destruct H as (y1 & Y1 & H). apply sym_of_Ok in Y1.
  pose proof (g_sym _ _ _ G1 s y Y Z (fun h => h)) as Y1'. assert (y1 = y) by congruence. subst y1. clear Y1'. pose proof (i_set _ _ I1 s y Y1 (fun h => h)) as CA. rewrite CA in H. set (a := add (discard (discard (aliases st1) (y_obj y) s) (y_obj y) s) o s) in *.
  assert (HA : forall o' t, held_in a o' t <-> listed st1 o' t /\ ~ (o' = y_obj y /\ t = s) \/ o' = o /\ t = s) by (intros o' t; unfold a; rewrite held_add, !held_discard, listed_held; tauto).
  assert (I2 : inv (eq s) (with_aliases st1 a)).
  { apply inv_with_aliases; [apply inv_none_eq; auto|apply dwf_add, dwf_discard, dwf_discard, (i_wfa _ _ I1)| |].
    - intros o' t N. rewrite HA. intuition congruence.
    - intros o' t Q. apply HA in Q. destruct Q as [(Q & _)|(_ & ->)]; [eapply (i_known _ _ I1); eauto|congruence]. }
  assert (LS : forall o', listed (with_aliases st1 a) o' s <-> o' = o).
  { intros o'. rewrite listed_held. simpl. rewrite HA. split; [intros [(Q & N)|(Q & _)]; auto; exfalso; apply N; split; auto; apply (i_fit _ _ I1 s y Y1); auto|auto]. }
  destruct (update_top fuel look (with_aliases st1 a) s o st' y I2 Y1) as (I3 & G3 & S3 & _); auto.
  { exists y, (y_obj y). repeat apply conj; auto; [intros o' Q; apply LS in Q; auto|intros _; apply LS; auto]. }
  split; auto. exists y. split; auto. right. split; auto. split.
  - eapply glob_trans; [eapply glob_weaken; [|exact G1]; intros ? []|]. eapply glob_trans; [apply (glob_with_aliases (eq s) st1 a)|exact G3].
  - destruct (self_scope _ _ _ _ y S3 Y1) as (y' & Y' & W1 & W2 & W3 & W4 & W5). exists y'. repeat apply conj; auto; congruence.
Qed.
Lemma mutate_ok : forall st s dup y l, inv none st -> (forall o t, holds st s o -> In t dup -> holds st t o) -> dget (syms st) s = Some y -> dget (aliases st) (y_obj y) = Some l ->
  inv none (with_aliases st (dset (aliases st) (y_obj y) (supd l dup))).
Proof.
  intros st s dup y l I Cm Y D. set (a := dset (aliases st) (y_obj y) (supd l dup)).
  assert (HA : forall o t, held_in a o t <-> listed st o t).
  { intros o t. unfold held_in, held, a. destruct (Nat.eq_dec o (y_obj y)) as [->|N].
    - rewrite dget_dset_same, In_supd. split; [|intros (l' & D' & It); left; congruence]. intros [It|It]; [exists l; auto|]. eapply holds_listed; eauto. apply Cm; auto. exists y. auto.
    - rewrite dget_dset_other by auto. rewrite listed_held. reflexivity. }
  apply inv_with_aliases; auto; [apply dwf_dset, (i_wfa _ _ I)|]. intros o t Q. apply HA in Q. eapply (i_known _ _ I); eauto.
Qed.
Lemma forget_ok : forall st o, inv none st -> inv none (mkSt (syms st) (scopes st) (aliases st) (dpop (spaces st) o) (next st)).
Proof. intros st o I. apply inv_spaces with (st := st); auto; simpl; [apply dwf_dpop, (i_wfs _ _ I)|]. intros o' n D. rewrite dget_dpop in D. destruct (o' =? o); [discriminate|auto]. Qed.
Lemma respace_inv : forall st n c o, inv none st -> dget (scopes st) n = Some c -> s_ns c = true ->
  inv none (mkSt (syms st) (dset (scopes st) n (mkS (s_names c) (s_subs c) true o false (s_anon c) (s_array c) (s_path c))) (aliases st) (dset (dpop (spaces st) (s_obj c)) o n) (next st)).
Proof.
  intros st n c o I C NS. set (c' := mkS (s_names c) (s_subs c) true o false (s_anon c) (s_array c) (s_path c)). pose proof (not_zero _ _ _ _ I C NS) as N0.
  assert (K' : forall m x, dget (scopes st) m = Some x -> exists x0, dget (dset (scopes st) n c') m = Some x0 /\ s_ns x0 = s_ns x /\ (m <> n -> x0 = x) /\ forall sub, table x0 sub = table x sub).
  { intros m x D. destruct (Nat.eq_dec m n) as [->|Ne]; [rewrite dget_dset_same; exists c'; split; auto; assert (x = c) by congruence; subst; split; auto; split; [congruence|intros [|]; reflexivity]|rewrite dget_dset_other by auto; eauto]. }
  assert (K : forall m x, dget (dset (scopes st) n c') m = Some x -> exists x0, dget (scopes st) m = Some x0 /\ s_ns x = s_ns x0 /\ forall sub, table x sub = table x0 sub).
  { intros m x D. destruct (Nat.eq_dec m n) as [->|Ne]; [rewrite dget_dset_same in D; injection D as <-; exists c; split; auto; split; auto; intros [|]; reflexivity|rewrite dget_dset_other in D by auto; eauto]. }
  split; simpl.
  - apply (i_fit _ _ I).
  - apply (i_set _ _ I).
  - apply (i_known _ _ I).
  - intros m sub k t (x & Dx & T). simpl in Dx. destruct (K _ _ Dx) as (x0 & D0 & _ & Tb). apply (i_place _ _ I). exists x0. rewrite <- Tb. auto.
  - intros t y D. pose proof (i_scope _ _ I t y D) as H. destruct (dget (scopes st) (y_scope y)) as [x|] eqn:E; [|congruence]. destruct (K' _ _ E) as (x0 & -> & _). discriminate.
  - intros o' m D. destruct (Nat.eq_dec o' o) as [->|Ne].
    + rewrite dget_dset_same in D. injection D as <-. exists c'. rewrite dget_dset_same. auto.
    + rewrite dget_dset_other in D by auto. rewrite dget_dpop in D. destruct (Nat.eqb_spec o' (s_obj c)) as [->|Nc]; [discriminate|]. destruct (i_space _ _ I _ _ D) as (x & X & Ox & Nx). destruct (K' _ _ X) as (x0 & D0 & N1 & N2 & _).
      assert (m <> n) by (intros ->; apply Nc; congruence). exists x0. rewrite (N2 H) in *. auto.
  - intros t [H|H]; apply (i_fresh _ _ I); [left; auto|]. right. destruct (dget (dset (scopes st) n c') t) as [x|] eqn:E; [|congruence]. destruct (K _ _ E) as (x0 & -> & _). discriminate.
  - intros m x sub D. destruct (K _ _ D) as (x0 & D0 & _ & Tb). rewrite Tb. eapply (i_wf _ _ I); eauto.
  - destruct (i_root _ _ I) as (x & Cx & N). destruct (K' _ _ Cx) as (x0 & -> & R1 & _). exists x0. split; congruence.
  - intros t y x D Cx Sb. destruct (K _ _ Cx) as (x0 & C0 & -> & _). eapply (i_sub _ _ I); eauto.
  - apply (i_wfa _ _ I).
  - apply dwf_dset, dwf_dpop, (i_wfs _ _ I).
Qed.
Lemma step_inv : forall fuel st e st', inv none st -> completes st e -> step fuel st e = Ok st' -> inv none st'.
Proof.
  intros fuel st e st' I Cm H. destruct e as [n sub k anon d o look|n sub k anon d o look|s o look|s o look last|n k|n k|n a b|o anon array p|p|n o|o|n p|s dup|prev]; cbn [step] in H.
  - apply (store_ok _ _ _ _ _ _ _ _ _ _ I H).
  - destruct Cm.
  - destruct (update_plain _ _ _ _ _ _ I H) as (y & _ & I' & _). auto.
  - apply (resync_ok _ _ _ _ _ _ _ I H).
  - apply (delete_ok _ _ _ _ _ I H).
  - apply (delete_sub_ok _ _ _ _ I H).
  - apply (rename_ok _ _ _ _ _ I H).
  - injection H as <-. pose proof (new_scope_inv none st (mkS [] [] true o false anon array p) I eq_refl eq_refl) as I1. eapply (set_space_inv _ _ o (next st)) in I1; [exact I1|simpl; apply dget_dset_same|reflexivity|reflexivity].
  - injection H as <-. apply new_scope_inv; auto.
  - apply rbind_Ok in H. destruct H as (c & C & H). apply scope_of_Ok in C. destruct (s_ns c) eqn:NS; [|discriminate]. injection H as <-. apply respace_inv; auto.
  - injection H as <-. apply forget_ok; auto.
  - apply rmap_Ok in H. destruct H as (c & C & <-). apply scope_of_Ok in C. eapply inv_with_scope; eauto.
    + intros sub. change (dwf (table c sub)). eapply (i_wf _ _ I); eauto.
    + intros sub k t D. apply (i_place _ _ I). exists c. auto.
  - apply rbind_Ok in H. destruct H as (y & Y & H). apply sym_of_Ok in Y. apply rbind_Ok in H. destruct H as (l & D & H). injection H as <-. apply of_option_Ok in D. eapply mutate_ok; eauto.
  - destruct (gc_final _ _ _ _ I H) as (st1 & _ & _ & I' & _). auto.
Qed.
Definition upd_gone (e : op) (gone : list nat) : list nat := match e with Delete 0 k => k :: gone | Gc _ => [] | _ => gone end.
Definition upd_flag (k : nat) (e : op) (b : bool) : bool :=
  match e with Store 0 false k' anon _ _ _ => if k' =? k then negb anon else b | Delete 0 k' => if k' =? k then false else b | _ => b end.
Definition ret_ok (e : op) (gone : list nat) : Prop := match e with Store 0 false k _ _ _ _ => ~ In k gone | _ => True end.
Lemma last_store_cons : forall k e l b, last_store k (e :: l) b = last_store k l (upd_flag k e b).
Proof. intros k [[|n] [|] k' anon d o look|n sub k' anon d o look|s o look|s o look last|[|n] k'|n k'|n a b'|o anon array p|p|n o|o|n p|s dup|prev] l b; reflexivity. Qed.
Lemma no_return_cons : forall e l gone, no_return (e :: l) gone -> ret_ok e gone /\ no_return l (upd_gone e gone).
Proof. intros [[|n] [|] k' anon d o look|n sub k' anon d o look|s o look|s o look last|[|n] k'|n k'|n a b'|o anon array p|p|n o|o|n p|s dup|prev] l gone; simpl; auto. Qed.
Lemma gc_hist : forall fuel prev gone k b st st', inv none st -> hist gone k b st -> gc fuel prev st = Ok st' -> hist [] k b st'.
Proof.
  intros fuel prev gone k b st st' I H E. destruct (gc_final _ _ _ _ I E) as (st1 & E1 & I1 & I' & Ks & Kb & _ & Ng & _). destruct (gc_mark_ok _ _ _ _ I E1) as (M & _ & _ & Z).
  assert (stay : forall u j, bound st 0 false j u -> ~ garbage st1 u -> bound st' 0 false j u).
  { intros u j B N. apply Kb. split; auto. intros s G (y & Y & P1 & P2 & P3). destruct (y_tomb y) eqn:T.
    - apply (h_gone _ _ _ _ H j) with (s := u); auto. rewrite <- P3. eapply h_dead; eauto.
    - pose proof (h_live _ _ _ _ H s y Y P1 T) as Bs. rewrite P3 in Bs. destruct B as (c & C & D). destruct Bs as (c' & C' & D'). assert (c' = c) by congruence. subst. apply N. replace u with s by congruence. auto. }
  split.
  - intros j s _. apply Ng.
  - intros u y Y _ T. exfalso. apply (Ng u). exists y. auto.
  - intros u y Y Zs T. apply Ks in Y. destruct Y as (Y & N). apply stay; auto. eapply h_live; eauto.
  - intros j [].
  - intros Eb. destruct (h_flag _ _ _ _ H Eb) as (s & y & B & Y & An). assert (N : ~ garbage st1 s).
    { destruct (i_place _ _ I _ _ _ _ B) as (z & Zy & Zs & _). assert (z = y) by congruence. subst z. destruct (Z s y Y Zs) as (y' & Y' & [->|A]); [|congruence]. intros (w & W & T). apply (h_bound _ _ _ _ H k s B). exists y. split; auto. congruence. }
    exists s, y. split; [apply stay; auto|]. split; auto. apply Ks. auto.
Qed.
Lemma step_hist : forall fuel gone k b st e st', inv none st -> completes st e -> reads_live st e -> ret_ok e gone -> hist gone k b st -> step fuel st e = Ok st' -> hist (upd_gone e gone) k (upd_flag k e b) st'.
Proof.
  intros fuel gone k b st e st' I Cm Rl Ro Hi H. destruct e as [n sub j anon d o look|n sub j anon d o look|s o look|s o look last|n j|n j|n a b'|o anon array p|p|n o|o|n p|s dup|prev]; cbn [step] in H.
  - destruct (store_ok _ _ _ _ _ _ _ _ _ _ I H) as (_ & A & B). destruct (Nat.eq_dec n 0) as [->|Nn]; [|destruct n; [congruence|]; apply (fun g => hist_glob gone k b none st st' I g Hi); apply A; discriminate].
    destruct (B eq_refl) as (-> & [(s & y & y' & Bs & Y & Y' & P1 & P2 & P3 & P4 & G)|(Nb & s & y' & F & Y' & P1 & P2 & P3 & P4 & Rs & Bd)]).
    + destruct (i_place _ _ I _ _ _ _ Bs) as (z & Z & Zs & _ & Zn). assert (z = y) by congruence. subst z. assert (T : y_tomb y = false) by (destruct (y_tomb y) eqn:T; auto; exfalso; apply (h_bound _ _ _ _ Hi j s Bs); exists y; auto).
      eapply hist_self; eauto. cbn [upd_flag]. rewrite Zn. destruct (Nat.eqb_spec j k) as [->|N]; [intros E; left; split; auto; rewrite P4; destruct anon; auto; discriminate|intros ->; right; split; auto; congruence].
    + simpl in Ro. split.
      * intros i t Bt (z & Z & Tz). apply Bd in Bt. destruct Bt as [(-> & ->)|(Ni & Bt)]; [congruence|]. destruct (i_place _ _ I _ _ _ _ Bt) as (z0 & Z0 & _). assert (t <> s) by congruence. rewrite Rs in Z by auto. apply (h_bound _ _ _ _ Hi i t Bt). exists z. auto.
      * intros u z Z Zs Tz. destruct (Nat.eq_dec u s) as [->|Ne]; [congruence|]. rewrite Rs in Z by auto. eapply h_dead; eauto.
      * intros u z Z Zs Tz. apply Bd. destruct (Nat.eq_dec u s) as [->|Ne]; [left; split; auto; congruence|]. rewrite Rs in Z by auto. right. pose proof (h_live _ _ _ _ Hi u z Z Zs Tz) as Q. split; auto. intros E. apply (Nb u). congruence.
      * intros i Ii t Bt. apply Bd in Bt. destruct Bt as [(-> & ->)|(Ni & Bt)]; [contradiction|]. eapply h_gone; eauto.
      * cbn [upd_flag]. destruct (Nat.eqb_spec j k) as [->|N].
        -- intros E. exists s, y'. split; [apply Bd; auto|]. split; auto. rewrite P4. destruct anon; auto; discriminate.
        -- intros Eb. destruct (h_flag _ _ _ _ Hi Eb) as (t & z & Bt & Z & An). exists t, z. split; [apply Bd; auto|]. split; auto. rewrite Rs; auto. congruence.
  - destruct Cm.
  - destruct (update_plain _ _ _ _ _ _ I H) as (y & Y & I' & G & S). destruct (self_scope _ _ _ _ y S Y) as (y' & Y' & W1 & W2 & W3 & W4 & W5). simpl in Rl. destruct (Nat.eq_dec (y_scope y) 0) as [Z|Z].
    + assert (T : y_tomb y = false) by (destruct (y_tomb y) eqn:T; auto; exfalso; apply Rl; exists y; auto). apply (hist_self gone k b b none st st' s y y'); auto; congruence.
    + apply (fun g => hist_glob gone k b none st st' I g Hi). eapply glob_other; eauto.
  - destruct (resync_ok _ _ _ _ _ _ _ I H) as (I' & y & Y & [G|(Z & G & y' & Y' & W1 & W2 & W3 & W4)]); [apply (fun g => hist_glob gone k b none st st' I g Hi); auto|]. simpl in Rl.
    assert (T : y_tomb y = false) by (destruct (y_tomb y) eqn:T; auto; exfalso; apply Rl; exists y; auto). apply (hist_self gone k b b none st st' s y y'); auto.
  - destruct (delete_ok _ _ _ _ _ I H) as (I' & A & B). destruct (Nat.eq_dec n 0) as [->|Nn]; [|destruct n; [congruence|]; apply (fun g => hist_glob gone k b none st st' I g Hi); apply A; discriminate]. cbn [upd_gone upd_flag].
    destruct (B eq_refl) as [(-> & Nb)|(s & Bs & Gs & Keep & Back & Bd)].
    + split.
      * apply (h_bound _ _ _ _ Hi).
      * intros u y Y Z T. right. eapply h_dead; eauto.
      * apply (h_live _ _ _ _ Hi).
      * intros i [<-|Ii]; auto. apply (h_gone _ _ _ _ Hi); auto.
      * destruct (Nat.eqb_spec j k); [discriminate|apply (h_flag _ _ _ _ Hi)].
    + destruct (i_place _ _ I _ _ _ _ Bs) as (y & Y & Zs & _ & Zn).
      assert (P : forall i t, bound st 0 false i t -> i <> j -> t <> s). { intros i t Bt Ni ->. destruct (i_place _ _ I _ _ _ _ Bt) as (z & Z & _ & _ & Q). congruence. }
      assert (Bk : forall u z, dget (syms st') u = Some z -> y_scope z = 0 -> u <> s -> dget (syms st) u = Some z).
      { intros u z Z Zu Ne. destruct (Back u z Z) as (z0 & Z0 & R). apply sim_y_fields in R. destruct R as (_ & _ & R & _). rewrite (Keep u z0) in Z; auto; congruence. }
      assert (Ss : forall z, dget (syms st') s = Some z -> y_name z = j). { intros z Z. destruct (Back s z Z) as (z0 & Z0 & R). apply sim_y_fields in R. destruct R as (R & _). congruence. }
      split.
      * intros i t Bt (z & Z & T). apply Bd in Bt. destruct Bt as (Ni & Bt). pose proof (P i t Bt Ni) as Nt. destruct (i_place _ _ I _ _ _ _ Bt) as (z0 & Z0 & Q & _). apply (h_bound _ _ _ _ Hi i t Bt). exists z0. split; auto. rewrite (Keep t z0) in Z by auto. congruence.
      * intros u z Z Zu T. destruct (Nat.eq_dec u s) as [->|Ne]; [left; symmetry; auto|]. right. eapply h_dead; eauto.
      * intros u z Z Zu T. destruct (Nat.eq_dec u s) as [->|Ne]; [destruct Gs as (w & W & Tw); congruence|]. pose proof (h_live _ _ _ _ Hi u z (Bk u z Z Zu Ne) Zu T) as Q. apply Bd. split; auto. intros E. rewrite E in Q.
        destruct Q as (c & C & D). destruct Bs as (c' & C' & D'). assert (c' = c) by congruence. subst. congruence.
      * intros i [<-|Ii] t Bt; apply Bd in Bt; destruct Bt as (Ni & Bt); [congruence|]. eapply h_gone; eauto.
      * destruct (Nat.eqb_spec j k) as [->|N]; [discriminate|]. intros Eb. destruct (h_flag _ _ _ _ Hi Eb) as (t & z & Bt & Z & An). exists t, z. split; [apply Bd; auto|]. split; auto. destruct (i_place _ _ I _ _ _ _ Bt) as (z0 & Z0 & Q & _). apply Keep; auto; [congruence|]. eapply P; eauto.
  - destruct (delete_sub_ok _ _ _ _ I H) as (_ & G). apply (fun g => hist_glob gone k b none st _ I g Hi); auto.
  - destruct (rename_ok _ _ _ _ _ I H) as (_ & G). apply (fun g => hist_glob gone k b none st _ I g Hi); auto.
  - injection H as <-. apply (fun g => hist_glob gone k b none st _ I g Hi); auto. apply glob_trans with (b := with_scope st (next st) (mkS [] [] true o false anon array p)); [|apply glob_same; auto]. apply glob_with_scope. intros E. destruct (i_root _ _ I) as (c & C & _). assert (0 < next st) by (apply (i_fresh _ _ I); right; congruence). lia.
  - injection H as <-. apply (fun g => hist_glob gone k b none st _ I g Hi); auto. apply glob_trans with (b := with_scope st (next st) (mkS [] [] false 0 false false false p)); [|apply glob_same; auto]. apply glob_with_scope. intros E. destruct (i_root _ _ I) as (c & C & _). assert (0 < next st) by (apply (i_fresh _ _ I); right; congruence). lia.
  - apply rbind_Ok in H. destruct H as (c & C & H). apply scope_of_Ok in C. destruct (s_ns c) eqn:NS; [|discriminate]. injection H as <-. apply (fun g => hist_glob gone k b none st _ I g Hi); auto.
    apply glob_trans with (b := with_scope st n (mkS (s_names c) (s_subs c) true o false (s_anon c) (s_array c) (s_path c))); [|apply glob_same; auto]. apply glob_with_scope. intros ->. destruct (not_zero _ _ _ _ I C NS). auto.
  - injection H as <-. apply (fun g => hist_glob gone k b none st _ I g Hi); auto. apply glob_same; auto.
  - apply rmap_Ok in H. destruct H as (c & C & <-). apply scope_of_Ok in C. apply (fun g => hist_glob gone k b none st _ I g Hi); auto. apply glob_with_scope. intros ->. exists c. auto.
  - apply rbind_Ok in H. destruct H as (y & Y & H). apply rbind_Ok in H. destruct H as (l & D & H). injection H as <-. apply (fun g => hist_glob gone k b none st _ I g Hi); auto. apply glob_with_aliases.
  - eapply gc_hist; eauto.
Qed.
Lemma start_inv : inv none start.
Proof.
  split; simpl; try discriminate.
  - intros o t (l & D & _). discriminate.
  - intros n sub k t (c & C & D). simpl in C. destruct n; [injection C as <-|discriminate]. destruct sub; discriminate.
  - intros t [H|H]; [congruence|]. destruct t; [lia|simpl in H; congruence].
  - intros n c sub C. destruct n; [injection C as <-|discriminate]. destruct sub; apply dwf_nil.
  - eauto.
  - apply dwf_nil.
  - apply dwf_nil.
Qed.
Lemma start_hist : forall k, hist [] k false start.
Proof.
  intros k. split; simpl; try discriminate; auto. intros j s (c & C & D). simpl in C. injection C as <-. discriminate.
Qed.
Lemma run_inv : forall fuel l st st', inv none st -> always completes fuel l st -> rfold (step fuel) l st = Ok st' -> inv none st'.
Proof.
  intros fuel. induction l as [|e l IH]; intros st st' I A H; cbn [rfold] in H; [injection H as <-; auto|]. apply rbind_Ok in H. destruct H as (st1 & H1 & H2). destruct A as (A1 & A2). eapply IH; [|apply A2; eauto|exact H2]. eapply step_inv; eauto.
Qed.
Lemma run_hist : forall fuel k l st st' gone b, inv none st -> always completes fuel l st -> always reads_live fuel l st -> no_return l gone -> hist gone k b st -> rfold (step fuel) l st = Ok st' ->
  exists gone', hist gone' k (last_store k l b) st'.
Proof.
  intros fuel k. induction l as [|e l IH]; intros st st' gone b I A R N Hi H; cbn [rfold] in H; [injection H as <-; exists gone; auto|]. apply rbind_Ok in H. destruct H as (st1 & H1 & H2). destruct A as (A1 & A2). destruct R as (R1 & R2).
  apply no_return_cons in N. destruct N as (N1 & N2). rewrite last_store_cons. eapply IH; [|apply A2; eauto|apply R2; eauto|exact N2| |exact H2]; [eapply step_inv; eauto|eapply step_hist; eauto].
Qed.
