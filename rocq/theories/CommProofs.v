(** Proofs about requests of the frontend. *)
Require Import List ZArith Bool Arith Lia Permutation Sorted.
Import ListNotations.
Require Import Verif.Base Verif.Loops Verif.CommModel Verif.CommSpec.

(** ** Dispatch *)
Section Dispatch.
Variable W : Type.
Variable run : nat -> W -> request -> W * outcome.
Variable compile : nat -> option nat.
Notation call := (call W run compile).
Notation handle := (handle W run compile).
Notation responder := (responder W run compile).

Lemma call_sent m h q m1 o : call m h q = (m1, o) ->
  m_sent m1 = m_sent m /\ m_comm m1 = m_comm m /\ m_pending m1 = m_pending m /\ m_debug m1 = m_debug m.
Proof.
  destruct h as [|h]; simpl.
  - unfold register_dynamic, register. destruct (q_msg_type q); [|intros E; injection E as <- <-; auto].
    destruct (q_handler q); [|intros E; injection E as <- <-; auto].
    destruct (compile n0); [|intros E; injection E as <- <-; auto].
    destruct (_ && _)%bool; intros E; injection E as <- <-; auto.
  - destruct (run h (m_world m) q). intros E; injection E as <- <-. auto.
Qed.

Lemma answered m q c t h m1 o : q_type q = Some t -> dget (m_handlers m) t = Some h ->
  call m h q = (m1, o) -> sendable o ->
  exists r, handle m q (Some c) = (with_sent m1 c r, Returned) /\ answers t o r /\ m_sent m1 = m_sent m.
Proof.
  intros Q G C S. destruct (call_sent _ _ _ _ _ C) as (E & _). unfold CommModel.handle. rewrite Q, G, C.
  destruct o; try contradiction; unfold respond, send; simpl.
  - simpl in S. rewrite S. eexists. split; [reflexivity|]. simpl. auto.
  - eexists. split; [reflexivity|]. simpl. auto.
  - eexists. split; [reflexivity|]. simpl. auto.
Qed.

Lemma call_handlers m h q m1 o t : call m h q = (m1, o) ->
  ~ (q_msg_type q = Some t /\ q_overwrite q = true) ->
  forall g, dget (m_handlers m) t = Some g -> dget (m_handlers m1) t = Some g.
Proof.
  destruct h as [|h]; simpl.
  - unfold register_dynamic, register. destruct (q_msg_type q) as [t'|]; [|intros E; injection E as <- <-; auto].
    destruct (q_handler q); [|intros E; injection E as <- <-; auto].
    destruct (compile n); [|intros E; injection E as <- <-; auto].
    destruct (_ && _)%bool eqn:B; intros E N g G; injection E as <- <-; auto.
    simpl. rewrite dget_dset. destruct (Nat.eqb_spec t t'); auto. subst t'. exfalso.
    unfold dhas in B. rewrite G in B. simpl in B. apply N. split; [auto|].
    destruct (q_overwrite q); [auto|discriminate].
  - destruct (run h (m_world m) q). intros E; injection E as <- <-. auto.
Qed.

Lemma respond_handlers m c t r : m_handlers (fst (respond W m c t r)) = m_handlers m.
Proof.
  unfold respond, send. destruct (match c with Some _ => _ | None => _ end); auto.
  simpl. destruct (p_json r); auto.
Qed.
Lemma handle_handlers m q c t g : ~ (q_msg_type q = Some t /\ q_overwrite q = true) ->
  dget (m_handlers m) t = Some g -> dget (m_handlers (fst (handle m q c))) t = Some g.
Proof.
  intros N G. unfold CommModel.handle. destruct (q_type q) as [t'|]; auto.
  destruct (dget (m_handlers m) t') as [h|]; auto. destruct (call m h q) as [m1 o] eqn:C.
  pose proof (call_handlers _ _ _ _ _ _ C N _ G) as X.
  destruct o; rewrite ?respond_handlers; auto. destruct (match c with Some _ => _ | None => _ end); auto.
Qed.

Lemma step_kept m o t g : ~ overwrites o t -> dget (m_handlers m) t = Some g ->
  dget (m_handlers (step W run compile m o)) t = Some g.
Proof.
  intros N G. destruct o; simpl in *; auto.
  - unfold CommModel.responder. destruct (_ && _)%bool; auto. apply handle_handlers; auto.
  - apply handle_handlers; auto.
  - unfold register. destruct (_ && _)%bool eqn:B; auto. simpl. rewrite dget_dset.
    destruct (Nat.eqb_spec t t0); auto. subst t0. exfalso. unfold dhas in B. rewrite G in B. simpl in B.
    apply N. split; [auto|]. destruct overwrite; [auto|discriminate].
Qed.
Lemma steps_kept ops : forall m t g, (forall o, In o ops -> ~ overwrites o t) ->
  dget (m_handlers m) t = Some g -> dget (m_handlers (steps W run compile ops m)) t = Some g.
Proof.
  induction ops as [|o ops IH]; simpl; intros m t g N G; auto.
  apply IH; auto. apply step_kept; auto.
Qed.

Lemma respond_one m c t r : exists l, m_sent (fst (respond W m c t r)) = m_sent m ++ l /\ length l <= 1.
Proof.
  unfold respond, send. destruct (match c with Some _ => _ | None => _ end); simpl.
  - destruct (p_json r); simpl; [eexists; split; [reflexivity|auto]|exists []; rewrite app_nil_r; auto].
  - exists []. rewrite app_nil_r. auto.
Qed.
Lemma handle_one m q c : exists l, m_sent (fst (handle m q c)) = m_sent m ++ l /\ length l <= 1.
Proof.
  assert (Z : exists l, m_sent m = m_sent m ++ l /\ length l <= 1) by (exists []; rewrite app_nil_r; auto).
  unfold CommModel.handle. destruct (q_type q) as [t'|]; auto.
  destruct (dget (m_handlers m) t') as [h|]; auto. destruct (call m h q) as [m1 o] eqn:C.
  destruct (call_sent _ _ _ _ _ C) as (E & _). rewrite <- E in Z.
  destruct o; rewrite <- ?E; auto using respond_one.
  destruct (match c with Some _ => _ | None => _ end); auto.
Qed.
End Dispatch.

(** ** Contents *)
Section Recompute.
Variable W : Type.
Variable parse : nat -> option exn.
Variable check : W -> nat -> ccell -> W * (exn + list nat).
Notation update_cell := (update_cell W parse check).
Notation update_cells := (update_cells W parse check).

Lemma kept_refl c : kept c c.
Proof. repeat split. Qed.

Lemma to_ast_spec c c1 bad : parsed parse c -> to_ast parse c = (c1, bad) ->
  kept c c1 /\ bad = parse (c_content c) /\ parsed parse c1.
Proof.
  intros P. unfold to_ast.
  destruct (match c_ast c with Some x => _ | None => _ end) eqn:E.
  - intros H. injection H as <- <-. split; [apply kept_refl|]. split; auto.
    destruct (c_ast c) as [x|] eqn:A; [|discriminate]. apply Nat.eqb_eq in E. subst x.
    symmetry. apply P. auto.
  - destruct (parse (c_content c)) eqn:Q; intros H; injection H as <- <-.
    + split; [apply kept_refl|]. auto.
    + split; [repeat split|]. split; auto. intros x X. simpl in X. injection X as <-. auto.
Qed.

Definition all_parsed (cells : dict ccell) : Prop := forall i c, dget cells i = Some c -> parsed parse c.

Lemma update_cell_spec cells w i new cells' w' r : all_parsed cells ->
  update_cell cells w (i, new) = (cells', w', inr r) ->
  all_parsed cells' /\ (forall j, j <> i -> dget cells' j = dget cells j) /\
  match dget cells i with
  | None => dget cells' i = None
  | Some c => exists c', dget cells' i = Some c' /\ renewed W parse check i new c c'
  end.
Proof.
  intros P. unfold CommModel.update_cell. destruct (dget cells i) as [c|] eqn:G.
  2:{ intros H. injection H as <- <- <-. auto. }
  destruct (to_ast parse (with_content c new)) as [c1 bad] eqn:A.
  assert (P1 : parsed parse (with_content c new)) by (intros x X; apply (P i c G); exact X).
  destruct (to_ast_spec _ _ _ P1 A) as (K & B & P2).
  destruct K as (K1 & K2 & K3 & K4 & K5 & K6). simpl in *.
  assert (Fin : forall v, parsed parse v -> all_parsed (dset cells i v) /\
            (forall j, j <> i -> dget (dset cells i v) j = dget cells j)).
  { intros v Pv. split.
    - intros j d. rewrite dget_dset. destruct (Nat.eqb_spec j i); [intros X; injection X as <-; auto|].
      intros X. eapply P; exact X.
    - intros j N. apply dget_dset_other. auto. }
  assert (Pp : parsed parse (with_content c1 (c_content c))) by (intros x X; apply P2; exact X).
  assert (Kp : kept c (with_content c1 (c_content c))) by (repeat split; simpl; auto).
  destruct bad as [[|e]|].
  - intros H. injection H as <- <- <-. destruct (Fin _ Pp) as [F1 F2]. split; [auto|]. split; [auto|].
    eexists. split; [apply dget_dset_same|]. left. auto.
  - discriminate.
  - destruct (check w i c1) as [w2 [[|e]|live]] eqn:C.
    + intros H. injection H as <- <- <-. destruct (Fin _ Pp) as [F1 F2]. split; [auto|]. split; [auto|].
      eexists. split; [apply dget_dset_same|]. left. split; auto. right. eauto.
    + discriminate.
    + intros H. injection H as <- <- <-.
      match goal with |- all_parsed (dset _ _ ?v) /\ _ => destruct (Fin v) as [F1 F2] end.
      { intros x X. apply P2. exact X. }
      split; [auto|]. split; [auto|]. eexists. split; [apply dget_dset_same|]. right. split; auto.
      exists w, c1, w2, live. split; [auto|]. split; [auto|]. unfold updated; simpl.
      do 5 (split; [congruence|]). intros x. split; [intros X; split|].
      * rewrite In_sdiff, In_supd in X. destruct X as [X Y].
        rewrite K6, K5 in X. destruct X as [X|X]; auto. right. destruct (c_result c); [eauto|destruct X].
      * rewrite In_sdiff in X. apply X.
      * intros [X Y]. rewrite In_sdiff, In_supd, K6, K5. split; auto. destruct X as [X|(l & -> & X)]; auto.
Qed.

Lemma update_cells_spec l : forall cells w any cells' w' r, all_parsed cells -> NoDup (map fst l) ->
  update_cells cells w l any = (cells', w', inr r) ->
  (forall i, ~ In i (map fst l) -> dget cells' i = dget cells i) /\
  (forall i new c, In (i, new) l -> dget cells i = Some c ->
     exists c', dget cells' i = Some c' /\ renewed W parse check i new c c').
Proof.
  induction l as [|[i new] l IH]; cbn [CommModel.update_cells map In fst]; intros cells w any cells' w' r P N H.
  - injection H as <- <- <-. split; [auto|]. intros i new c [].
  - destruct (CommModel.update_cell W parse check cells w (i, new)) as [[cells1 w1] [e|b]] eqn:U; [discriminate|].
    inversion N as [|? ? N1 N2]; subst.
    destruct (update_cell_spec _ _ _ _ _ _ _ P U) as (P1 & F & X).
    destruct (IH _ _ _ _ _ _ P1 N2 H) as [IH1 IH2]. split.
    + intros j J. rewrite IH1; [apply F; intros ->; apply J; auto|tauto].
    + intros j nw c [E|J] G.
      * injection E as <- <-. rewrite G in X. destruct X as (c' & X & R). exists c'. rewrite IH1; auto.
      * apply IH2; auto. rewrite F; auto. intros ->. apply N1. apply (in_map fst) in J. exact J.
Qed.

(** If nothing but syntax errors is raised, all cells are looked at. *)
Lemma update_cells_total l : (forall x n, parse x <> Some (Other n)) ->
  (forall w i c n, snd (check w i c) <> inl (Other n)) ->
  forall cells w any, exists cells' w' r, update_cells cells w l any = (cells', w', inr r).
Proof.
  intros Hp Hc. induction l as [|[i new] l IH]; intros cells w any; cbn [CommModel.update_cells]; [eauto|].
  assert (U : exists c1 w1 r1, update_cell cells w (i, new) = (c1, w1, inr r1)).
  { unfold CommModel.update_cell. destruct (dget cells i) as [c|]; [|eauto].
    destruct (to_ast parse (with_content c new)) as [c1 bad] eqn:A. destruct bad as [[|n]|]; [eauto| |].
    - exfalso. unfold to_ast in A. destruct (match c_ast _ with Some x => _ | None => _ end); [discriminate|].
      destruct (parse _) eqn:Q; [|discriminate]. injection A as <- ->. apply (Hp _ _ Q).
    - pose proof (Hc w i c1) as X. destruct (check w i c1) as [w2 [[|n]|live]]; eauto.
      exfalso. apply (X n). auto. }
  destruct U as (c1 & w1 & r1 & ->). apply IH.
Qed.
End Recompute.

(** ** Sorting *)
Section Sort.
Variable A : Type.
Variable leb : A -> A -> bool.
Lemma insert_perm x l : Permutation (insert leb x l) (x :: l).
Proof.
  induction l as [|y l IH]; simpl; auto. destruct (leb x y); auto.
  eapply perm_trans; [apply perm_skip; exact IH|]. apply perm_swap.
Qed.
Lemma isort_perm l : Permutation (isort leb l) l.
Proof.
  induction l as [|x l IH]; simpl; auto. eapply perm_trans; [apply insert_perm|]. auto.
Qed.

Variable lt : A -> A -> Prop.
Hypothesis leb_total : forall a b, leb a b = true \/ leb b a = true.
Hypothesis leb_trans : forall a b c, leb a b = true -> leb b c = true -> leb a c = true.
Hypothesis lt_nleb : forall a b, lt a b -> leb b a = false.
Let le a b := leb a b = true.
Lemma insert_sorted x l : StronglySorted le l -> StronglySorted le (insert leb x l).
Proof.
  induction l as [|y l IH]; simpl; intros S; [repeat constructor|].
  inversion S as [|? ? S1 S2]; subst. destruct (leb x y) eqn:E.
  - constructor; auto. constructor; auto. rewrite Forall_forall in *. intros z Z. eapply leb_trans; [exact E|].
    apply S2. auto.
  - constructor; auto. rewrite Forall_forall in *. intros z Z.
    apply (Permutation_in _ (insert_perm x l)) in Z. destruct Z as [<-|Z]; [|apply S2; auto].
    destruct (leb_total x y); auto. congruence.
Qed.
Lemma isort_sorted l : StronglySorted le (isort leb l).
Proof. induction l; simpl; [constructor|]. apply insert_sorted. auto. Qed.

(** Two sorted lists of the same elements, one of them strictly sorted, are the same. *)
Lemma sorted_unique l : forall l', Permutation l l' -> StronglySorted lt l -> StronglySorted le l' -> l = l'.
Proof.
  induction l as [|a l IH]; intros l' P S S'.
  - apply Permutation_nil in P. auto.
  - inversion S as [|? ? S1 S2]; subst. rewrite Forall_forall in S2. destruct l' as [|b l'].
    { apply Permutation_sym, Permutation_nil in P. discriminate. }
    assert (E : a = b).
    { assert (J : In b (a :: l)) by (eapply Permutation_in; [apply Permutation_sym; exact P|left; auto]).
      destruct J as [J|J]; auto. apply S2 in J. apply lt_nleb in J.
      assert (K : In a (b :: l')) by (eapply Permutation_in; [exact P|left; auto]).
      destruct K as [K|K]; auto. inversion S' as [|? ? S1' S2']; subst. rewrite Forall_forall in S2'.
      apply S2' in K. unfold le in K. congruence. }
    subst b. f_equal. apply IH; auto.
    + eapply Permutation_cons_inv; exact P.
    + inversion S'; auto.
Qed.
Lemma isort_unique l l' : Permutation l l' -> StronglySorted lt l -> isort leb l' = l.
Proof.
  intros P S. symmetry. apply sorted_unique; auto.
  - eapply perm_trans; [exact P|]. apply Permutation_sym, isort_perm.
  - apply isort_sorted.
Qed.
End Sort.

Lemma by_index_unique l nb : top_down l nb -> by_index nb = l.
Proof.
  intros [P S]. unfold by_index.
  apply (isort_unique _ _ (fun a b => n_index a < n_index b)); auto.
  - intros a b. rewrite !orb_true_iff, !andb_true_iff, !Nat.ltb_lt, !Nat.eqb_eq, !Nat.leb_le. lia.
  - intros a b c. rewrite !orb_true_iff, !andb_true_iff, !Nat.ltb_lt, !Nat.eqb_eq, !Nat.leb_le. lia.
  - intros a b L. rewrite orb_false_iff, andb_false_iff, Nat.ltb_ge, Nat.eqb_neq. lia.
Qed.
Lemma placeholders_unique l cur : oldest_first l cur -> placeholders cur = l.
Proof.
  intros [P S]. unfold placeholders.
  apply (isort_unique _ _ (fun a b => (pc_ctr (snd a) < pc_ctr (snd b))%Z)); auto.
  - intros a b. rewrite !Z.leb_le. lia.
  - intros a b c. rewrite !Z.leb_le. lia.
  - intros a b L. apply Z.leb_gt. auto.
Qed.

(** ** Matching *)
Lemma take_None x l : take x l = None -> olds l x = [].
Proof.
  induction l as [|p l IH]; simpl; auto. destruct (pc_content (snd p) =? x); [discriminate|].
  destruct (take x l) as [[q l']|]; [discriminate|auto].
Qed.
Lemma take_Some x l p l' : take x l = Some (p, l') ->
  pc_content (snd p) = x /\ olds l x = p :: olds l' x /\ (forall y, y <> x -> olds l' y = olds l y) /\
  Permutation l (p :: l').
Proof.
  revert l'. induction l as [|q l IH]; simpl; intros l' H; [discriminate|].
  destruct (Nat.eqb_spec (pc_content (snd q)) x) as [E|E].
  - injection H as <- <-. split; auto. split; auto. split; auto.
    intros y N. destruct (Nat.eqb_spec (pc_content (snd q)) y); auto. congruence.
  - destruct (take x l) as [[q' l2]|]; [|discriminate]. injection H as -> <-.
    destruct (IH _ eq_refl) as (A & B & C & D). split; auto. split.
    { simpl. destruct (Nat.eqb_spec (pc_content (snd q)) x); [congruence|auto]. }
    split.
    + intros y N. simpl. rewrite C; auto.
    + eapply perm_trans; [apply perm_skip; exact D|]. apply perm_swap.
Qed.

Lemma In_olds l x p : In p (olds l x) <-> In p l /\ pc_content (snd p) = x.
Proof. unfold olds. rewrite filter_In, Nat.eqb_eq. tauto. Qed.
Lemma In_news cur l x n : In n (news cur l x) <-> In n l /\ n_content n = x /\ dget cur (n_id n) = None.
Proof.
  unfold news. rewrite filter_In, andb_true_iff, Nat.eqb_eq, negb_true_iff, dhas_nkey, dget_None. tauto.
Qed.
Lemma news_ext cur cur' l x : (forall n, In n l -> dhas cur' (n_id n) = dhas cur (n_id n)) ->
  news cur' l x = news cur l x.
Proof.
  intros H. unfold news. apply filter_ext_in. intros n J. rewrite H; auto.
Qed.

Definition plain_cell (c : pcell) : pcell := mkPC (pc_ctr c) (pc_content c) false.

Lemma news_cons cur m l x : news cur (m :: l) x =
  if (n_content m =? x) && negb (dhas cur (n_id m)) then m :: news cur l x else news cur l x.
Proof. reflexivity. Qed.
Local Opaque news olds.
Lemma match_loop l : forall cur ph, dwf cur -> NoDup (map n_id l) -> NoDup (map fst ph) ->
  (forall p, In p ph -> dget cur (fst p) = Some (snd p)) ->
  (forall p n, In p ph -> In n l -> fst p <> n_id n) ->
  let cur' := fst (fold_left match_cell l (cur, ph)) in
  (forall i, ~ In i (map n_id l) -> ~ In i (map fst ph) -> dget cur' i = dget cur i) /\
  (forall n c, In n l -> dget cur (n_id n) = Some c -> dget cur' (n_id n) = Some c) /\
  (forall x k n p, nth_error (news cur l x) k = Some n -> nth_error (olds ph x) k = Some p ->
     dget cur' (n_id n) = Some (plain_cell (snd p)) /\ dget cur' (fst p) = None) /\
  (forall x k n, nth_error (news cur l x) k = Some n -> nth_error (olds ph x) k = None ->
     dget cur' (n_id n) = None) /\
  (forall x k p, nth_error (olds ph x) k = Some p -> nth_error (news cur l x) k = None ->
     dget cur' (fst p) = Some (snd p)).
Proof.
  induction l as [|m l IH]; intros cur ph Wf Nl Np Hp Ap; simpl.
  { split; auto. split; [intros n c []|]. split; [intros x [|k] n p; discriminate|].
    split; [intros x [|k] n; discriminate|]. intros x k p J _. apply Hp.
    apply nth_error_In, In_olds in J. apply J. }
  inversion Nl as [|? ? Nm Nl']; subst.
  assert (Ap' : forall p n, In p ph -> In n l -> fst p <> n_id n) by (intros; apply Ap; simpl; auto).
  destruct (dhas cur (n_id m)) eqn:Hm.
  - (* known *)
    destruct (IH cur ph Wf Nl' Np Hp Ap') as (F & K & A & B & C). 
    assert (Nx : forall x, news cur (m :: l) x = news cur l x).
    { intros x. rewrite news_cons, Hm, andb_false_r. auto. }
    split; [intros i I1 I2; apply F; tauto|]. split.
    2:{ split; [intros x k; rewrite Nx; apply A|split; intros x k; rewrite Nx; [apply B|apply C]]. }
    intros n c [<-|J] G; [|eauto]. rewrite F; auto.
    intros X. apply in_map_iff in X. destruct X as (p & E & X). apply (Ap p m); simpl; auto.
  - destruct (take (n_content m) ph) as [[[old c] ph1]|] eqn:T.
    + destruct (take_Some _ _ _ _ T) as (T1 & T2 & T3 & T4). simpl in T1.
      set (cur1 := update_id cur old c (n_id m)).
      assert (Jo : In (old, c) ph) by (eapply Permutation_in; [apply Permutation_sym; exact T4|left; auto]).
      assert (I1 : incl ph1 ph).
      { intros p J. eapply Permutation_in; [apply Permutation_sym; exact T4|right; auto]. }
      assert (Np1 : NoDup (old :: map fst ph1)).
      { eapply Permutation_NoDup; [|exact Np]. apply (Permutation_map fst) in T4. exact T4. }
      inversion Np1 as [|? ? No Np1']; subst.
      assert (Wf1 : dwf cur1) by (apply dwf_dset, dwf_ddel; auto).
      assert (Em : old <> n_id m) by (apply (Ap (old, c) m); simpl; auto).
      assert (G1 : forall i, dget cur1 i = if i =? n_id m then Some (plain_cell c)
                                           else if i =? old then None else dget cur i).
      { intros i. unfold cur1, update_id. rewrite dget_dset.
        destruct (i =? n_id m); auto. rewrite dget_ddel; [reflexivity|auto]. }
      assert (Hp1 : forall p, In p ph1 -> dget cur1 (fst p) = Some (snd p)).
      { intros p J. rewrite G1. destruct (Nat.eqb_spec (fst p) (n_id m)) as [E|E].
        { exfalso. apply (Ap p m); simpl; auto. }
        destruct (Nat.eqb_spec (fst p) old) as [E'|E']; auto.
        exfalso. apply No. rewrite <- E'. apply in_map. auto. }
      assert (Ap1 : forall p n, In p ph1 -> In n l -> fst p <> n_id n) by (intros; apply Ap'; auto).
      destruct (IH cur1 ph1 Wf1 Nl' Np1' Hp1 Ap1) as (F & K & A & B & C).
      set (cur' := fst (fold_left match_cell l (cur1, ph1))) in *.
      assert (Nw : forall x, news cur1 l x = news cur l x).
      { intros x. apply news_ext. intros n J. unfold dhas. rewrite G1.
        destruct (Nat.eqb_spec (n_id n) (n_id m)) as [E|E].
        { exfalso. apply Nm. rewrite <- E. apply in_map. auto. }
        destruct (Nat.eqb_spec (n_id n) old) as [E'|E']; auto.
        exfalso. apply (Ap' (old, c) n); auto. }
      assert (Hm' : ~ In (n_id m) (map fst ph1)).
      { intros X. apply in_map_iff in X. destruct X as (p & E & X). apply (Ap p m); simpl; auto. }
      assert (Hnew : dget cur' (n_id m) = Some (plain_cell c)).
      { rewrite F; auto. rewrite G1, Nat.eqb_refl. auto. }
      assert (Hold : dget cur' old = None).
      { rewrite F; auto.
        - rewrite G1. destruct (Nat.eqb_spec old (n_id m)); [congruence|]. rewrite Nat.eqb_refl. auto.
        - intros X. apply in_map_iff in X. destruct X as (n & E & X). apply (Ap' (old, c) n); auto. }
      assert (Nx : forall x, news cur (m :: l) x = if n_content m =? x then m :: news cur l x else news cur l x).
      { intros x. rewrite news_cons, Hm. destruct (n_content m =? x); auto. }
      assert (Ox : forall x, olds ph x = if n_content m =? x then (old, c) :: olds ph1 x else olds ph1 x).
      { intros x. destruct (Nat.eqb_spec (n_content m) x) as [<-|N]; auto. symmetry. apply T3. auto. }
      change (fst (fold_left match_cell l (update_id cur old c (n_id m), ph1))) with cur'.
      split.
      { intros i I2 I3. rewrite F; try tauto.
        - rewrite G1. destruct (Nat.eqb_spec i (n_id m)); [exfalso; apply I2; left; congruence|].
          destruct (Nat.eqb_spec i old) as [E|E]; auto. exfalso. apply I3. subst i.
          apply (in_map fst) in Jo. exact Jo.
        - intros X. apply I3. apply in_map_iff in X. destruct X as (p & <- & X). apply in_map. auto. }
      split.
      { intros n d [<-|J] G.
        - unfold dhas in Hm. rewrite G in Hm. discriminate.
        - apply K; auto. rewrite G1. destruct (Nat.eqb_spec (n_id n) (n_id m)) as [E|E].
          { exfalso. apply Nm. rewrite <- E. apply in_map. auto. }
          destruct (Nat.eqb_spec (n_id n) old) as [E'|E']; auto. exfalso. apply (Ap' (old, c) n); auto. }
      split; [|split].
      * intros x k n p. rewrite Nx, Ox. destruct (n_content m =? x).
        -- destruct k as [|k]; simpl.
           ++ intros E1 E2. injection E1 as <-. injection E2 as <-. auto.
           ++ rewrite <- Nw. apply A.
        -- rewrite <- Nw. apply A.
      * intros x k n. rewrite Nx, Ox. destruct (n_content m =? x).
        -- destruct k as [|k]; simpl; [discriminate|]. rewrite <- Nw. apply B.
        -- rewrite <- Nw. apply B.
      * intros x k p. rewrite Nx, Ox. destruct (n_content m =? x).
        -- destruct k as [|k]; simpl; [discriminate|]. rewrite <- Nw. apply C.
        -- rewrite <- Nw. apply C.
    + (* nothing to take *)
      apply take_None in T. destruct (IH cur ph Wf Nl' Np Hp Ap') as (F & K & A & B & C).
      assert (Nx : forall x, news cur (m :: l) x = if n_content m =? x then m :: news cur l x else news cur l x).
      { intros x. rewrite news_cons, Hm. destruct (n_content m =? x); auto. }
      assert (Nm' : dget cur (n_id m) = None) by (apply dget_None, dhas_nkey; auto).
      assert (Fm : dget (fst (fold_left match_cell l (cur, ph))) (n_id m) = None).
      { rewrite F; auto. intros X. apply in_map_iff in X. destruct X as (p & E & X).
        apply (Ap p m); simpl; auto. }
      split; [intros i I1 I2; apply F; tauto|]. split; [|split; [|split]].
      * intros n c [<-|J] G; [congruence|eauto].
      * intros x k n p. rewrite Nx. destruct (Nat.eqb_spec (n_content m) x) as [<-|N]; [|apply A].
        rewrite T. destruct k; discriminate.
      * intros x k n. rewrite Nx. destruct (Nat.eqb_spec (n_content m) x) as [<-|N]; [|apply B].
        destruct k as [|k]; simpl.
        -- intros E _. injection E as <-. auto.
        -- intros E _. apply (B (n_content m) k); auto. rewrite T. destruct k; auto.
      * intros x k p. rewrite Nx. destruct (Nat.eqb_spec (n_content m) x) as [<-|N]; [|apply C].
        rewrite T. destruct k; discriminate.
Qed.

Lemma create_spec nb : forall cur, NoDup (map n_id nb) ->
  (forall i c, dget cur i = Some c -> dget (create_untracked cur nb) i = Some c) /\
  (forall n, In n nb -> dget cur (n_id n) = None ->
     dget (create_untracked cur nb) (n_id n) = Some (mkPC (-1) (n_content n) false)) /\
  (forall i, dget cur i = None -> ~ In i (map n_id nb) -> dget (create_untracked cur nb) i = None).
Proof.
  induction nb as [|m nb IH]; simpl; intros cur N; [repeat split; auto; intros n []|].
  inversion N as [|? ? N1 N2]; subst. unfold create_untracked in *. simpl.
  destruct (dhas cur (n_id m)) eqn:H.
  - destruct (IH cur N2) as (A & B & C). split; [auto|]. split; [|intros; apply C; tauto].
    intros n [<-|J] G; auto. unfold dhas in H. rewrite G in H. discriminate.
  - destruct (IH (dset cur (n_id m) (mkPC (-1) (n_content m) false)) N2) as (A & B & C). split; [|split].
    + intros i c G. apply A. rewrite dget_dset_other; auto. intros ->. unfold dhas in H. rewrite G in H. discriminate.
    + intros n [<-|J] G.
      * apply A. apply dget_dset_same.
      * apply B; auto. rewrite dget_dset_other; auto. intros E. apply N1. rewrite <- E. apply in_map. auto.
    + intros i G J. apply C; [|tauto]. rewrite dget_dset_other; auto.
Qed.

(** A list sorted strictly has no duplicates. *)
Lemma sorted_NoDup {A} (lt : A -> A -> Prop) (irr : forall a, ~ lt a a) l : StronglySorted lt l -> NoDup l.
Proof.
  induction 1 as [|a l S IH F]; constructor; auto. intros J. rewrite Forall_forall in F. apply F in J.
  apply (irr a J).
Qed.

Theorem new_ids_spec cur nb l ph cur' : dwf cur -> NoDup (map n_id nb) -> apart cur nb ->
  top_down l nb -> oldest_first ph cur -> new_ids cur nb = Ok cur' ->
  (forall x k n p, nth_error (news cur l x) k = Some n -> nth_error (olds ph x) k = Some p ->
     dget cur' (n_id n) = Some (mkPC (pc_ctr (snd p)) x false) /\ dget cur' (fst p) = None) /\
  (forall x k n, nth_error (news cur l x) k = Some n -> nth_error (olds ph x) k = None ->
     dget cur' (n_id n) = Some (mkPC (-1) x false)) /\
  (forall x k p, nth_error (olds ph x) k = Some p -> nth_error (news cur l x) k = None ->
     dget cur' (fst p) = Some (snd p)) /\
  (forall i c, dget cur i = Some c -> pc_placeholder c = false -> dget cur' i = Some c) /\
  (forall i, dget cur i = None -> ~ In i (map n_id nb) -> dget cur' i = None).
Proof.
  intros Wf Nn Ap T O H. unfold new_ids in H.
  destruct (existsb _ nb); [discriminate|]. injection H as <-.
  unfold match_cells. rewrite (by_index_unique _ _ T), (placeholders_unique _ _ O).
  destruct T as [Pl _]. destruct O as [Po _].
  assert (Jp : forall p, In p ph <-> In p cur /\ pc_placeholder (snd p) = true).
  { intros p. rewrite <- (filter_In (fun p => pc_placeholder (snd p))).
    split; apply Permutation_in; auto using Permutation_sym. }
  assert (Gp : forall p, In p ph -> dget cur (fst p) = Some (snd p)).
  { intros [i c] J. apply In_dget; auto. apply Jp. auto. }
  assert (Np : NoDup (map fst ph)).
  { apply (Permutation_map fst) in Po. eapply Permutation_NoDup; [apply Permutation_sym; exact Po|].
    clear - Wf. unfold dwf, dkeys in Wf. induction cur as [|a cur IH]; simpl; [constructor|].
    inversion Wf as [|? ? W1 W2]; subst. destruct (pc_placeholder (snd a)); simpl; auto.
    constructor; auto. intros J. apply W1. apply in_map_iff in J. destruct J as (p & <- & J).
    apply filter_In in J. apply in_map. apply J. }
  assert (Nl : NoDup (map n_id l)).
  { eapply Permutation_NoDup; [apply Permutation_sym, Permutation_map; exact Pl|auto]. }
  assert (Il : forall n, In n l <-> In n nb).
  { intros n. split; apply Permutation_in; auto using Permutation_sym. }
  assert (Ax : forall p n, In p ph -> In n l -> fst p <> n_id n).
  { intros p n J1 J2 E. apply Il in J2. pose proof (Gp _ J1) as G. rewrite E in G.
    pose proof (Ap n _ J2 G) as X. apply Jp in J1. destruct J1. congruence. }
  destruct (match_loop l cur ph Wf Nl Np Gp Ax) as (F & K & A & B & C).
  set (cur1 := fst (fold_left match_cell l (cur, ph))) in *.
  destruct (create_spec nb cur1 Nn) as (D1 & D2 & D3). split; [|split; [|split; [|split]]].
  - intros x k n p E1 E2. destruct (A _ _ _ _ E1 E2) as [A1 A2].
    apply nth_error_In in E2. apply In_olds in E2. destruct E2 as [E2 Ec]. split.
    + apply D1. rewrite A1. unfold plain_cell. congruence.
    + apply D3; auto. intros J. apply in_map_iff in J. destruct J as (n' & E & J).
      apply Il in J. apply (Ax p n'); auto.
  - intros x k n E1 E2. pose proof (B _ _ _ E1 E2) as X. apply nth_error_In, In_news in E1.
    destruct E1 as (E1 & <- & _). apply D2; auto. apply Il. auto.
  - intros x k p E1 E2. apply D1. apply (C _ _ _ E1 E2).
  - intros i c G Pc. apply D1. destruct (in_dec Nat.eq_dec i (map n_id l)) as [J|J].
    + apply in_map_iff in J. destruct J as (n & <- & J). apply K; auto.
    + rewrite F; auto. intros X. apply in_map_iff in X. destruct X as (p & <- & X).
      pose proof (Gp _ X) as Y. apply Jp in X. destruct X. congruence.
  - intros i G J. apply D3; auto. rewrite F; auto.
    + intros X. apply J. apply in_map_iff in X. destruct X as (n & <- & X). apply in_map, Il. auto.
    + intros X. apply in_map_iff in X. destruct X as (p & <- & X). apply Gp in X. congruence.
Qed.

Lemma NoDup_filter {A} (f : A -> bool) l : NoDup l -> NoDup (filter f l).
Proof.
  induction 1 as [|a l J N IH]; simpl; [constructor|]. destruct (f a); auto. constructor; auto.
  rewrite filter_In. tauto.
Qed.

Local Transparent news olds.
Theorem new_ids_injective cur nb l ph cur' : dwf cur -> NoDup (map n_id nb) -> apart cur nb ->
  top_down l nb -> oldest_first ph cur -> new_ids cur nb = Ok cur' ->
  (forall i j c d, dget cur i = Some c -> dget cur j = Some d -> (0 < pc_ctr c)%Z -> pc_ctr c = pc_ctr d -> i = j) ->
  forall i j c d, dget cur' i = Some c -> dget cur' j = Some d -> (0 < pc_ctr c)%Z -> pc_ctr c = pc_ctr d -> i = j.
Proof.
  intros Wf Nn Ap T O H Inj.
  destruct (new_ids_spec _ _ _ _ _ Wf Nn Ap T O H) as (A & B & C & D & E).
  assert (Nph : NoDup ph).
  { eapply sorted_NoDup; [|exact (proj2 O)]. intros a X. apply (Z.lt_irrefl _ X). }
  assert (Jp : forall p, In p ph <-> In p cur /\ pc_placeholder (snd p) = true).
  { intros p. rewrite <- (filter_In (fun p => pc_placeholder (snd p))).
    split; apply Permutation_in; [|apply Permutation_sym]; apply O. }
  assert (Il : forall n, In n l <-> In n nb).
  { intros n. split; apply Permutation_in; [|apply Permutation_sym]; apply T. }
  assert (K : forall i c, dget cur' i = Some c -> (0 < pc_ctr c)%Z ->
    exists s c0, dget cur s = Some c0 /\ pc_ctr c0 = pc_ctr c /\
      ((s = i /\ dget cur' s <> None) \/
       exists k n, nth_error (news cur l (pc_content c0)) k = Some n /\
         nth_error (olds ph (pc_content c0)) k = Some (s, c0) /\ i = n_id n /\ dget cur' s = None)).
  { intros i c G P. destruct (dget cur i) as [c0|] eqn:G0.
    - exists i, c0. split; auto. destruct (pc_placeholder c0) eqn:Pl.
      + assert (J : In (i, c0) (olds ph (pc_content c0))).
        { apply In_olds. split; auto. apply Jp. split; auto. apply dget_In; auto. }
        apply In_nth_error in J. destruct J as (k & J).
        destruct (nth_error (news cur l (pc_content c0)) k) as [n|] eqn:X.
        * destruct (A _ _ _ _ X J) as [_ A2]. simpl in A2. congruence.
        * pose proof (C _ _ _ J X) as Y. simpl in Y. rewrite Y in G. injection G as <-. split; auto.
          left. split; auto. congruence.
      + pose proof (D _ _ G0 Pl) as X. rewrite X in G. injection G as <-. split; auto. left. split; auto. congruence.
    - destruct (in_dec Nat.eq_dec i (map n_id nb)) as [J|J].
      2:{ rewrite (E _ G0 J) in G. discriminate. }
      apply in_map_iff in J. destruct J as (n & <- & J).
      assert (J' : In n (news cur l (n_content n))) by (apply In_news; split; [apply Il; auto|auto]).
      apply In_nth_error in J'. destruct J' as (k & J').
      destruct (nth_error (olds ph (n_content n)) k) as [[s c0]|] eqn:X.
      + destruct (A _ _ _ _ J' X) as [A1 A2]. simpl in A1, A2. rewrite A1 in G. injection G as <-.
        pose proof (nth_error_In _ _ X) as Y. apply In_olds in Y. destruct Y as [Y1 Y2]. simpl in Y2.
        exists s, c0. split; [apply In_dget; auto; apply Jp; auto|]. split; auto.
        right. exists k, n. rewrite Y2. auto.
      + rewrite (B _ _ _ J' X) in G. injection G as <-. simpl in P. lia. }
  intros i j c d Gi Gj P Ecd.
  destruct (K _ _ Gi P) as (s & c0 & S1 & S2 & S3).
  destruct (K _ _ Gj ltac:(rewrite <- Ecd; auto)) as (s' & c0' & S1' & S2' & S3').
  assert (Es : s = s').
  { eapply Inj; [exact S1|exact S1'| |]; [rewrite S2; auto|congruence]. }
  subst s'. assert (c0' = c0) by congruence. subst c0'.
  destruct S3 as [[-> X]|(k & n & X1 & X2 & -> & X3)]; destruct S3' as [[Y1 Y2]|(k' & n' & Y1 & Y2 & -> & Y3)];
    try congruence.
  f_equal. assert (k = k').
  { eapply (proj1 (NoDup_nth_error (olds ph (pc_content c0)))); [apply NoDup_filter; auto| |congruence].
    apply nth_error_Some. congruence. }
  subst k'. congruence.
Qed.
