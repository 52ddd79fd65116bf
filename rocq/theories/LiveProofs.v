(** Proofs about the static analysis. *)
Require Import String List Bool Arith Lia.
Import ListNotations.
Require Import Verif.Base Verif.Loops Verif.LiveModel Verif.LiveSpec.
Local Open Scope list_scope.

(** ** References as sets *)

Lemma const_eqb_eq c d : const_eqb c d = true <-> c = d.
Proof.
  destruct c, d; simpl; try (split; discriminate).
  - rewrite String.eqb_eq. split; congruence.
  - rewrite Nat.eqb_eq. split; congruence.
Qed.

Lemma atom_eqb_eq a b : atom_eqb a b = true <-> a = b.
Proof.
  unfold atom_eqb. rewrite !andb_true_iff, const_eqb_eq, !eqb_true_iff.
  destruct a, b; simpl. split.
  - intros [[-> ->] ->]. auto.
  - intros [= -> -> ->]. auto.
Qed.

Lemma chain_eqb_eq c : forall d, chain_eqb c d = true <-> c = d.
Proof.
  induction c as [|a c IH]; intros [|b d]; simpl; try (split; (discriminate || reflexivity)).
  rewrite andb_true_iff, atom_eqb_eq, IH. split.
  - intros [-> ->]. auto.
  - intros [= -> ->]. auto.
Qed.

Lemma cmem_In c l : cmem c l = true <-> In c l.
Proof.
  unfold cmem. rewrite existsb_exists. split.
  - intros (d & I & E). apply chain_eqb_eq in E. subst. auto.
  - intros I. exists c. split; auto. apply chain_eqb_eq. auto.
Qed.

Lemma cmem_nIn c l : cmem c l = false <-> ~ In c l.
Proof. rewrite <- cmem_In. destruct (cmem c l); split; congruence. Qed.

Lemma In_cdiff c l m : In c (cdiff l m) <-> In c l /\ ~ In c m.
Proof. unfold cdiff. rewrite filter_In, negb_true_iff, cmem_nIn. tauto. Qed.

Lemma smem_In x l : existsb (String.eqb x) l = true <-> In x l.
Proof.
  rewrite existsb_exists. split.
  - intros (y & I & E). apply String.eqb_eq in E. subst. auto.
  - intros I. exists x. split; auto. apply String.eqb_refl.
Qed.

Lemma smem_nIn x l : existsb (String.eqb x) l = false <-> ~ In x l.
Proof. rewrite <- smem_In. destruct (existsb _ _); split; congruence. Qed.

Lemma all_In {A} (P : A -> Prop) l : all P l <-> forall a, In a l -> P a.
Proof.
  unfold all. induction l as [|a l IH]; simpl.
  - split; auto. intros _ b [].
  - rewrite IH. split.
    + intros [H1 H2] b [<-|I]; auto.
    + intros H. split; auto.
Qed.

Lemma nil_flat_map {A B} (f : A -> list B) l :
  flat_map f l = [] <-> forall a, In a l -> f a = [].
Proof.
  induction l as [|a l IH]; simpl.
  - split; auto. intros _ a [].
  - split.
    + intros H. apply app_eq_nil in H. destruct H as [H1 H2].
      intros b [<-|I]; auto. apply IH; auto.
    + intros H. rewrite (H a); auto. apply IH. auto.
Qed.

(** ** Growth *)

Definition grow (st st' : vst) : Prop :=
  incl (live st) (live st') /\ incl (dead st) (dead st') /\ incl (modified st) (modified st').
(** The same, with the functions. *)
Definition still (st st' : vst) : Prop := grow st st' /\ funs st' = funs st.

Lemma grow_refl st : grow st st.
Proof. repeat split; apply incl_refl. Qed.
Lemma grow_trans a b c : grow a b -> grow b c -> grow a c.
Proof.
  intros (A & B & C) (D & E & F). split; [|split]; eapply incl_tran; eassumption.
Qed.
Lemma still_refl st : still st st.
Proof. split; auto. apply grow_refl. Qed.
Lemma still_trans a b c : still a b -> still b c -> still a c.
Proof. intros [A B] [C D]. split; [eapply grow_trans; eassumption|congruence]. Qed.

Lemma still_rfold {A} (f : vst -> A -> res vst) l st st' :
  (forall a t t', In a l -> f t a = Ok t' -> still t t') -> rfold f l st = Ok st' -> still st st'.
Proof.
  intros H. apply rfold_inv; [apply still_refl|].
  intros a t t' I S E. eapply still_trans; [exact S|eauto].
Qed.
Lemma grow_rfold {A} (f : vst -> A -> res vst) l st st' :
  (forall a t t', In a l -> f t a = Ok t' -> grow t t') -> rfold f l st = Ok st' -> grow st st'.
Proof.
  intros H. apply rfold_inv; [apply grow_refl|].
  intros a t t' I S E. eapply grow_trans; [exact S|eauto].
Qed.

Lemma still_kill st c : still st (kill st c).
Proof. repeat split; simpl; auto using incl_refl. apply incl_tl, incl_refl. Qed.
Lemma still_enliven st c : still st (enliven st c).
Proof. repeat split; simpl; auto using incl_refl. apply incl_tl, incl_refl. Qed.
Lemma still_add_attrsub st c : still st (add_attrsub st c).
Proof.
  unfold add_attrsub. destruct (cmem c (dead st)); [apply still_refl|].
  destruct c as [|a l]; [apply still_refl|]. destruct (a_val a); [|apply still_refl].
  destruct (_ || _)%bool; [apply still_refl|apply still_enliven].
Qed.
Lemma still_if (b : bool) st st' : still st st' -> still st (if b then st else st').
Proof. destruct b; auto using still_refl. Qed.
Lemma still_name k att st x : still st (visit_name k att st x).
Proof.
  unfold visit_name. destruct k; [apply still_kill|]. destruct att; [apply still_refl|].
  destruct (cmem _ _); [apply still_refl|apply still_enliven].
Qed.

(** Reads off the steps of a successful run. *)
Ltac steps H :=
  repeat match type of H with
  | rbind _ _ = Ok _ =>
      let s := fresh "s" in let E := fresh "E" in
      apply rbind_Ok in H; destruct H as (s & E & H)
  | rmap _ _ = Ok _ =>
      let s := fresh "s" in let E := fresh "E" in
      apply rmap_Ok in H; destruct H as (s & E & H)
  end.

Section Grow.
Variable n : nat.
Hypothesis He : forall k att st e st', vexpr n k att st e = Ok st' -> still st st'.
Hypothesis Ha : forall k att st ts v a st', vassign n k att st ts v a = Ok st' -> still st st'.
Hypothesis Ht : forall att st t st', vtarget n att st t = Ok st' -> still st st'.
Hypothesis Hs : forall k att st s st', vstmt n k att st s = Ok st' -> grow st st'.
Hypothesis Hb : forall k att st t b o st', vbranch n k att st t b o = Ok st' -> grow st st'.

Lemma grow_es k att es st st' : rfold (vexpr n k att) es st = Ok st' -> still st st'.
Proof. apply still_rfold. intros a t t' _. apply He. Qed.
Lemma grow_ss k att ss st st' : rfold (vstmt n k att) ss st = Ok st' -> grow st st'.
Proof. apply grow_rfold. intros a t t' _. apply Hs. Qed.
Lemma grow_oe k att o st st' : fold_opt (vexpr n k att) st o = Ok st' -> still st st'.
Proof. destruct o; simpl; [apply He|]. intros [= <-]. apply still_refl. Qed.

Lemma grow_expr k att st e st' : vexpr (S n) k att st e = Ok st' -> still st st'.
Proof.
  destruct e; cbn [vexpr]; intros H.
  - injection H as <-. apply still_refl.
  - injection H as <-. apply still_name.
  - apply He in H. eapply still_trans; [|exact H]. apply still_if, still_add_attrsub.
  - destruct (quoted e1); [injection H as <-; apply still_refl|]. steps H.
    apply He in E. apply He in H. eapply still_trans; [|exact H]. eapply still_trans; [|exact E].
    apply still_if, still_add_attrsub.
  - steps H. apply grow_es in E. apply He in E0.
    assert (S0 : still st s0).
    { eapply still_trans; [exact E|]. eapply still_trans; [|exact E0].
      apply still_if, still_add_attrsub. }
    assert (G : st' = s0 \/ exists l, st' = with_live s0 (live s0 ++ l)).
    { destruct e; try (injection H as <-; auto).
      destruct (fget (funs s0) x) as [fn|]; [|injection H as <-; auto].
      destruct (fn_kwonly fn); [|discriminate]. steps H. injection H as <-. eauto. }
    destruct G as [->|[l ->]]; auto.
    eapply still_trans; [exact S0|]. repeat split; simpl; auto using incl_refl.
    apply incl_appl, incl_refl.
  - steps H. apply He in E. apply He in H. eapply still_trans; eassumption.
  - eapply grow_es; eassumption.
  - steps H. apply grow_es in E. apply grow_es in H. eapply still_trans; eassumption.
  - eapply grow_es; eassumption.
  - eapply grow_es; eassumption.
  - eapply grow_es; eassumption.
  - eapply He; eassumption.
  - eapply Ha; eassumption.
  - steps H. apply grow_es in E. apply grow_es in E0.
    assert (G : still s0 s1).
    { revert E1. apply still_rfold. intros g t t' _ R. cbv beta in R. steps R.
      apply He in E1. apply grow_es in R. eapply still_trans; eassumption. }
    injection H as <-. destruct E as [(A1 & A2 & A3) A4], E0 as [(B1 & B2 & B3) B4],
      G as [(C1 & C2 & C3) C4]. simpl in *.
    assert (L1 : incl (live st) (live s1)) by (eapply incl_tran; [exact A1|]; eapply incl_tran; eassumption).
    assert (M1 : incl (modified st) (modified s1)) by (eapply incl_tran; [exact A3|]; eapply incl_tran; eassumption).
    split; [|simpl; congruence]. repeat split; simpl; auto.
    intros c I. apply In_cdiff. split.
    + apply C2, B2. apply in_or_app. auto.
    + rewrite In_cdiff. tauto.
  - eapply grow_es; eassumption.
Qed.

Lemma grow_assign k att st ts v a st' : vassign (S n) k att st ts v a = Ok st' -> still st st'.
Proof.
  cbn [vassign]. intros H. steps H. injection H as <-.
  assert (G0 : still (with_live st []) s).
  { destruct a as [t|]; simpl in E; [|injection E as <-; apply still_refl]. steps E.
    apply He in E3. subst s. destruct E3 as [(A & B & C) D]. simpl in *.
    repeat split; simpl; auto. intros x I. apply in_or_app. auto. }
  apply grow_oe in E0.
  assert (G1 : still s0 s1).
  { revert E1. apply still_rfold. intros t u u' _ R. destruct t; try (injection R as <-; apply still_refl);
      eapply He; eassumption. }
  assert (G2 : still (with_live s1 (live st)) s2).
  { revert E2. apply still_rfold. intros t u u' _. apply Ht. }
  pose proof (still_trans _ _ _ G0 (still_trans _ _ _ E0 G1)) as [(A1 & A2 & A3) A4].
  destruct G2 as [(B1 & B2 & B3) B4]. simpl in *. repeat split; simpl.
  - apply incl_appl. auto.
  - apply incl_appl. auto.
  - eapply incl_tran; eassumption.
  - congruence.
Qed.

Lemma grow_target att st t st' : vtarget (S n) att st t = Ok st' -> still st st'.
Proof.
  destruct t; cbn [vtarget]; intros H; try (injection H as <-; apply still_refl || apply still_kill).
  - apply He in H. eapply still_trans; [apply still_kill|exact H].
  - revert H. apply still_rfold. intros a u u' _. apply Ht.
  - eapply Ht; eassumption.
Qed.

Lemma grow_branch k att st t b o st' : vbranch (S n) k att st t b o = Ok st' -> grow st st'.
Proof.
  cbn [vbranch]. intros H. steps H. injection H as <-.
  apply grow_oe in E. apply grow_ss in E0. apply grow_ss in E1.
  destruct E as [(A1 & A2 & A3) A4], E0 as (B1 & B2 & B3), E1 as (C1 & C2 & C3). simpl in *.
  repeat split; simpl.
  - apply incl_appl. auto.
  - apply incl_appl, incl_refl.
  - apply incl_appl. eapply incl_tran; [exact A3|]. eapply incl_tran; eassumption.
Qed.

Lemma grow_stmt k att st s st' : vstmt (S n) k att st s = Ok st' -> grow st st'.
Proof.
  destruct s; cbn [vstmt]; intros H;
    try (injection H as <-; apply grow_refl);
    try (eapply He; eassumption); try (eapply grow_es; eassumption);
    try (eapply Ha; eassumption).
  - destruct fn. steps H. injection H as <-. apply grow_es in E. apply grow_es in E0.
    eapply grow_trans; [apply E|]. eapply grow_trans; [apply E0|].
    repeat split; simpl; auto using incl_refl. apply incl_tl, incl_refl.
  - steps H. injection H as <-. apply grow_es in E. apply grow_es in E0.
    eapply grow_trans; [apply E|]. eapply grow_trans; [apply E0|]. apply still_kill.
  - steps H. apply He in E. eapply grow_trans; [apply E|]. eapply Hb; eassumption.
  - steps H. apply He in E. eapply grow_trans; [apply E|]. eapply Hb; eassumption.
  - steps H. apply He in E. eapply grow_trans; [apply E|]. eapply Hb; eassumption.
  - steps H. apply grow_ss in H. eapply grow_trans; [|exact H].
    revert E. apply grow_rfold. intros i t t' _ R. cbv beta in R. steps R.
    apply He in E. apply grow_oe in R. eapply grow_trans; [apply E|apply R].
  - steps H. apply grow_ss in E. apply grow_ss in E1. apply grow_ss in H.
    eapply grow_trans; [exact E|]. eapply grow_trans; [|eapply grow_trans; [exact E1|exact H]].
    revert E0. apply grow_rfold. intros [t x b] u u' _ R. cbv beta iota in R. steps R.
    apply grow_oe in E0. apply grow_ss in R. eapply grow_trans; [apply E0|apply R].
Qed.
End Grow.

Lemma grows n :
  (forall k att st e st', vexpr n k att st e = Ok st' -> still st st') /\
  (forall k att st ts v a st', vassign n k att st ts v a = Ok st' -> still st st') /\
  (forall att st t st', vtarget n att st t = Ok st' -> still st st') /\
  (forall k att st s st', vstmt n k att st s = Ok st' -> grow st st') /\
  (forall k att st t b o st', vbranch n k att st t b o = Ok st' -> grow st st').
Proof.
  induction n as [|n (A & B & C & D & E)].
  - repeat split; intros; discriminate.
  - split; [|split; [|split; [|split]]]; intros.
    + eapply grow_expr; eassumption.
    + eapply grow_assign; eassumption.
    + eapply grow_target; eassumption.
    + eapply grow_stmt; eassumption.
    + eapply grow_branch; eassumption.
Qed.

Lemma vexpr_still n k att st e st' : vexpr n k att st e = Ok st' -> still st st'.
Proof. apply (grows n). Qed.
Lemma vexprs_still n k att es st st' : rfold (vexpr n k att) es st = Ok st' -> still st st'.
Proof. apply still_rfold. intros a t t' _. apply vexpr_still. Qed.
Lemma vassign_still n k att st ts v a st' : vassign n k att st ts v a = Ok st' -> still st st'.
Proof. apply (grows n). Qed.
Lemma vtarget_still n att st t st' : vtarget n att st t = Ok st' -> still st st'.
Proof. apply (grows n). Qed.
Lemma vstmt_grow n k att st s st' : vstmt n k att st s = Ok st' -> grow st st'.
Proof. apply (grows n). Qed.
Lemma vstmts_grow n k att ss st st' : rfold (vstmt n k att) ss st = Ok st' -> grow st st'.
Proof. apply grow_rfold. intros a t t' _. apply vstmt_grow. Qed.
Lemma vbranch_grow n k att st t b o st' : vbranch n k att st t b o = Ok st' -> grow st st'.
Proof. apply (grows n). Qed.
