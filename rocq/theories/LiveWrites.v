(** What the analysis reports as modified. *)
Require Import String List Bool Arith Lia.
Import ListNotations.
Require Import Verif.Base Verif.Loops Verif.LiveModel Verif.LiveSpec Verif.LiveProofs.
Local Open Scope list_scope.

(** ** Only bound names are written *)

Scheme ev_mind := Minimality for ev Sort Prop
with evs_mind := Minimality for evs Sort Prop
with evsome_mind := Minimality for evsome Sort Prop
with evany_mind := Minimality for evany Sort Prop
with store_mind := Minimality for store Sort Prop
with stores_mind := Minimality for stores Sort Prop
with ex_mind := Minimality for ex Sort Prop
with exs_mind := Minimality for exs Sort Prop
with loop_mind := Minimality for loop Sort Prop
with after_mind := Minimality for after Sort Prop
with enter_mind := Minimality for enter Sort Prop
with guarded_mind := Minimality for guarded Sort Prop
with handle_mind := Minimality for handle Sort Prop.
Combined Scheme run_mind from ev_mind, evs_mind, evsome_mind, evany_mind, store_mind, stores_mind,
  ex_mind, exs_mind, loop_mind, after_mind, enter_mind, guarded_mind, handle_mind.

Definition in_only (L B : list string) (tr : list event) : Prop :=
  forall x, In (Write x) tr -> In x B /\ ~ In x L.

Lemma only_nil L B : in_only L B [].
Proof. intros x []. Qed.
Lemma only_app L B t1 t2 : in_only L B t1 -> in_only L B t2 -> in_only L B (t1 ++ t2).
Proof. intros H K x J. apply in_app_iff in J. destruct J; auto. Qed.
Lemma only_incl L B B' tr : in_only L B tr -> incl B B' -> in_only L B' tr.
Proof. intros H I x J. destruct (H x J). auto. Qed.
Lemma existsb_str x L : existsb (String.eqb x) L = true <-> In x L.
Proof.
  rewrite existsb_exists. split.
  - intros (y & J & E). apply String.eqb_eq in E. subst. auto.
  - intros J. exists x. split; auto. apply String.eqb_refl.
Qed.
Lemma only_read L B x : in_only L B (read L x).
Proof.
  intros y J. unfold read in J. destruct (existsb _ L); [destruct J|].
  destruct J as [J|[]]. discriminate.
Qed.
Lemma only_write L B x : In x B -> in_only L B (write L x).
Proof.
  intros Ix y J. unfold write in J. destruct (existsb (String.eqb x) L) eqn:E; [destruct J|].
  destruct J as [J|[]]. injection J as ->. split; auto. intros X. apply existsb_str in X. congruence.
Qed.
Lemma only_exposed L B done tr : in_only L B (exposed_reads done tr).
Proof.
  revert done. induction tr as [|[x|x] tr IH]; intros done; simpl; [apply only_nil| |apply IH].
  destruct (existsb _ done); [apply IH|]. intros y [J|J]; [discriminate|]. apply (IH done). auto.
Qed.
Lemma only_writes L B xs : incl xs B -> in_only L B (flat_map (write L) xs).
Proof.
  intros I y J. apply in_flat_map in J. destruct J as (x & Jx & J). eapply only_write; [|exact J]. auto.
Qed.

Definition ibinds (i : expr * option expr) : list string :=
  ebinds (fst i) ++ match snd i with Some t => ebinds t ++ tnames t | None => [] end.
Definition hbinds (h : handler) : list string :=
  let 'Handler t x b := h in
  oebinds t ++ match x with Some x => [x] | None => [] end ++ flat_map sbinds b.
Definition tbinds (t : expr) : list string := ebinds t ++ tnames t.

Ltac inc := intros ?y ?Y; simpl in *; rewrite ?in_app_iff in *; simpl in *; tauto.
Ltac use := match goal with
  | H : in_only _ _ ?t |- in_only _ _ ?t => eapply only_incl; [exact H|inc]
  | |- in_only _ _ (_ ++ _) => apply only_app; use
  | |- in_only _ _ [] => apply only_nil
  | |- in_only _ _ (write _ _) => apply only_write; simpl; rewrite ?in_app_iff; simpl; auto 8
  | |- in_only _ _ (exposed_reads _ _) => apply only_exposed
  end.

Lemma flat_map_swap {A} (f g : A -> list string) l x :
  In x (flat_map (fun a => f a ++ g a) l) <-> In x (flat_map f l) \/ In x (flat_map g l).
Proof.
  induction l as [|a l IH]; simpl; [tauto|]. rewrite !in_app_iff, IH. tauto.
Qed.

Lemma run_writes :
  (forall L F e tr ok, ev L F e tr ok -> in_only L (ebinds e) tr) /\
  (forall L F es tr ok, evs L F es tr ok -> in_only L (flat_map ebinds es) tr) /\
  (forall L F es tr ok, evsome L F es tr ok -> in_only L (flat_map ebinds es) tr) /\
  (forall L F es tr ok, evany L F es tr ok -> in_only L (flat_map ebinds es) tr) /\
  (forall L F t tr ok, store L F t tr ok -> in_only L (tbinds t) tr) /\
  (forall L F ts tr ok, stores L F ts tr ok -> in_only L (flat_map tbinds ts) tr) /\
  (forall L F s tr out F', ex L F s tr out F' -> in_only L (sbinds s) tr) /\
  (forall L F ss tr out F', exs L F ss tr out F' -> in_only L (flat_map sbinds ss) tr) /\
  (forall L F s tr out F', loop L F s tr out F' -> in_only L (sbinds s) tr) /\
  (forall L F b out tr out' F', after L F b out tr out' F' -> in_only L (flat_map sbinds b) tr) /\
  (forall L F items tr ok, enter L F items tr ok -> in_only L (flat_map ibinds items) tr) /\
  (forall L F b hs o tr out F', guarded L F b hs o tr out F' ->
     in_only L (flat_map sbinds b ++ flat_map hbinds hs ++ flat_map sbinds o) tr) /\
  (forall L F hs tr out F', handle L F hs tr out F' -> in_only L (flat_map hbinds hs) tr).
Proof.
  apply run_mind; intros; unfold tbinds in *; simpl in *; rewrite ?app_nil_r in *;
    try (repeat use; fail); try apply only_nil; try apply only_read.

  - (* call of a function *)
    apply only_app; [use|]. intros x J. exfalso.
    match goal with H : in_only (fn_locals fn) _ trb |- _ => destruct (H x J) as [X Y] end.
    apply Y. unfold fn_locals. rewrite !in_app_iff. auto.
  - eapply only_incl; [eassumption|]. intros x J. apply in_flat_map in J. destruct J as (e & J & Jx).
    apply in_flat_map in J. destruct J as ([a b] & J & Je). apply in_or_app.
    destruct Je as [<-|[<-|[]]]; [left|right]; apply in_flat_map; eexists; (split; [|exact Jx]).
    + eapply in_combine_l; exact J.
    + eapply in_combine_r; exact J.
  - apply only_app; [use|]. intros x J.
    match goal with H : in_only _ _ tr' |- _ => destruct (H x J) as [X Y] end.
    split; [|intros Z; apply Y; rewrite !in_app_iff; tauto].
    rewrite !flat_map_app, !in_app_iff in X. rewrite !in_app_iff.
    destruct X as [X|[X|X]]; auto. right; right. apply in_flat_map in X. destruct X as (e & X & Xe).
    apply in_flat_map in X. destruct X as ([t' i' ifs'] & X & Je). apply in_flat_map.
    exists (Gen t' i' ifs'). split; auto. simpl in Je. rewrite !in_app_iff. destruct Je as [<-|Je]; auto.
    right; right. apply in_flat_map. eauto.
  - eapply only_incl; [eassumption|]. intros x J. apply in_flat_map. eauto.
  - apply only_app; auto. eapply only_incl; [eassumption|]. intros x J. apply in_flat_map. eauto.
  - eapply only_incl; [eassumption|]. intros x J. apply flat_map_swap in J. apply in_or_app. auto.
  - apply only_app; [use|]. eapply only_incl; [eassumption|]. intros x J. apply flat_map_swap in J.
    rewrite !in_app_iff. tauto.
  - apply only_app; [use|]. apply only_app; [use|]. eapply only_incl; [eassumption|].
    match goal with H : anns = [] \/ _ |- _ => destruct H as [->| ->] end; inc.
  - eapply only_incl; [eassumption|].
    match goal with H : anns = [] \/ _ |- _ => destruct H as [->| ->] end; inc.
  - apply only_app; [use|]. destruct t; try apply only_nil. apply only_write. simpl. auto.
  - subst xs. apply only_writes. intros y Y. apply in_or_app. auto.
  - apply only_writes. apply incl_refl.
  - eapply only_incl; [eassumption|]. intros x J. apply in_flat_map in J. destruct J as (e & J & Jx).
    apply in_flat_map in J. destruct J as (t & J & Je). apply in_flat_map. exists t. split; auto.
    destruct t; simpl in Je; intuition; subst; simpl; rewrite ?in_app_iff; auto.
  - rewrite !flat_map_app in *. use.
  - rewrite !flat_map_app in *. use.
  - rewrite !flat_map_app in *. use.
  - rewrite !flat_map_app in *. use.
  - rewrite !flat_map_app in *. use.
  - unfold ibinds at 1. simpl. use.
  - unfold ibinds at 1. simpl. use.
  - unfold ibinds at 1. simpl. use.
  - unfold ibinds at 1. simpl. use.
  - apply only_app; [destruct t; simpl in *; rewrite ?app_nil_r in *; use|]. apply only_app; [|use].
    destruct x; [|apply only_nil]. apply only_write. rewrite !in_app_iff. simpl. auto.
Qed.

Lemma runs_writes prog tr out x : runs prog tr out -> In (Write x) tr -> In x (flat_map sbinds prog).
Proof.
  intros (F & H) J. destruct run_writes as (_ & _ & _ & _ & _ & _ & _ & K & _).
  apply (K _ _ _ _ _ _ H x J).
Qed.

(** ** Bound names are reported *)

Definition reported (x : string) (st : vst) : Prop :=
  In [nm x] (live st) \/ In [nm x] (dead st) \/ In [nm x] (modified st).
Lemma reported_grow x st st' : grow st st' -> reported x st -> reported x st'.
Proof. intros (A & B & C) [H|[H|H]]; unfold reported; auto. Qed.

Lemma ebinds_nil_In (P : expr -> Prop) es : flat_map ebinds es = [] -> forall e, In e es -> ebinds e = [].
Proof.
  induction es as [|a es IH]; simpl; [intros _ e []|]. intros H e [<-|J].
  - destruct (ebinds a); auto. discriminate.
  - apply app_eq_nil in H. apply IH; auto. apply H.
Qed.

(** Names in a target that is visited in a kill context. *)
Lemma target_killed n : forall att st t st' x, vexpr n true att st t = Ok st' -> In x (tnames t) ->
  In [nm x] (dead st').
Proof.
  induction n as [|n IH]; [discriminate|]. intros att st t st' x H J.
  destruct t; simpl in J; try tauto; cbn [vexpr] in H.
  - destruct J as [<-|[]]. injection H as <-. simpl. auto.
  - assert (X : forall es s, rfold (vexpr n true false) es s = Ok st' -> In x (flat_map tnames es) ->
              In [nm x] (dead st')).
    { clear es st H J. induction es as [|e es IHs]; simpl; intros s R J; [tauto|].
      apply rbind_Ok in R. destruct R as (s1 & E & R). apply in_app_iff in J. destruct J as [J|J]; eauto.
      apply vexprs_still in R. destruct R as [(_ & R & _) _]. apply R. eauto. }
    eauto.
  - eauto.
Qed.
Lemma vtarget_killed n : forall att st t st' x, vtarget n att st t = Ok st' -> In x (tnames t) ->
  In [nm x] (dead st').
Proof.
  induction n as [|n IH]; [discriminate|]. intros att st t st' x H J.
  destruct t; simpl in J; try tauto; cbn [vtarget] in H.
  - destruct J as [<-|[]]. injection H as <-. simpl. auto.
  - assert (X : forall es s, rfold (vtarget n att) es s = Ok st' -> In x (flat_map tnames es) ->
              In [nm x] (dead st')).
    { clear es st H J. induction es as [|e es IHs]; simpl; intros s R J; [tauto|].
      apply rbind_Ok in R. destruct R as (s1 & E & R). apply in_app_iff in J. destruct J as [J|J]; eauto.
      assert (G : incl (dead s1) (dead st')).
      { revert R. apply (rfold_inv _ (fun s => incl (dead s1) (dead s))); [apply incl_refl|].
        intros a u v _ I R. apply vtarget_still in R. eapply incl_tran; [exact I|apply R]. }
      apply G. eauto. }
    eauto.
  - eauto.
Qed.

Lemma assign_reported n k att st ts v a st' x : vassign n k att st ts v a = Ok st' ->
  In x (flat_map tnames ts) -> reported x st'.
Proof.
  destruct n as [|n]; [discriminate|]. cbn [vassign]. intros H J.
  apply rbind_Ok in H. destruct H as (s1 & E1 & H). apply rbind_Ok in H. destruct H as (s2 & E2 & H).
  apply rbind_Ok in H. destruct H as (s3 & E3 & H). apply rbind_Ok in H. destruct H as (s4 & E4 & H).
  injection H as <-. unfold reported. simpl. rewrite !in_app_iff.
  assert (X : In [nm x] (dead s4)).
  { assert (X : forall ts s, rfold (vtarget n att) ts s = Ok s4 -> In x (flat_map tnames ts) ->
              In [nm x] (dead s4)).
    { clear. induction ts as [|e es IHs]; simpl; intros s R J; [tauto|].
      apply rbind_Ok in R. destruct R as (s1 & E & R). apply in_app_iff in J. destruct J as [J|J]; eauto.
      assert (G : incl (dead s1) (dead s4)).
      { revert R. apply (rfold_inv _ (fun s => incl (dead s1) (dead s))); [apply incl_refl|].
        intros a u v _ I R. apply vtarget_still in R. eapply incl_tran; [exact I|apply R]. }
      apply G. eapply vtarget_killed; eassumption. }
    eauto. }
  destruct (cmem [nm x] (dead s3)) eqn:M1; [apply cmem_In in M1; auto|apply cmem_nIn in M1].
  destruct (cmem [nm x] (live s3)) eqn:M2; [apply cmem_In in M2; auto|apply cmem_nIn in M2].
  right; left; right. apply In_cdiff. split; auto. apply In_cdiff. split; auto. apply in_or_app. auto.
Qed.

Section Step.
Variable n : nat.
Hypothesis IH : forall m, m <= n -> forall st s st', vstmt m false false st s = Ok st' -> plain s ->
  forall x, In x (sbinds s) -> reported x st'.

Lemma block_reported m ss : m <= n -> forall st st', rfold (vstmt m false false) ss st = Ok st' -> all plain ss ->
  forall x, In x (flat_map sbinds ss) -> reported x st'.
Proof.
  intros Lm. induction ss as [|s ss IHs]; simpl; intros st st' H P x J; [tauto|].
  apply rbind_Ok in H. destruct H as (s1 & E & H). apply in_app_iff in J. destruct P as [P1 P2].
  destruct J as [J|J]; [|eauto].
  eapply reported_grow; [eapply vstmts_grow; exact H|]. eapply IH; [|exact E|exact P1|exact J]. auto.
Qed.

Lemma branch_reported m st t a b st' : S m <= n -> vbranch (S m) false false st t a b = Ok st' ->
  all plain a -> all plain b ->
  forall x, In x (match t with Some t => tnames t | None => [] end ++ flat_map sbinds a ++ flat_map sbinds b) ->
  reported x st'.
Proof.
  intros Lm H Pa Pb x J. cbn [vbranch] in H.
  apply rbind_Ok in H. destruct H as (s1 & E1 & H). apply rbind_Ok in H. destruct H as (s2 & E2 & H).
  apply rbind_Ok in H. destruct H as (s3 & E3 & H). injection H as <-. 
  assert (X : reported x s2 \/ reported x s3).
  { rewrite !in_app_iff in J. destruct J as [J|[J|J]].
    - left. right; left. destruct t as [t|]; [|destruct J]. simpl in E1.
      apply (target_killed _ _ _ _ _ _ E1) in J. apply vstmts_grow in E2. apply E2. exact J.
    - left. eapply block_reported; [|exact E2|exact Pa|exact J]. lia.
    - right. eapply block_reported; [|exact E3|exact Pb|exact J]. lia. }
  assert (M : incl (modified s2) (modified s3)) by (apply vstmts_grow in E3; apply E3).
  unfold reported in *. simpl. rewrite !in_app_iff, !In_cdiff, !in_app_iff.
  destruct (cmem [nm x] (dead st)) eqn:D; [apply cmem_In in D; tauto|apply cmem_nIn in D].
  destruct X as [[X|[X|X]]|[X|[X|X]]]; auto 10.
Qed.
End Step.

(** Names in a target that is visited like an expression. *)
Lemma target_read n : forall st t st' x, vexpr n false false st t = Ok st' -> In x (tnames t) ->
  In [nm x] (live st') \/ In [nm x] (dead st').
Proof.
  induction n as [|n IH]; [discriminate|]. intros st t st' x H J.
  destruct t; simpl in J; try tauto; cbn [vexpr] in H.
  - destruct J as [<-|[]]. cbn [visit_name] in H.
    destruct (cmem [nm x0] (dead st)) eqn:M; injection H as <-.
    + apply cmem_In in M. auto.
    + left. simpl. auto.
  - assert (X : forall es s, rfold (vexpr n false false) es s = Ok st' -> In x (flat_map tnames es) ->
              In [nm x] (live st') \/ In [nm x] (dead st')).
    { clear es st H J. induction es as [|e es IHs]; simpl; intros s R J; [tauto|].
      apply rbind_Ok in R. destruct R as (s1 & E & R). apply in_app_iff in J. destruct J as [J|J]; eauto.
      apply vexprs_still in R. destruct R as [(R1 & R2 & _) _].
      destruct (IH _ _ _ _ E J); auto. }
    eauto.
  - eauto.
Qed.

Lemma stmt_reported n : forall st s st', vstmt n false false st s = Ok st' -> plain s ->
  forall x, In x (sbinds s) -> reported x st'.
Proof.
  induction n as [n IHn] using lt_wf_ind. intros st s st' H P x J.
  destruct n as [|n]; [discriminate|].
  assert (IH : forall m, m <= n -> forall st s st', vstmt m false false st s = Ok st' -> plain s ->
            forall x, In x (sbinds s) -> reported x st').
  { intros m Lm. apply IHn. lia. }
  assert (Br : forall st t a b st', vbranch n false false st t a b = Ok st' -> all plain a -> all plain b ->
            forall x, In x (match t with Some t => tnames t | None => [] end ++
                            flat_map sbinds a ++ flat_map sbinds b) -> reported x st').
  { intros u t a b u' E Pa Pb y Y. destruct n as [|m]; [discriminate|].
    eapply (branch_reported (S m)); try eassumption. auto. }
  assert (Ss : forall ss st st', rfold (vstmt n false false) ss st = Ok st' -> all plain ss ->
            forall x, In x (flat_map sbinds ss) -> reported x st').
  { intros ss u u' E Ps y Y. eapply (block_reported n IH); try eassumption. auto. }
  destruct s; cbn [vstmt] in H; simpl in P, J.
  1-3: tauto.
  - rewrite P in J. destruct J.
  - rewrite P in J. destruct J.
  - rewrite P in J. destruct J.
  - destruct P as [P1 P2]. rewrite P1, P2, app_nil_r in J. eapply assign_reported; eassumption.
  - destruct P as (P1 & P2 & P3). rewrite P1, P2, P3, !app_nil_r in J. eapply assign_reported; [exact H|].
    simpl. rewrite app_nil_r. exact J.
  - destruct P as [P1 P2]. rewrite P1, P2, app_nil_r in J. simpl in J. destruct n as [|m]; [discriminate|].
    cbn [vassign fold_opt] in H. apply rbind_Ok in H. destruct H as (s1 & E1 & H).
    apply rbind_Ok in H. destruct H as (s2 & E2 & H). cbn [rfold rbind] in H. injection H as <-.
    apply rmap_Ok in E1. destruct E1 as (u & E1 & <-). apply vexpr_still in E2.
    destruct E2 as [(_ & D & M) _]. unfold reported. simpl in *.
    destruct (target_read _ _ _ _ _ E1 J) as [X|X].
    + right; right. apply M. apply in_or_app. auto.
    + right; left. apply in_or_app. auto.
  - eapply assign_reported; [exact H|]. apply in_flat_map. exists (EName x). simpl. split; auto.
    apply in_map. auto.
  - rewrite P in J. destruct J.
  - destruct fn as [y ps kos ds kds anns decos b]. rewrite !flat_map_app in P.
    apply app_eq_nil in P. destruct P as [P1 P]. apply app_eq_nil in P. destruct P as [P2 P].
    apply app_eq_nil in P. destruct P as [P3 P4]. rewrite P1, P2, P3, P4 in J.
    apply rbind_Ok in H. destruct H as (s1 & _ & H). apply rbind_Ok in H. destruct H as (s2 & _ & H).
    injection H as <-. destruct J as [<-|[]]. right; left. simpl. auto.
  - rewrite !flat_map_app in P.
    apply app_eq_nil in P. destruct P as [P1 P]. apply app_eq_nil in P. destruct P as [P2 P3].
    rewrite P1, P2, P3 in J.
    apply rbind_Ok in H. destruct H as (s1 & _ & H). apply rbind_Ok in H. destruct H as (s2 & _ & H).
    injection H as <-. destruct J as [<-|[]]. right; left. simpl. auto.
  - destruct P as (P1 & P2 & P3). rewrite P1 in J. apply rbind_Ok in H. destruct H as (s1 & _ & H).
    eapply Br; [exact H|exact P2|exact P3|exact J].
  - destruct P as (P1 & P2 & P3). rewrite P1 in J. apply rbind_Ok in H. destruct H as (s1 & _ & H).
    eapply Br; [exact H|exact P2|exact P3|exact J].
  - destruct P as (P0 & P1 & P2 & P3). rewrite P0, P1 in J. apply rbind_Ok in H. destruct H as (s1 & _ & H).
    eapply Br; [exact H|exact P2|exact P3|exact J].
  - destruct P as (P1 & P2). apply rbind_Ok in H. destruct H as (s1 & E & H).
    apply in_app_iff in J. destruct J as [J|J]; [|eapply Ss; [exact H|exact P2|exact J]].
    eapply reported_grow; [eapply vstmts_grow; exact H|]. right; left.
    assert (Gr : forall (i : expr * option expr) u v, rbind (vexpr n false false u (fst i)) (fun s =>
              fold_opt (vexpr n true false) s (snd i)) = Ok v -> incl (dead u) (dead v)).
    { intros i u v R. apply rbind_Ok in R. destruct R as (w & R & R'). apply vexpr_still in R.
      destruct R as [(_ & R & _) _]. destruct (snd i); simpl in R'.
      - apply vexpr_still in R'. destruct R' as [(_ & R' & _) _]. eapply incl_tran; eassumption.
      - injection R' as <-. auto. }
    clear H. revert st E P1 J. induction items as [|i items IHi]; simpl; intros st E P1 J; [tauto|].
    apply rbind_Ok in E. destruct E as (u & E & R). destruct P1 as [[P1 P1'] P1s].
    apply in_app_iff in J. destruct J as [J|J]; [|eauto].
    assert (I : incl (dead u) (dead s1)).
    { revert R. apply (rfold_inv _ (fun s => incl (dead u) (dead s))); [apply incl_refl|].
      intros a v w _ I R. eapply incl_tran; [exact I|]. apply (Gr a). exact R. }
    apply I. apply rbind_Ok in E. destruct E as (v & _ & E). rewrite P1 in J. simpl in J.
    destruct (snd i) as [t|]; [|destruct J]. simpl in E, P1'. rewrite P1' in J. simpl in J.
    eapply target_killed; eassumption.
  - destruct P as (P1 & P2 & P3 & P4).
    apply rbind_Ok in H. destruct H as (s1 & E1 & H). apply rbind_Ok in H. destruct H as (s2 & E2 & H).
    apply rbind_Ok in H. destruct H as (s3 & E3 & H).
    pose proof (vstmts_grow _ _ _ _ _ _ E3) as G3. pose proof (vstmts_grow _ _ _ _ _ _ H) as G4.
    assert (Gr : forall h u v, (let 'Handler t _ b := h in
              rbind (fold_opt (vexpr n false false) u t) (fun s => rfold (vstmt n false false) b s)) = Ok v ->
              grow u v).
    { intros [t y b] u v R. apply rbind_Ok in R. destruct R as (w & R & R'). apply vstmts_grow in R'.
      eapply grow_trans; [|exact R']. destruct t; simpl in R; [apply vexpr_still in R; apply R|].
      injection R as <-. apply grow_refl. }
    assert (G2 : forall hs u v, rfold (fun s h => let 'Handler t _ b := h in
              rbind (fold_opt (vexpr n false false) s t) (fun s => rfold (vstmt n false false) b s)) hs u = Ok v ->
              grow u v).
    { intros hs u v R. revert R. apply (rfold_inv _ (grow u)); [apply grow_refl|].
      intros h a b _ I R. eapply grow_trans; [exact I|]. apply (Gr h). exact R. }
    rewrite !in_app_iff in J. destruct J as [J|[J|[J|J]]].
    + eapply reported_grow; [exact G4|]. eapply reported_grow; [exact G3|].
      eapply reported_grow; [apply (G2 handlers); exact E2|]. eapply Ss; [exact E1|exact P1|exact J].
    + eapply reported_grow; [exact G4|]. eapply reported_grow; [exact G3|].
      clear - Ss G2 E2 P2 J. revert s1 E2 P2 J. induction handlers as [|[t y b] hs IHh]; intros u E P J; [destruct J|].
      cbn [rfold] in E. apply rbind_Ok in E. destruct E as (v & E & R).
      cbn [flat_map] in J. simpl in P. destruct P as [(P1 & -> & P3) P4]. rewrite P1 in J. simpl in J.
      apply in_app_iff in J. destruct J as [J|J]; [|eapply IHh; eassumption].
      eapply reported_grow; [apply (G2 hs); exact R|].
      apply rbind_Ok in E. destruct E as (w & _ & E). eapply Ss; [exact E|exact P3|exact J].
    + eapply reported_grow; [exact G4|]. eapply Ss; [exact E3|exact P3|exact J].
    + eapply Ss; [exact H|exact P4|exact J].
Qed.

Theorem analyze_writes n prog st tr out x : analyze n prog = Ok st -> all plain prog ->
  runs prog tr out -> In (Write x) tr -> reported_modified x st \/ In [nm x] (live st).
Proof.
  intros H P R J. apply (runs_writes _ _ _ _ R) in J. unfold analyze in H.
  apply rmap_Ok in H. destruct H as (s & H & <-).
  assert (X : reported x s).
  { eapply (block_reported n); [|reflexivity|exact H|exact P|exact J].
    intros m _. intros. eapply stmt_reported; eassumption. }
  unfold reported_modified. simpl. rewrite in_app_iff. destruct X as [X|[X|X]]; auto.
Qed.
