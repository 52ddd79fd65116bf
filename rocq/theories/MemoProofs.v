(** Lemmas about memoization. *)
Require Import List ZArith Bool Arith Lia Permutation.
Import ListNotations.
Require Import Verif.Base Verif.Loops Verif.TimestampModel Verif.MemoModel Verif.MemoSpec.
Local Open Scope nat_scope.

(** ** Induction over comparables *)

Section CompInd.
  Variable Q : comp -> Prop.
  Hypothesis Hn : forall k z, Q (CNum k z).
  Hypothesis Hs : forall s, Q (CStr s).
  Hypothesis Hb : forall s, Q (CBytes s).
  Hypothesis Hr : forall r, Q (CByteRef r).
  Hypothesis Ha : forall r, Q (CArr r).
  Hypothesis Hl : forall l, Forall Q l -> Q (CList l).
  Hypothesis Ht : forall l, Forall Q l -> Q (CSet l).
  Fixpoint comp_ind' (c : comp) : Q c :=
    let go := fix go (l : list comp) : Forall Q l :=
      match l with [] => Forall_nil Q | x :: l => Forall_cons x (comp_ind' x) (go l) end in
    match c with
    | CNum k z => Hn k z | CStr s => Hs s | CBytes s => Hb s | CByteRef r => Hr r
    | CArr r => Ha r | CList l => Hl l (go l) | CSet l => Ht l (go l)
    end.
End CompInd.

(** ** A comparable represents a value *)

Inductive represents (h : heap) : comp -> val -> Prop :=
| Re_num k z : represents h (CNum k z) (VNum k z)
| Re_str s : represents h (CStr s) (VStr s)
| Re_bytes s : represents h (CBytes s) (VBytes s)
| Re_ref r s : h r = OBytearray s -> represents h (CByteRef r) (VBytearray s)
| Re_seq cs v l : sequence v l -> Forall2 (represents h) cs l -> represents h (CList cs) v
| Re_set cs l : Forall2 (represents h) cs l -> represents h (CSet cs) (VSet l).

Definition seq_eq (h : heap) := fix go (l l' : list comp) : bool :=
  match l, l' with
  | [], [] => true
  | x :: l, y :: l' => (ceq h x y && go l l')%bool
  | _, _ => false
  end.

Lemma ceq_list h l l' : ceq h (CList l) (CList l') = seq_eq h l l'.
Proof. reflexivity. Qed.

Lemma sequence_not h c v l : represents h c v -> sequence v l ->
  exists cs, c = CList cs /\ exists l', sequence v l' /\ Forall2 (represents h) cs l'.
Proof. intros R S. destruct R; try contradiction; eauto 8. Qed.

Lemma Forall2_nth {A B} (R : A -> B -> Prop) l l' : Forall2 R l l' ->
  (forall x, In x l -> exists y, In y l' /\ R x y) /\
  (forall y, In y l' -> exists x, In x l /\ R x y).
Proof.
  induction 1 as [|x y l l' H F [I J]]; split; try (intros ? []).
  - subst. exists y. split; [now left|auto].
  - destruct (I x0 H0) as (z & Z & W). exists z. split; [now right|auto].
  - subst. exists x. split; [now left|auto].
  - destruct (J y0 H0) as (z & Z & W). exists z. split; [now right|auto].
Qed.

Lemma ceq_sound h h0 c : forall v c0 v0, represents h c v -> represents h0 c0 v0 -> frozen v0 ->
  ceq h c c0 = true -> similar v v0.
Proof.
  induction c as [k z|s|s|r|r|l IH|l IH] using comp_ind'; intros v c0 v0 R R0 F E.
  - inversion R; subst. destruct c0; try discriminate. apply Z.eqb_eq in E. subst.
    inversion R0; subst. constructor.
  - inversion R; subst. destruct c0; try discriminate. apply Nat.eqb_eq in E. subst.
    inversion R0; subst. constructor.
  - inversion R; subst. destruct c0; try discriminate.
    + simpl in E. apply Nat.eqb_eq in E. subst. inversion R0; subst.
      eapply Si_bytes; simpl; auto.
    + inversion R0; subst. inversion F.
  - inversion R; subst. simpl in E. rewrite H0 in E. destruct c0; try discriminate.
    + apply Nat.eqb_eq in E. subst. inversion R0; subst. eapply Si_bytes; simpl; auto.
    + inversion R0; subst. inversion F.
  - discriminate.
  - destruct c0 as [| | | | |l'|]; try discriminate. rewrite ceq_list in E.
    inversion R as [| | | |? ? vs S FA|]; subst. inversion R0 as [| | | |? ? vs0 S0 FA0|]; subst.
    assert (FV : Forall frozen vs0).
    { inversion F; subst; simpl in S0; try contradiction; subst; auto.
      destruct S0 as (d' & P & ->). apply Forall_forall. intros q Q. apply in_map_iff in Q.
      destruct Q as (p & <- & I). rewrite Forall_forall in H.
      destruct (H p) as [A B]; [eapply Permutation_in; [symmetry|]; eauto|].
      constructor. auto. }
    eapply Si_seq; eauto. clear S S0 R R0 F.
    revert l' vs vs0 FA FA0 FV E. induction IH as [|c l IHc IHl IHF]; intros l' vs vs0 FA FA0 FV E.
    + destruct l'; [|discriminate]. inversion FA; inversion FA0; subst. constructor.
    + destruct l' as [|c' l']; [discriminate|]. simpl in E. apply andb_true_iff in E.
      destruct E as [E1 E2]. inversion FA; inversion FA0; subst. inversion FV; subst.
      constructor; eauto.
  - destruct c0 as [| | | | | |l']; try discriminate. simpl in E. apply andb_true_iff in E.
    destruct E as [E1 E2]. rewrite forallb_forall in E1, E2.
    inversion R as [| | | | |? vs FA]; subst. inversion R0 as [| | | | |? vs0 FA0]; subst.
    inversion F as [| | | | |? FV|]; subst. rewrite Forall_forall in IH, FV.
    destruct (Forall2_nth _ _ _ FA) as [A1 A2]. destruct (Forall2_nth _ _ _ FA0) as [B1 B2].
    constructor.
    + intros x X. destruct (A2 x X) as (c & C & Rc). specialize (E1 c C).
      apply existsb_exists in E1. destruct E1 as (c' & C' & E).
      destruct (B1 c' C') as (y & Y & Ry). exists y. split; auto. eapply IH; eauto.
    + intros y Y. destruct (B2 y Y) as (c' & C' & Rc). specialize (E2 c' C').
      apply existsb_exists in E2. destruct E2 as (c & C & E).
      destruct (A1 c C) as (x & X & Rx). exists x. split; auto. eapply IH; eauto.
Qed.

(** ** Sorting *)

Lemma insert_perm h p l l' : insert h p l = Ok l' -> Permutation (p :: l) l'.
Proof.
  revert l'. induction l as [|q l IH]; simpl; intros l' H; [injection H as <-; auto|].
  destruct (key_lt h (fst p) (fst q)) as [b|]; [|discriminate]. simpl in H.
  destruct b; [injection H as <-; auto|].
  apply rmap_Ok in H. destruct H as (m & H & <-). apply IH in H.
  eapply perm_trans; [apply perm_swap|]. now constructor.
Qed.

Lemma sort_perm h l l' : sort h l = Ok l' -> Permutation l l'.
Proof.
  revert l'. induction l as [|p l IH]; simpl; intros l' H; [injection H as <-; auto|].
  apply rbind_Ok in H. destruct H as (m & H1 & H2). apply insert_perm in H2.
  eapply perm_trans; [|exact H2]. constructor. auto.
Qed.

(** ** What a comparable says *)

Definition good (h : heap) (r : nat) (c : comp) (e : eqf) : Prop :=
  (e = EqPy -> exists v, denotes h r v /\ represents h c v) /\ (e <> EqPy -> has_array h r).

Lemma elems_spec {A} cap (one : list nat -> A -> res (result * list nat)) (G : A -> comp -> eqf -> Prop) :
  (forall a seen c e n seen', one seen a = Ok (Some (c, e, n), seen') -> G a c e) ->
  forall l size cs es seen cs' es' n seen',
  elems cap one l size cs es seen = Ok (Some (cs', es', n), seen') ->
  exists c1 e1, cs' = cs ++ c1 /\ es' = es ++ e1 /\ length c1 = length e1 /\
    Forall2 (fun a ce => G a (fst ce) (snd ce)) l (combine c1 e1).
Proof.
  intros HG. induction l as [|a l IH]; simpl; intros size cs es seen cs' es' n seen' H.
  - injection H as <- <- <- <-. exists [], []. rewrite !app_nil_r. repeat split; auto. constructor.
  - apply rbind_Ok in H. destruct H as ([o s1] & H1 & H2). simpl in H2.
    destruct o as [[[c e] m]|]; [|discriminate].
    destruct (Nat.ltb cap (size + (m + 1))); [discriminate|].
    apply IH in H2. destruct H2 as (c1 & e1 & -> & -> & L & F).
    exists (c :: c1), (e :: e1). rewrite <- !app_assoc. simpl. split; auto. split; auto.
    split; [now f_equal|]. constructor; auto. simpl. eapply HG; eauto.
Qed.

Lemma all_eqpy es : forallb is_eqpy es = true -> forall e, In e es -> e = EqPy.
Proof.
  intros H e I. rewrite forallb_forall in H. specialize (H e I). destruct e; auto; discriminate.
Qed.

Lemma not_all_eqpy es : forallb is_eqpy es = false -> exists e, In e es /\ e <> EqPy.
Proof.
  induction es as [|e es IH]; simpl; [discriminate|]. intros H.
  destruct e; simpl in H; try (exists EqArr; split; [now left|discriminate]).
  - destruct (IH H) as (e & I & N). eauto.
  - eexists. split; [left; reflexivity|discriminate].
Qed.

(** The elements of a list or tuple. *)
Lemma elems_good h l c1 e1 : length c1 = length e1 ->
  Forall2 (fun a ce => good h a (fst ce) (snd ce)) l (combine c1 e1) ->
  (forallb is_eqpy e1 = true ->
     exists vs, Forall2 (denotes h) l vs /\ Forall2 (represents h) c1 vs) /\
  (forallb is_eqpy e1 = false -> exists x, In x l /\ has_array h x).
Proof.
  revert c1 e1. induction l as [|a l IH]; intros c1 e1 L F.
  - destruct c1, e1; simpl in *; try discriminate; inversion F.
    split; [exists []; auto|discriminate].
  - destruct c1 as [|c c1], e1 as [|e e1]; simpl in *; try discriminate; inversion F; subst.
    injection L as L. destruct (IH c1 e1 L H4) as [I J]. destruct H2 as [P N]. simpl in *.
    split.
    + intros E. apply andb_true_iff in E. destruct E as [E1 E2].
      destruct e; try discriminate. destruct (P eq_refl) as (v & D & R).
      destruct (I E2) as (vs & D2 & R2). exists (v :: vs). auto.
    + intros E. destruct (is_eqpy e) eqn:Ee.
      * destruct (J E) as (x & X & Y). eauto.
      * exists a. split; auto. apply N. intros ->. discriminate.
Qed.

Lemma finish_seq_inv r c e n : finish_seq r = Some (c, e, n) ->
  exists cs es, r = Some (cs, es, n) /\ c = CList cs /\
    e = if forallb is_eqpy es then EqPy else EqSeq es.
Proof. destruct r as [[[cs es] m]|]; simpl; [|discriminate]. intros [= <- <- <-]. eauto 6. Qed.

Lemma seq_good h l c1 e1 (P : list val -> val) r :
  (forall vs, sequence (P vs) vs) ->
  (forall vs, Forall2 (denotes h) l vs -> denotes h r (P vs)) ->
  (forall x, In x l -> has_array h x -> has_array h r) ->
  length c1 = length e1 ->
  Forall2 (fun a ce => good h a (fst ce) (snd ce)) l (combine c1 e1) ->
  good h r (CList c1) (if forallb is_eqpy e1 then EqPy else EqSeq e1).
Proof.
  intros S D A L F. destruct (elems_good h l c1 e1 L F) as [I J].
  destruct (forallb is_eqpy e1) eqn:E; split; try congruence.
  - intros _. destruct (I eq_refl) as (vs & V1 & V2). exists (P vs). split; auto.
    econstructor; eauto.
  - intros _. destruct (J eq_refl) as (x & X & Y). eauto.
Qed.

Lemma mk_good cap h f : forall seen r c e n seen',
  mk cap h f seen r = Ok (Some (c, e, n), seen') -> good h r c e.
Proof.
  induction f as [|f IH]; intros seen r c e n seen' H; [discriminate|].
  simpl in H. destruct (h r) as [k z|s|s|s|l|l|l|l|m|] eqn:O.
  - injection H as <- <- <- <-. split; [|congruence]. intros _. eexists.
    split; [eapply De_num; eauto|constructor].
  - injection H as <- <- <- <-. split; [|congruence]. intros _. eexists.
    split; [eapply De_str; eauto|constructor].
  - injection H as <- <- <- <-. split; [|congruence]. intros _. eexists.
    split; [eapply De_bytes; eauto|constructor].
  - injection H as <- <- <- <-. split; [|congruence]. intros _. eexists.
    split; [eapply De_bytearray; eauto|now constructor].
  - destruct (memb r seen); [discriminate|]. apply rmap_Ok in H.
    destruct H as ([o s1] & H & E). injection E as E1 E2. apply finish_seq_inv in E1.
    destruct E1 as (cs & es & Q & -> & ->). simpl in Q. subst o.
    apply (elems_spec cap (mk cap h f) (good h)) in H; [|intros; eapply IH; eauto].
    destruct H as (c1 & e1 & -> & -> & L & F). simpl.
    apply (seq_good h l c1 e1 VList); auto.
    + reflexivity.
    + intros vs V. econstructor; eauto.
    + intros x X Y. eapply Ha_list; eauto.
  - apply rmap_Ok in H.
    destruct H as ([o s1] & H & E). injection E as E1 E2. apply finish_seq_inv in E1.
    destruct E1 as (cs & es & Q & -> & ->). simpl in Q. subst o.
    apply (elems_spec cap (mk cap h f) (good h)) in H; [|intros; eapply IH; eauto].
    destruct H as (c1 & e1 & -> & -> & L & F). simpl.
    apply (seq_good h l c1 e1 VTuple); auto.
    + reflexivity.
    + intros vs V. econstructor; eauto.
    + intros x X Y. eapply Ha_tuple; eauto.
  - destruct (memb r seen); [discriminate|]. apply rbind_Ok in H.
    destruct H as ([o s1] & H & E). apply rmap_Ok in E. destruct E as (y & E & Q).
    simpl in E. injection Q as Q1 Q2. subst y. destruct o as [[[cs es] m]|]; [|discriminate].
    simpl in E. destruct (forallb is_eqpy es) eqn:EE; [|discriminate].
    destruct (forallb hashable cs); [|discriminate]. injection E as <- <- <-.
    apply (elems_spec cap (mk cap h f) (good h)) in H; [|intros; eapply IH; eauto].
    destruct H as (c1 & e1 & -> & -> & L & F). simpl in *.
    destruct (elems_good h l c1 e1 L F) as [I _]. destruct (I EE) as (vs & V1 & V2).
    split; [|congruence]. intros _. exists (VSet vs). split; econstructor; eauto.
  - destruct (memb r seen); [discriminate|]. apply rbind_Ok in H.
    destruct H as (l' & HS & H). apply sort_perm in HS. apply rmap_Ok in H.
    destruct H as ([o s1] & H & E). injection E as E1 E2. apply finish_seq_inv in E1.
    destruct E1 as (cs & es & Q & -> & ->). simpl in Q. subst o.
    set (G := fun (p : nat * nat) c e =>
      (e = EqPy -> exists q, denotes h (fst p) (fst q) /\ denotes h (snd p) (snd q) /\
         represents h c (VTuple [fst q; snd q])) /\
      (e <> EqPy -> has_array h (fst p) \/ has_array h (snd p))).
    apply (elems_spec cap _ G) in H.
    2:{ clear H. intros [k v] s0 c e n0 s2 H. cbv beta in H. cbn [fst snd] in H. apply rmap_Ok in H.
        destruct H as ([o s3] & H & E). injection E as E1 E3. apply finish_seq_inv in E1.
        destruct E1 as (cs0 & es0 & Q & -> & ->). simpl in Q. subst o.
        change (elems cap (mk cap h f) [k; v] 0 [] [] s0 = Ok (Some (cs0, es0, n0), s3)) in H.
        apply (elems_spec cap (mk cap h f) (good h) (fun a b c d e f0 X => IH b a c d e f0 X) [k; v])
          in H.
        destruct H as (c1 & e1 & -> & -> & L & F). simpl.
        destruct (elems_good h [k; v] c1 e1 L F) as [I J].
        destruct (forallb is_eqpy e1) eqn:EE; split; try congruence.
        - intros _. destruct (I eq_refl) as (vs & V1 & V2).
          inversion V1 as [|? v1 ? ? D1 V3]; subst. inversion V3 as [|? v2 ? ? D2 V4]; subst.
          inversion V4; subst. exists (v1, v2). simpl. split; auto. split; auto.
          econstructor; [reflexivity|auto].
        - intros _. destruct (J eq_refl) as (x & [<-|[<-|[]]] & Y); auto. }
    destruct H as (c1 & e1 & -> & -> & L & F). simpl.
    assert (K : (forallb is_eqpy e1 = true -> exists ds,
        Forall2 (fun p q => denotes h (fst p) (fst q) /\ denotes h (snd p) (snd q)) l' ds /\
        Forall2 (represents h) c1 (map (fun q => VTuple [fst q; snd q]) ds)) /\
      (forallb is_eqpy e1 = false -> exists p, In p l' /\ (has_array h (fst p) \/ has_array h (snd p)))).
    { clear HS O. revert c1 e1 L F. induction l' as [|p l' IHl]; intros c1 e1 L F.
      - destruct c1, e1; simpl in *; try discriminate; inversion F.
        split; [exists []; simpl; auto|discriminate].
      - destruct c1 as [|c c1], e1 as [|e e1]; simpl in *; try discriminate; inversion F; subst.
        injection L as L. destruct (IHl c1 e1 L H4) as [I J]. destruct H2 as [P N]. simpl in *.
        split.
        + intros E. apply andb_true_iff in E. destruct E as [E1 E3].
          destruct e; try discriminate. destruct (P eq_refl) as (q & D1 & D2 & R).
          destruct (I E3) as (ds & V1 & V2). exists (q :: ds). simpl. auto.
        + intros E. destruct (is_eqpy e) eqn:Ee.
          * destruct (J E) as (x & X & Y). eauto.
          * exists p. split; auto. apply N. intros ->. discriminate. }
    destruct K as [K1 K2]. destruct (forallb is_eqpy e1) eqn:EE; split; try congruence.
    + intros _. destruct (K1 eq_refl) as (ds & V1 & V2).
      assert (X : exists ds0, Permutation ds0 ds /\
        Forall2 (fun p q => denotes h (fst p) (fst q) /\ denotes h (snd p) (snd q)) l ds0).
      { clear -V1 HS. apply Permutation_sym in HS.
        revert ds V1. induction HS; intros ds V.
        - inversion V; subst. exists []. auto.
        - inversion V as [|? q ? ds' D V']; subst. destruct (IHHS ds' V') as (d0 & P & W).
          exists (q :: d0). auto.
        - inversion V as [|? q ? ds' D V']; subst. inversion V' as [|? q' ? ds2 D' V2]; subst.
          exists (q' :: q :: ds2). split; [constructor|auto].
        - destruct (IHHS1 ds V) as (d1 & P1 & W1). destruct (IHHS2 d1 W1) as (d2 & P2 & W2).
          exists d2. split; auto. eapply perm_trans; eauto. }
      destruct X as (ds0 & P & V0). exists (VDict ds0). split; [econstructor; eauto|].
      econstructor; [|exact V2]. simpl. eauto.
    + intros _. destruct (K2 eq_refl) as (p & I & A).
      assert (I' : In p l) by (eapply Permutation_in; [symmetry|]; eauto).
      destruct A; [eapply Ha_key|eapply Ha_val]; eauto.
  - destruct (memb r seen); [discriminate|]. injection H as <- <- <- <-.
    split; [discriminate|]. intros _. eapply Ha_here; eauto.
  - destruct (memb r seen); discriminate.
Qed.

(** ** Values are determined by objects *)

Section ValInd.
  Variable Q : val -> Prop.
  Hypothesis Hn : forall k z, Q (VNum k z).
  Hypothesis Hs : forall s, Q (VStr s).
  Hypothesis Hb : forall s, Q (VBytes s).
  Hypothesis Hr : forall s, Q (VBytearray s).
  Hypothesis Hl : forall l, Forall Q l -> Q (VList l).
  Hypothesis Ht : forall l, Forall Q l -> Q (VTuple l).
  Hypothesis He : forall l, Forall Q l -> Q (VSet l).
  Hypothesis Hd : forall l, Forall (fun p => Q (fst p) /\ Q (snd p)) l -> Q (VDict l).
  Fixpoint val_ind' (v : val) : Q v :=
    let go := fix go (l : list val) : Forall Q l :=
      match l with [] => Forall_nil Q | x :: l => Forall_cons x (val_ind' x) (go l) end in
    let god := fix god (l : list (val * val)) : Forall (fun p => Q (fst p) /\ Q (snd p)) l :=
      match l with
      | [] => Forall_nil _
      | x :: l => Forall_cons x (conj (val_ind' (fst x)) (val_ind' (snd x))) (god l)
      end in
    match v with
    | VNum k z => Hn k z | VStr s => Hs s | VBytes s => Hb s | VBytearray s => Hr s
    | VList l => Hl l (go l) | VTuple l => Ht l (go l) | VSet l => He l (go l)
    | VDict l => Hd l (god l)
    end.
End ValInd.

Lemma denotes_fun h v : forall r v', denotes h r v -> denotes h r v' -> v = v'.
Proof.
  assert (L : forall l, Forall (fun v => forall r v', denotes h r v -> denotes h r v' -> v = v') l ->
    forall rs l', Forall2 (denotes h) rs l -> Forall2 (denotes h) rs l' -> l = l').
  { induction 1; intros rs l' F F'; inversion F; subst; inversion F'; subst; auto.
    f_equal; eauto. }
  assert (LD : forall l, Forall (fun p => (forall r v', denotes h r (fst p) -> denotes h r v' -> fst p = v') /\
      (forall r v', denotes h r (snd p) -> denotes h r v' -> snd p = v')) l ->
    forall rs l', Forall2 (fun p q => denotes h (fst p) (fst q) /\ denotes h (snd p) (snd q)) rs l ->
      Forall2 (fun p q => denotes h (fst p) (fst q) /\ denotes h (snd p) (snd q)) rs l' -> l = l').
  { induction 1 as [|[a b] l [Ha Hb] FA IH]; intros rs l' F F'; inversion F; subst; inversion F'; subst; auto.
    f_equal; eauto. destruct y as [a' b']. simpl in *.
    match goal with A : _ /\ _, B : _ /\ _ |- _ => destruct A, B; f_equal; eauto end. }
  induction v using val_ind'; intros r v' D D'; inversion D; subst; inversion D'; subst; try congruence.
  - f_equal. eapply L; eauto. congruence.
  - f_equal. eapply L; eauto. congruence.
  - f_equal. eapply L; eauto. congruence.
  - f_equal. eapply LD; eauto. congruence.
Qed.

Lemma array_not_plain h r : has_array h r -> forall v, ~ denotes h r v.
Proof.
  assert (K : forall l vs x, Forall2 (denotes h) l vs -> In x l -> exists v, denotes h x v).
  { intros l vs x F I. destruct (Forall2_nth _ _ _ F) as [A _]. destruct (A x I) as (v & _ & D). eauto. }
  assert (K2 : forall l vs p, Forall2 (fun p q => denotes h (fst p) (fst q) /\ denotes h (snd p) (snd q))
      l vs -> In p l -> exists v w, denotes h (fst p) v /\ denotes h (snd p) w).
  { intros l vs x F I. destruct (Forall2_nth _ _ _ F) as [A _].
    destruct (A x I) as (v & _ & D1 & D2). eauto. }
  induction 1; intros v D; inversion D; subst; try congruence.
  - assert (l0 = l) by congruence. subst. destruct (K _ _ _ H3 H0) as (w & W). eapply IHhas_array; eauto.
  - assert (l0 = l) by congruence. subst. destruct (K _ _ _ H3 H0) as (w & W). eapply IHhas_array; eauto.
  - assert (l0 = l) by congruence. subst. destruct (K2 _ _ _ H3 H0) as (w & ? & W & ?).
    eapply IHhas_array; eauto.
  - assert (l0 = l) by congruence. subst. destruct (K2 _ _ _ H3 H0) as (w & ? & ? & W).
    eapply IHhas_array; eauto.
Qed.

(** ** Same value, same comparable *)

Definition alike (h0 h1 : heap) (a b : nat) : Prop :=
  exists v, frozen v /\ denotes h0 a v /\ denotes h1 b v.

Lemma alike_all h0 h1 l0 l1 vs : Forall2 (denotes h0) l0 vs -> Forall2 (denotes h1) l1 vs ->
  Forall frozen vs -> Forall2 (alike h0 h1) l0 l1.
Proof.
  intros F. revert l1. induction F; intros l1 F1 F2; inversion F1; subst; inversion F2; subst;
    constructor; auto. exists y. auto.
Qed.

Definition alike2 (h0 h1 : heap) (p q : nat * nat) : Prop :=
  alike h0 h1 (fst p) (fst q) /\ alike h0 h1 (snd p) (snd q).

Lemma key_lt_alike h0 h1 a b a' b' : alike h0 h1 a a' -> alike h0 h1 b b' ->
  key_lt h0 a b = key_lt h1 a' b'.
Proof.
  intros (v & Fv & D0 & D1) (w & Fw & E0 & E1). unfold key_lt.
  inversion D0; subst; inversion D1; subst; inversion E0; subst; inversion E1; subst;
    repeat match goal with H : ?h ?x = _ |- context [?h ?x] => rewrite H end; reflexivity.
Qed.

Lemma insert_alike h0 h1 p q l0 l1 l0' l1' : alike2 h0 h1 p q -> Forall2 (alike2 h0 h1) l0 l1 ->
  insert h0 p l0 = Ok l0' -> insert h1 q l1 = Ok l1' -> Forall2 (alike2 h0 h1) l0' l1'.
Proof.
  intros A F. revert l0' l1'. induction F as [|a b l0 l1 B F IH]; simpl; intros l0' l1' I J.
  - injection I as <-. injection J as <-. auto.
  - rewrite <- (key_lt_alike h0 h1 (fst p) (fst a)) in J; [|apply A|apply B].
    destruct (key_lt h0 (fst p) (fst a)) as [[]|]; simpl in *; try discriminate.
    + injection I as <-. injection J as <-. auto.
    + apply rmap_Ok in I. destruct I as (x & I & <-). apply rmap_Ok in J.
      destruct J as (y & J & <-). constructor; auto.
Qed.

Lemma sort_alike h0 h1 l0 l1 : Forall2 (alike2 h0 h1) l0 l1 -> forall l0' l1',
  sort h0 l0 = Ok l0' -> sort h1 l1 = Ok l1' -> Forall2 (alike2 h0 h1) l0' l1'.
Proof.
  induction 1 as [|a b l0 l1 B F IH]; simpl; intros l0' l1' I J.
  - injection I as <-. injection J as <-. auto.
  - apply rbind_Ok in I. destruct I as (x & I1 & I2). apply rbind_Ok in J.
    destruct J as (y & J1 & J2).
    exact (insert_alike _ _ _ _ _ _ _ _ B (IH _ _ I1 J1) I2 J2).
Qed.

Lemma elems_same {A} cap (one0 one1 : list nat -> A -> res (result * list nat)) (R : A -> A -> Prop) :
  (forall a b s0 s1 c0 e0 n0 s0' c1 e1 n1 s1', R a b -> one0 s0 a = Ok (Some (c0, e0, n0), s0') ->
     one1 s1 b = Ok (Some (c1, e1, n1), s1') -> c0 = c1) ->
  forall l0 l1, Forall2 R l0 l1 ->
  forall z0 z1 cs es0 es1 s0 s1 c0 e0 n0 s0' c1 e1 n1 s1',
  elems cap one0 l0 z0 cs es0 s0 = Ok (Some (c0, e0, n0), s0') ->
  elems cap one1 l1 z1 cs es1 s1 = Ok (Some (c1, e1, n1), s1') -> c0 = c1.
Proof.
  intros H l0 l1 F. induction F as [|a b l0 l1 B F IH];
    intros z0 z1 cs es0 es1 s0 s1 c0 e0 n0 s0' c1 e1 n1 s1' I J; simpl in I, J.
  - injection I as <- <- <- <-. injection J as <- <- <- <-. reflexivity.
  - apply rbind_Ok in I. destruct I as ([o t0] & I1 & I2). apply rbind_Ok in J.
    destruct J as ([o' t1] & J1 & J2). simpl in I2, J2.
    destruct o as [[[d0 f0] m0]|]; [|discriminate]. destruct o' as [[[d1 f1] m1]|]; [|discriminate].
    destruct (Nat.ltb cap (z0 + (m0 + 1))); [discriminate|].
    destruct (Nat.ltb cap (z1 + (m1 + 1))); [discriminate|].
    rewrite (H _ _ _ _ _ _ _ _ _ _ _ _ B I1 J1) in I2. eapply IH; eauto.
Qed.

Lemma mk_seq_inv cap h f l seen c e n seen' :
  rmap (fun x => (finish_seq (fst x), snd x)) (elems cap (mk cap h f) l 0 [] [] seen)
    = Ok (Some (c, e, n), seen') ->
  exists cs es, c = CList cs /\ elems cap (mk cap h f) l 0 [] [] seen = Ok (Some (cs, es, n), seen').
Proof.
  intros H. apply rmap_Ok in H. destruct H as ([o s1] & H & E). injection E as E1 E2.
  apply finish_seq_inv in E1. destruct E1 as (cs & es & Q & -> & ->). simpl in *. subst. eauto.
Qed.

Lemma mk_same cap h0 h1 f0 : forall f1 r0 r1 s0 s1 c0 e0 n0 s0' c1 e1 n1 s1',
  alike h0 h1 r0 r1 ->
  mk cap h0 f0 s0 r0 = Ok (Some (c0, e0, n0), s0') ->
  mk cap h1 f1 s1 r1 = Ok (Some (c1, e1, n1), s1') -> c0 = c1.
Proof.
  induction f0 as [|f0 IH]; intros f1 r0 r1 s0 s1 c0 e0 n0 s0' c1 e1 n1 s1' (v & Fv & D0 & D1) I J;
    [discriminate|].
  destruct f1 as [|f1]; [discriminate|].
  assert (EL : forall l0 l1 t0 t1 a0 a1 b0 b1 m0 m1 t0' t1', Forall2 (alike h0 h1) l0 l1 ->
     elems cap (mk cap h0 f0) l0 0 [] [] t0 = Ok (Some (a0, b0, m0), t0') ->
     elems cap (mk cap h1 f1) l1 0 [] [] t1 = Ok (Some (a1, b1, m1), t1') -> a0 = a1).
  { intros. eapply (elems_same cap (mk cap h0 f0) (mk cap h1 f1) (alike h0 h1)); eauto. }
  cbn [mk] in I, J.
  inversion D0; subst; inversion D1; subst;
    repeat match goal with H : ?h ?x = _, K : context [match ?h ?x with _ => _ end] |- _ =>
      rewrite H in K end; try congruence.
  - inversion Fv.
  - destruct (memb r0 s0); [discriminate|]. destruct (memb r1 s1); [discriminate|].
    apply mk_seq_inv in I. destruct I as (a0 & b0 & -> & I).
    apply mk_seq_inv in J. destruct J as (a1 & b1 & -> & J).
    f_equal. inversion Fv; subst. eapply EL; [|exact I|exact J]. eapply alike_all; eauto.
  - apply mk_seq_inv in I. destruct I as (a0 & b0 & -> & I).
    apply mk_seq_inv in J. destruct J as (a1 & b1 & -> & J).
    f_equal. inversion Fv; subst. eapply EL; [|exact I|exact J]. eapply alike_all; eauto.
  - destruct (memb r0 s0); [discriminate|]. destruct (memb r1 s1); [discriminate|].
    apply rbind_Ok in I. destruct I as ([o t0] & I & I2). apply rmap_Ok in I2.
    destruct I2 as (y & I2 & Q). injection Q as Q1 Q2. subst y. simpl in I2.
    apply rbind_Ok in J. destruct J as ([o' t1] & J & J2). apply rmap_Ok in J2.
    destruct J2 as (y & J2 & Q). injection Q as Q1 Q3. subst y. simpl in J2.
    destruct o as [[[a0 b0] m0]|]; [|discriminate]. destruct o' as [[[a1 b1] m1]|]; [|discriminate].
    simpl in I2, J2.
    destruct (forallb is_eqpy b0); [|discriminate]. destruct (forallb hashable a0); [|discriminate].
    destruct (forallb is_eqpy b1); [|discriminate]. destruct (forallb hashable a1); [|discriminate].
    injection I2 as <- <- <-. injection J2 as <- <- <-.
    f_equal. inversion Fv; subst. eapply EL; [|exact I|exact J]. eapply alike_all; eauto.
  - destruct (memb r0 s0); [discriminate|]. destruct (memb r1 s1); [discriminate|].
    apply rbind_Ok in I. destruct I as (k0 & SI & I). apply rbind_Ok in J.
    destruct J as (k1 & SJ & J).
    assert (A : Forall2 (alike2 h0 h1) l l0).
    { inversion Fv as [| | | | | |? FF]; subst.
      repeat match goal with X : Forall2 (fun p q => denotes ?h _ _ /\ _) _ _ |- _ =>
        revert X end.
      clear -FF. intros F0. revert FF l0. induction F0 as [|p q l vs [A B] F0 IH];
        intros FF l0 F1; inversion F1 as [|p' ? l' ? [A' B'] F1']; subst; auto.
      inversion FF as [|? ? [C D] FF']; subst. constructor; auto.
      split; [exists (fst q)|exists (snd q)]; auto. }
    pose proof (sort_alike _ _ _ _ A _ _ SI SJ) as A'.
    apply rmap_Ok in I. destruct I as ([o t0] & I & Q). injection Q as Q1 Q2.
    apply finish_seq_inv in Q1. destruct Q1 as (a0 & b0 & Q & -> & ->). simpl in Q. subst o.
    apply rmap_Ok in J. destruct J as ([o t1] & J & Q). injection Q as Q1 Q3.
    apply finish_seq_inv in Q1. destruct Q1 as (a1 & b1 & Q & -> & ->). simpl in Q. subst o.
    f_equal. eapply (elems_same cap); [|exact A'|exact I|exact J].
    clear -EL. cbv beta. intros [p p'] [q q'] s0 s1 c0 e0 n0 s0' c1 e1 n1 s1' [A1 A2] I J.
    apply mk_seq_inv in I. destruct I as (a0 & b0 & -> & I).
    apply mk_seq_inv in J. destruct J as (a1 & b1 & -> & J).
    f_equal. eapply EL; [|exact I|exact J]. simpl. auto.
Qed.

Lemma ceq_refl h h' c : forall v, represents h c v -> frozen v -> ceq h' c c = true.
Proof.
  induction c as [k z|s|s|r|r|l IH|l IH] using comp_ind'; intros v R F; simpl.
  - apply Z.eqb_refl.
  - apply Nat.eqb_refl.
  - apply Nat.eqb_refl.
  - inversion R; subst. inversion F.
  - inversion R.
  - change (seq_eq h' l l = true). inversion R as [| | | |? ? vs S FA|]; subst.
    assert (FV : Forall frozen vs).
    { inversion F; subst; simpl in S; try contradiction; subst; auto.
      destruct S as (d' & P & ->). apply Forall_forall. intros q Q. apply in_map_iff in Q.
      destruct Q as (p & <- & I). rewrite Forall_forall in H.
      destruct (H p) as [A B]; [eapply Permutation_in; [symmetry|]; eauto|].
      constructor. auto. }
    clear S R F. revert vs FA FV. induction IH as [|c l IHc IHl IHF]; intros vs FA FV; auto.
    inversion FA; subst. inversion FV; subst. simpl. apply andb_true_iff. split; eauto.
  - inversion R as [| | | | |? vs FA]; subst. inversion F as [| | | | |? FV|]; subst.
    destruct (Forall2_nth _ _ _ FA) as [A1 A2]. rewrite Forall_forall in IH, FV.
    apply andb_true_iff. split; apply forallb_forall; intros x X; apply existsb_exists; exists x;
      (split; [auto|]); destruct (A1 x X) as (y & Y & Ry); eapply IH; eauto.
Qed.

(** ** The test of one input *)

Lemma comparable_inv cap h f r c e : comparable cap h f r = Ok (Some (c, e)) ->
  exists n s, mk cap h f [] r = Ok (Some (c, e, n), s) /\ n <= cap.
Proof.
  unfold comparable. intros H. apply rmap_Ok in H. destruct H as ([o s] & H & E). simpl in E.
  destruct o as [[[c' e'] n]|]; [|discriminate]. destruct (Nat.ltb cap n) eqn:L; [discriminate|].
  injection E as <- <-. apply Nat.ltb_ge in L. eauto.
Qed.

Definition entry_of (P : params) (s : state) (i : minput) : Prop :=
  in_ts i = ts_of s (in_sym i) /\ in_mem i = mem_of s (in_sym i) (obj_of s (in_sym i)) /\
  in_obj i = obj_of s (in_sym i) /\
  exists o, comparable (p_cap P) (heap_of s) (p_fuel P) (obj_of s (in_sym i)) = Ok o /\
            in_comp i = option_map fst o.

Lemma ts_eqb_eq a b : ts_eqb a b = true -> a = b.
Proof.
  unfold ts_eqb. destruct a, b. simpl. rewrite andb_true_iff, !Z.eqb_eq. intros [-> ->]. auto.
Qed.

Lemma check_sound P s0 s i : entry_of P s0 i -> check P s i = Ok true ->
  unchanged P s0 s (in_sym i).
Proof.
  intros (T & M & B & o & C & E) H. unfold unchanged. rewrite C. unfold check in H. rewrite E in H.
  destruct o as [[c0 e0]|]; simpl in H.
  - intros v0 D0 F0. apply rbind_Ok in H. destruct H as (o & C1 & H).
    destruct o as [[c e]|]; [|discriminate].
    apply comparable_inv in C. destruct C as (n0 & t0 & C & _).
    apply comparable_inv in C1. destruct C1 as (n & t & C1 & _).
    apply mk_good in C. apply mk_good in C1. destruct C as [G0 N0]. destruct C1 as [G N].
    assert (e0 = EqPy).
    { destruct e0; auto; exfalso; eapply array_not_plain; try apply N0; eauto; discriminate. }
    destruct (G0 H0) as (w & D & R0). rewrite <- (denotes_fun _ _ _ _ D D0) in *.
    destruct e; [left|right; apply N; discriminate|right; apply N; discriminate].
    destruct (G eq_refl) as (v & Dv & R). exists v. split; auto.
    simpl in H. injection H as H. eapply ceq_sound; eauto.
  - injection H as H. apply orb_true_iff in H. destruct H as [H|H].
    + apply orb_true_iff in H. destruct H as [H|H]; auto. right. left. rewrite T in H.
      now apply Z.eqb_eq.
    + right. right. apply andb_true_iff in H. destruct H as [H1 H2]. apply Nat.eqb_eq in H1.
      split; [congruence|]. destruct (mem_of s (in_sym i) (obj_of s (in_sym i))) as [m|]; [|discriminate].
      exists m. split; auto. apply orb_true_iff in H2. destruct H2 as [H2|H2]; apply ts_eqb_eq in H2.
      * left. congruence.
      * right. rewrite M in H2. destruct (mem_of s0 (in_sym i) (obj_of s0 (in_sym i))); subst; auto.
Qed.

Lemma check_all_true P s l : check_all P s l = Ok true -> forall i, In i l -> check P s i = Ok true.
Proof.
  induction l as [|j l IH]; simpl; intros H i; [intros []|].
  apply rbind_Ok in H. destruct H as (b & H1 & H2). destruct b; [|discriminate].
  intros [<-|I]; auto.
Qed.

Lemma check_all_complete P s l : (forall i, In i l -> check P s i = Ok true) ->
  check_all P s l = Ok true.
Proof.
  induction l as [|j l IH]; simpl; intros H; auto. rewrite (H j) by auto. simpl. apply IH. auto.
Qed.

Lemma inputs_spec P s ctr syms : forall acc ins, inputs P s ctr syms acc = Ok (Some ins) ->
  (forall i, In i acc -> entry_of P s i /\ cell_num (ts_of s (in_sym i)) <> Z.of_nat ctr /\
     global_of s (in_sym i) = true) ->
  (forall i, In i ins -> entry_of P s i /\ cell_num (ts_of s (in_sym i)) <> Z.of_nat ctr /\
     global_of s (in_sym i) = true /\ (In i acc \/ In (in_sym i) syms)) /\
  (forall i, In i acc -> In i ins) /\
  (forall x, In x syms -> global_of s x = true -> cell_num (ts_of s x) <> Z.of_nat ctr ->
     exists i, In i ins /\ in_sym i = x).
Proof.
  induction syms as [|x l IH]; simpl; intros acc ins H A.
  - injection H as <-. split; [|split; [auto|intros ? []]]. intros i I.
    destruct (A i I) as (A1 & A2 & A3). auto.
  - destruct (existsb _ acc) eqn:E.
    { destruct (IH _ _ H A) as (I1 & I2 & I3). split; [|split]; auto.
      - intros i I. destruct (I1 i I) as (? & ? & ? & [?|?]); auto 6.
      - intros y [<-|Y]; auto. intros _ _. apply existsb_exists in E. destruct E as (i & I & Q).
        apply Nat.eqb_eq in Q. eauto. }
    destruct (Z.eqb_spec (cell_num (ts_of s x)) (Z.of_nat ctr)) as [Q|Q].
    { destruct (IH _ _ H A) as (I1 & I2 & I3). split; [|split]; auto.
      - intros i I. destruct (I1 i I) as (? & ? & ? & [?|?]); auto 6.
      - intros y [<-|Y]; auto. intros _ N. congruence. }
    destruct (global_of s x) eqn:G; simpl in H.
    2:{ destruct (IH _ _ H A) as (I1 & I2 & I3). split; [|split]; auto.
      - intros i I. destruct (I1 i I) as (? & ? & ? & [?|?]); auto 6.
      - intros y [<-|Y]; auto. intros N. congruence. }
    destruct (Z.ltb _ _); [discriminate|].
    apply rbind_Ok in H. destruct H as (o & C & H).
    destruct (IH _ _ H) as (I1 & I2 & I3).
    { intros i I. apply in_app_iff in I. destruct I as [I|[<-|[]]]; auto. simpl.
      split; [|auto]. red. simpl. eauto 6. }
    split; [|split].
    + intros i I. destruct (I1 i I) as (B1 & B2 & B3 & B4). split; auto. split; auto. split; auto.
      destruct B4 as [B4|B4]; [|auto]. apply in_app_iff in B4. destruct B4 as [B4|[<-|[]]]; auto.
    + intros i I. apply I2. apply in_app_iff. auto.
    + intros y [<-|Y]; auto. intros _ _. eexists. split; [apply I2; apply in_app_iff; right; left; reflexivity|].
      reflexivity.
Qed.

(** ** The table *)

Definition made_by (P : params) (r : run) (e : mexec) : Prop :=
  r_err r = false /\ ex_ctr e = r_ctr r /\
  inputs P (r_state r) (r_ctr r) (r_syms r) [] = Ok (Some (ex_in e)) /\
  ex_out e = outputs (r_state r) (r_shallow r) (r_updated r).

Lemma In_dvals {V} (d : dict V) v : In v (dvals d) -> exists k, In (k, v) d.
Proof. unfold dvals. intros H. apply in_map_iff in H. destruct H as ([k w] & <- & I). eauto. Qed.

Lemma In_dset {V} (d : dict V) k v k' v' : In (k', v') (dset d k v) ->
  (k' = k /\ v' = v) \/ In (k', v') d.
Proof.
  induction d as [|[k0 v0] d IH]; simpl.
  - intros [[= -> ->]|[]]; auto.
  - destruct (Nat.eqb_spec k k0); simpl; intros [[= -> ->]|I]; auto.
    destruct (IH I) as [?|?]; auto.
Qed.

Lemma tables_sound P l t : tables P l t -> forall text d e, dget t text = Some d -> In e (dvals d) ->
  exists r, In r l /\ r_text r = text /\ made_by P r e.
Proof.
  induction 1 as [|l t r t' T IH M N]; intros text d e G I; [discriminate|].
  assert (K : dget t text = Some d -> exists r0, In r0 (l ++ [r]) /\ r_text r0 = text /\ made_by P r0 e).
  { intros G'. destruct (IH _ _ _ G' I) as (r0 & A & B). exists r0. split; auto.
    apply in_app_iff. auto. }
  unfold memoize in M. destruct (r_err r) eqn:E; [injection M as <-; auto|].
  apply rmap_Ok in M. destruct M as (o & M & Q). destruct o as [ins|]; subst; auto.
  rewrite dget_dset in G. destruct (Nat.eqb_spec text (r_text r)) as [->|]; [|auto].
  injection G as <-. apply In_dvals in I. destruct I as (k & I). apply In_dset in I.
  destruct I as [[-> ->]|I].
  - exists r. split; [apply in_app_iff; right; now left|]. split; auto. red. auto.
  - destruct (dget t (r_text r)) as [d0|] eqn:D; [|destruct I].
    destruct (IH _ _ e D) as (r0 & A & B).
    { unfold dvals. apply in_map_iff. exists (k, e). auto. }
    exists r0. split; auto. apply in_app_iff. auto.
Qed.

Lemma inputs_err_keep P t s err text ctr syms sh up t' : memoize P t s err text ctr syms sh up = Ok t' ->
  t' = t \/ exists ins, err = false /\ inputs P s ctr syms [] = Ok (Some ins) /\
    t' = dset t text (dset (match dget t text with Some d => d | None => [] end) ctr
                        (mkExec ins (outputs s sh up) ctr)).
Proof.
  unfold memoize. destruct err; [intros [= <-]; auto|]. intros M. apply rmap_Ok in M.
  destruct M as (o & M & Q). destruct o as [ins|]; subst; auto. right. eauto.
Qed.

(** Every recorded run is in the table. *)
Lemma tables_complete P l t : tables P l t -> forall r ins, In r l -> r_err r = false ->
  inputs P (r_state r) (r_ctr r) (r_syms r) [] = Ok (Some ins) ->
  exists d e, dget t (r_text r) = Some d /\ In e (dvals d) /\ ex_ctr e = r_ctr r /\ ex_in e = ins.
Proof.
  intros T r ins.
  enough (K : In r l -> r_err r = false ->
    inputs P (r_state r) (r_ctr r) (r_syms r) [] = Ok (Some ins) ->
    exists d e, dget t (r_text r) = Some d /\ dget d (r_ctr r) = Some e /\
      ex_ctr e = r_ctr r /\ ex_in e = ins).
  { intros I E H. destruct (K I E H) as (d & e & A & B & C). exists d, e. split; auto. split; auto.
    apply dget_In in B. unfold dvals. apply in_map_iff. exists (r_ctr r, e). auto. }
  induction T as [|l t q t' T IH M N]; intros I E H; [destruct I|].
  apply in_app_iff in I. destruct I as [I|[<-|[]]].
  - destruct (IH I E H) as (d & e & A & B & C). specialize (N r I).
    apply inputs_err_keep in M. destruct M as [->|(ins' & _ & _ & ->)]; [eauto|].
    rewrite dget_dset. destruct (Nat.eqb_spec (r_text r) (r_text q)) as [Q|].
    + rewrite <- Q, A. eexists. exists e. split; [reflexivity|]. rewrite dget_dset_other by lia. auto.
    + eauto.
  - unfold memoize in M. rewrite E, H in M. simpl in M. injection M as <-.
    rewrite dget_dset_same. eexists. eexists.
    split; [reflexivity|]. rewrite dget_dset_same. auto.
Qed.

Lemma find_run_Some P s ctr l e : find_run P s ctr l = Ok (Some e) ->
  In e l /\ ex_ctr e < ctr /\ check_all P s (ex_in e) = Ok true.
Proof.
  induction l as [|q l IH]; simpl; [discriminate|].
  destruct (Nat.leb_spec ctr (ex_ctr q)).
  - intros H'. destruct (IH H') as (A & B). auto.
  - intros H'. apply rbind_Ok in H'. destruct H' as (b & H1 & H2). destruct b.
    + injection H2 as <-. auto.
    + destruct (IH H2) as (A & B). auto.
Qed.

Lemma find_run_None P s ctr l : find_run P s ctr l = Ok None -> forall e, In e l ->
  ctr <= ex_ctr e \/ check_all P s (ex_in e) = Ok false.
Proof.
  induction l as [|q l IH]; simpl; intros H e I; [destruct I|].
  destruct (Nat.leb_spec ctr (ex_ctr q)).
  - destruct I as [<-|I]; auto.
  - apply rbind_Ok in H. destruct H as (b & H1 & H2). destruct b; [discriminate|].
    destruct I as [<-|I]; auto.
Qed.

Lemma check_complete P s0 s i : entry_of P s0 i -> same_again P s0 s (in_sym i) ->
  check P s i = Ok true \/ exists x, check P s i = Err x.
Proof.
  intros (T & M & B & o & C & E) H. unfold same_again in H. rewrite C in H. unfold check. rewrite E.
  destruct o as [[c0 e0]|]; simpl.
  - destruct H as [(v & Fv & D0 & D1) N].
    destruct (comparable (p_cap P) (heap_of s) (p_fuel P) (obj_of s (in_sym i))) as [[[c e]|]|x] eqn:C1;
      simpl; [|congruence|eauto].
    left. apply comparable_inv in C. destruct C as (n0 & t0 & C & _).
    apply comparable_inv in C1. destruct C1 as (n & t & C1 & _).
    assert (c0 = c) by (eapply mk_same; [|exact C|exact C1]; exists v; auto). subst c0.
    apply mk_good in C1. destruct C1 as [G N1].
    assert (e = EqPy) by (destruct e; auto; exfalso; eapply array_not_plain; try apply N1; eauto; discriminate).
    subst. simpl. destruct (G eq_refl) as (w & Dw & R). rewrite (denotes_fun _ _ _ _ Dw D1) in R.
    f_equal. eapply ceq_refl; eauto.
  - left. f_equal. destruct H as [H|H]; [rewrite H; auto|].
    rewrite T, <- H, Z.eqb_refl. rewrite orb_true_r. auto.
Qed.

Lemma check_all_same P s l : (forall i, In i l -> check P s i = Ok true \/ exists x, check P s i = Err x) ->
  check_all P s l <> Ok false.
Proof.
  induction l as [|i l IH]; simpl; intros H; [discriminate|].
  destruct (H i) as [E|[x E]]; auto; rewrite E; simpl; [|discriminate]. apply IH. auto.
Qed.

(** ** Putting outputs back *)

Lemma restore_spec (s0 : state) shallow ctr : forall up s,
  (forall x, obj_of (fold_left (fun s o => put_back s ctr o) (outputs s0 shallow up) s) x =
     if (memb x up && global_of s0 x)%bool then obj_of s0 x else obj_of s x) /\
  (forall x, ts_of (fold_left (fun s o => put_back s ctr o) (outputs s0 shallow up) s) x =
     if (memb x up && global_of s0 x)%bool then mkTs (Z.of_nat ctr) (stmt_num (shallow x)) else ts_of s x) /\
  heap_of (fold_left (fun s o => put_back s ctr o) (outputs s0 shallow up) s) = heap_of s.
Proof.
  unfold outputs. induction up as [|y up IH]; simpl; intros s; auto.
  destruct (global_of s0 y) eqn:G; simpl.
  - destruct (IH (put_back s ctr (mkOut y (shallow y) (obj_of s0 y)))) as (A & B & C).
    split; [|split; [|exact C]].
    + intros x. rewrite A. simpl. destruct (Nat.eqb_spec x y) as [->|N].
      * rewrite G. simpl. destruct (memb y up); auto.
      * reflexivity.
    + intros x. rewrite B. simpl. destruct (Nat.eqb_spec x y) as [->|N].
      * rewrite G. simpl. destruct (memb y up); auto.
      * reflexivity.
  - destruct (IH s) as (A & B & C). split; [|split; [|exact C]].
    + intros x. rewrite A. destruct (Nat.eqb_spec x y) as [->|N].
      * rewrite G, !andb_false_r. auto.
      * reflexivity.
    + intros x. rewrite B. destruct (Nat.eqb_spec x y) as [->|N].
      * rewrite G, !andb_false_r. auto.
      * reflexivity.
Qed.

(** ** Rigid values *)

Lemma similar_rigid v : forall v', similar v v' -> rigid v -> rigid v' -> v = v'.
Proof.
  induction v as [k z|s|s|s|l IH|l IH|l IH|l IH] using val_ind'; intros v' S R R'; inversion R; subst.
  - inversion S as [? ? ?| |? ? ? I J|? ? ? ? Q|]; subst; [inversion R'; subst; auto| |destruct Q].
    destruct I as [I|[I|[]]]; discriminate.
  - inversion S as [| |? ? ? I J|? ? ? ? Q|]; subst; auto; [|destruct Q].
    destruct I as [I|[I|[]]]; discriminate.
  - inversion S as [| |? ? ? I J|? ? ? ? Q|]; subst; [|destruct Q].
    destruct I as [I|[I|[]]]; [|discriminate]. injection I as <-.
    destruct J as [J|[J|[]]]; subst; auto. inversion R'.
  - inversion S as [| |? ? ? I J|? ? l1 l2 Q Q' F|]; subst.
    { destruct I as [I|[I|[]]]; discriminate. }
    simpl in Q. subst l1. inversion R'; subst; simpl in Q'; try contradiction. subst l2.
    f_equal. clear -IH F H0 H. revert l0 F H. induction IH as [|v l Hv IHl IHF];
      intros l0 F H; inversion F; subst; auto. inversion H0; subst. inversion H; subst. f_equal; auto.
Qed.

(** ** Termination *)

Lemma elems_total {A} cap (one : list nat -> A -> res (result * list nat)) (Q : list nat -> Prop) :
  forall l, (forall a seen, In a l -> Q seen -> exists o s', one seen a = Ok (o, s') /\ incl seen s' /\ Q s') ->
  forall z cs es seen, Q seen -> exists o s', elems cap one l z cs es seen = Ok (o, s') /\ incl seen s' /\ Q s'.
Proof.
  induction l as [|a l IH]; simpl; intros H z cs es seen S; [eauto using incl_refl|].
  destruct (H a seen) as (o & s' & E & I & S'); auto. rewrite E. simpl.
  destruct o as [[[c e] n]|]; [|eauto]. destruct (Nat.ltb cap (z + (n + 1))); [eauto|].
  destruct (IH (fun b t X Y => H b t (or_intror X) Y) (z + (n + 1)) (cs ++ [c]) (es ++ [e]) s' S') as (o' & s'' & E' & I' & S'').
  exists o', s''. split; auto. split; auto. eapply incl_tran; eauto.
Qed.

Lemma insert_total h p l : (forall q, In q l -> exists b, key_lt h (fst p) (fst q) = Ok b) ->
  exists l', insert h p l = Ok l'.
Proof.
  induction l as [|q l IH]; simpl; intros H; [eauto|].
  destruct (H q) as (b & E); auto. rewrite E. simpl. destruct b; [eauto|].
  destruct IH as (l' & E'); auto. rewrite E'. simpl. eauto.
Qed.

Lemma sort_total h l : (forall p q, In p l -> In q l -> exists b, key_lt h (fst p) (fst q) = Ok b) ->
  exists l', sort h l = Ok l'.
Proof.
  induction l as [|p l IH]; simpl; intros H; [eauto|].
  destruct IH as (l1 & E); auto. rewrite E. simpl. apply insert_total. intros q Q. apply H; auto.
  right. apply sort_perm in E. eapply Permutation_in; [symmetry|]; eauto.
Qed.

Definition bound (rank : nat -> nat) (U : list nat) : nat := list_max (map rank U).

Lemma bound_le rank U x : In x U -> rank x <= bound rank U.
Proof.
  intros I. unfold bound. assert (H : Forall (fun k => k <= list_max (map rank U)) (map rank U)).
  { apply list_max_le. auto. }
  rewrite Forall_forall in H. apply H. apply in_map. auto.
Qed.

Lemma mk_atom cap h f seen r : f > 0 -> atom (h r) ->
  exists c, mk cap h f seen r = Ok (Some (c, EqPy, 1), seen) /\ hashable c = true.
Proof.
  destruct f; [lia|]. intros _. simpl. destruct (h r); simpl; try contradiction; eauto.
Qed.

Lemma elems_atoms cap h f l : f > 0 -> (forall x, In x l -> atom (h x)) -> forall z cs es seen,
  forallb is_eqpy es = true -> forallb hashable cs = true ->
  elems cap (mk cap h f) l z cs es seen = Ok (None, seen) \/
  exists cs' es' n, elems cap (mk cap h f) l z cs es seen = Ok (Some (cs', es', n), seen) /\
    forallb is_eqpy es' = true /\ forallb hashable cs' = true.
Proof.
  intros F. induction l as [|x l IH]; simpl; intros H z cs es seen E C; [eauto 8|].
  destruct (mk_atom cap h f seen x F) as (c & -> & K); auto. simpl.
  destruct (Nat.ltb cap (z + 2)); [auto|]. apply IH; auto.
  - rewrite forallb_app, E. reflexivity.
  - rewrite forallb_app, C. simpl. now rewrite K.
Qed.

Lemma unvisited_sadd U r seen : In r U -> ~ In r seen -> unvisited U (sadd r seen) < unvisited U seen.
Proof.
  intros I N. apply (unvisited_lt (fun _ => [])) with r; auto.
  - intros y Y. apply In_sadd. auto.
  - apply In_sadd. auto.
Qed.

Lemma mk_total cap h U rank : (forall r x, In r U -> In x (contents (h r)) -> In x U) ->
  (forall r l x, h r = OTuple l -> In x l -> rank x < rank r) -> tidy h U ->
  forall f seen r, In r U -> unvisited U seen * (bound rank U + 1) + rank r < f ->
  exists o s', mk cap h f seen r = Ok (o, s') /\ incl seen s'.
Proof.
  intros CL RK TI. set (K := bound rank U + 1) in *.
  induction f as [|f IH]; intros seen r I F; [lia|].
  assert (SEQ : forall n, n <= f -> forall l s, (forall x, In x l -> In x U /\ rank x < n - unvisited U s * K) ->
    exists o s', elems cap (mk cap h f) l 0 [] [] s = Ok (o, s') /\ incl s s').
  { intros n Hn l s H.
    destruct (elems_total cap (mk cap h f) (fun t => incl s t) l) with (z := 0) (cs := @nil comp)
      (es := @nil eqf) (seen := s) as (o & s' & E & I' & _); eauto using incl_refl.
    intros a t Ia It. destruct (H a Ia) as [Ua Ra].
    destruct (IH t a Ua) as (o & s' & E & I').
    { pose proof (unvisited_mono U s t It) as M. nia. }
    exists o, s'. split; auto. split; auto. eapply incl_tran; eauto. }
  assert (NEW : memb r seen = false -> forall x, In x U -> rank x < f - unvisited U (sadd r seen) * K).
  { intros M x Ux. apply memb_nIn in M.
    assert (L : unvisited U (sadd r seen) < unvisited U seen).
    { apply unvisited_sadd; auto. }
    pose proof (bound_le rank U x Ux). unfold K in *. nia. }
  assert (IN : incl seen (sadd r seen)) by (intros y Y; apply In_sadd; auto).
  pose proof (TI r I) as T. pose proof (CL r) as C. cbn [mk].
  destruct (h r) as [k z|s|s|s|l|l|l|l|n|] eqn:O; simpl in C; eauto using incl_refl.
  - destruct (memb r seen) eqn:M; [eauto using incl_refl|].
    destruct (SEQ f (le_n f) l (sadd r seen)) as (o & s' & E & I'); [split; auto|].
    rewrite E. simpl. eexists. eexists. split; [reflexivity|]. eapply incl_tran; eauto.
  - destruct (SEQ f (le_n f) l seen) as (o & s' & E & I').
    { intros x X. split; [auto|]. specialize (RK r l x O X). lia. }
    rewrite E. simpl. eauto.
  - destruct (memb r seen) eqn:M; [eauto using incl_refl|].
    assert (f > 0).
    { destruct f; [|lia]. exfalso.
      assert (L : unvisited U (sadd r seen) < unvisited U seen).
      { apply memb_nIn in M. apply unvisited_sadd; auto. }
      unfold K in F. nia. }
    destruct (elems_atoms cap h f l H T 0 [] [] (sadd r seen)) as [E|(cs & es & m & E & A & B)]; auto;
      rewrite E; simpl; [eauto|]. rewrite A, B. simpl. eauto.
  - destruct (memb r seen) eqn:M; [eauto using incl_refl|].
    destruct (sort_total h l) as (l' & SO).
    { intros p q Ip Iq. unfold key_lt. destruct T as [T|[T|T]].
      - destruct (T p Ip) as (? & ? & ->). destruct (T q Iq) as (? & ? & ->). eauto.
      - destruct (T p Ip) as (? & ->). destruct (T q Iq) as (? & ->). eauto.
      - destruct (T p Ip) as (? & ->). destruct (T q Iq) as (? & ->). eauto. }
    rewrite SO. cbn [rbind]. apply sort_perm in SO.
    match goal with |- context [elems cap ?g l' 0 [] [] ?t] =>
      destruct (elems_total cap g (fun t' => incl t t') l') with (z := 0) (cs := @nil comp)
        (es := @nil eqf) (seen := t) as (o & s' & E & I' & _) end; auto using incl_refl.
    { intros p t Ip It. cbv beta.
      assert (Il : In p l) by (eapply Permutation_in; [symmetry|]; eauto).
      destruct (SEQ f (le_n f) [fst p; snd p] t) as (o & s' & E & I').
      { intros x X. assert (Ux : In x U).
        { apply C; auto. apply in_flat_map. exists p. auto. }
        split; auto. specialize (NEW eq_refl x Ux).
        pose proof (unvisited_mono U (sadd r seen) t It). nia. }
      rewrite E. simpl. eexists. eexists. split; [reflexivity|]. split; auto.
      eapply incl_tran; eauto. }
    rewrite E. simpl. eexists. eexists. split; [reflexivity|]. eapply incl_tran; eauto.
  - destruct (memb r seen); eauto using incl_refl.
  - destruct (memb r seen); eauto using incl_refl.
Qed.

(** Enough fuel, as a number. *)
Lemma comparable_total h U : finite_heap h U -> tidy h U ->
  exists N, forall cap f r, N <= f -> In r U -> exists o, comparable cap h f r = Ok o.
Proof.
  intros [CL (rank & RK)] TI. exists (length U * (bound rank U + 1) + bound rank U + 1).
  intros cap f r F I.
  destruct (mk_total cap h U rank CL RK TI f [] r I) as (o & s & E & _).
  { pose proof (unvisited_le U []). pose proof (bound_le rank U r I). nia. }
  unfold comparable. rewrite E. simpl. eauto.
Qed.

Lemma inputs_total P s ctr : (forall x, exists o,
    comparable (p_cap P) (heap_of s) (p_fuel P) (obj_of s x) = Ok o) ->
  forall syms acc, exists o, inputs P s ctr syms acc = Ok o.
Proof.
  intros C. induction syms as [|x l IH]; simpl; intros acc; [eauto|].
  destruct (existsb _ acc); auto. destruct (Z.eqb _ _); auto. destruct (negb _); auto.
  destruct (Z.ltb _ _); [eauto|]. destruct (C x) as (o & ->). simpl. auto.
Qed.

Lemma check_total P s i : (forall x, exists o,
    comparable (p_cap P) (heap_of s) (p_fuel P) (obj_of s x) = Ok o) ->
  (forall x, ~ has_array (heap_of s) (obj_of s x)) -> exists b, check P s i = Ok b.
Proof.
  intros C N. unfold check. destruct (in_comp i); [|eauto].
  destruct (C (in_sym i)) as (o & E). rewrite E. simpl. destruct o as [[c' e]|]; [|eauto].
  apply comparable_inv in E. destruct E as (n & t & E & _). apply mk_good in E. destruct E as [_ G].
  destruct e; simpl; eauto. exfalso. eapply N. apply G. discriminate.
Qed.

Lemma check_all_total P s : (forall i, exists b, check P s i = Ok b) ->
  forall l, exists b, check_all P s l = Ok b.
Proof.
  intros C. induction l as [|i l [b IH]]; simpl; [eauto|].
  destruct (C i) as ([] & ->); simpl; eauto.
Qed.

Lemma find_run_total P s ctr : (forall i, exists b, check P s i = Ok b) ->
  forall l, exists o, find_run P s ctr l = Ok o.
Proof.
  intros C. induction l as [|e l [o IH]]; simpl; [eauto|].
  destruct (Nat.leb ctr (ex_ctr e)); [eauto|].
  destruct (check_all_total P s C (ex_in e)) as ([] & ->); simpl; eauto.
Qed.
