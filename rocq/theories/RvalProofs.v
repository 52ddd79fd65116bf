From Coq Require Import List Arith Bool Lia.
From Verif Require Import Base Loops RvalModel RvalSpec.
Import ListNotations.

Lemma In_of_opt : forall o s, In s (of_opt o) <-> o = Some s.
Proof.
  intros [x|] s; simpl; [|split; [tauto | discriminate]].
  split; [intros [->|[]]; reflexivity | intros E; inversion E; auto].
Qed.

(** Reading under more or fewer bound names. *)
Lemma reads_more : forall v c b e s, reads v b e s -> ~ hidden v c s ->
  forall b', (forall x, In x b' -> In x b \/ In x c) -> reads v b' e s.
Proof.
  intros v c b e s R N. 
  assert (G : forall ts (b b' : list nat), (forall x, In x b' -> In x b \/ In x c) ->
    forall x, In x (bound_by ts ++ b') -> In x (bound_by ts ++ b) \/ In x c).
  { intros ts b1 b2 H x I. rewrite in_app_iff in *. destruct I as [I|I]; auto.
    destruct (H x I); auto. }
  induction R; intros b' S.
  - apply r_name; auto. intros I. destruct (S x I) as [J|J]; auto. apply N. exists x. auto.
  - eapply r_op; eauto.
  - now apply r_lit.
  - eapply r_elt; eauto.
  - apply r_fun; auto.
  - now apply r_res.
  - eapply r_arg; eauto.
  - now apply r_attr.
  - apply r_attr_of; auto.
  - now apply r_sub.
  - apply r_sub_of; auto.
  - apply r_index; auto.
  - apply r_star; auto.
  - now apply r_lambda.
  - eapply r_head; eauto.
  - apply r_first; auto.
  - eapply r_later; eauto.
  - eapply r_if; eauto.
Qed.

Lemma takes_more : forall v c b e s, takes v b e s -> ~ hidden v c s ->
  forall b', (forall x, In x b' -> In x b \/ In x c) -> takes v b' e s.
Proof.
  intros v c b e s R N.
  assert (G : forall ts (b b' : list nat), (forall x, In x b' -> In x b \/ In x c) ->
    forall x, In x (bound_by ts ++ b') -> In x (bound_by ts ++ b) \/ In x c).
  { intros ts b1 b2 H x I. rewrite in_app_iff in *. destruct I as [I|I]; auto.
    destruct (H x I); auto. }
  induction R; intros b' S.
  - apply t_name; auto. intros I. destruct (S x I) as [J|J]; auto. apply N. exists x. auto.
  - eapply t_op; eauto.
  - eapply t_elt; eauto.
  - apply t_fun; auto.
  - eapply t_arg; eauto.
  - apply t_attr_of; auto.
  - apply t_sub_of; auto.
  - eapply t_head; eauto.
  - apply t_first; auto.
  - eapply t_later; eauto.
  - eapply t_if; eauto.
Qed.

Lemma no_hidden : forall v s, ~ hidden v [] s.
Proof. intros v s (x & [] & _). Qed.

Lemma reads_fewer : forall v b e s, reads v b e s ->
  forall b', (forall x, In x b' -> In x b) -> reads v b' e s.
Proof.
  intros v b e s R b' S. apply (reads_more v [] b e s R (no_hidden v s)). auto.
Qed.

Lemma takes_reads : forall v b e s, takes v b e s -> reads v b e s.
Proof.
  intros v b e s T. induction T; eauto using reads.
Qed.

(** Places and indices. *)
Lemma place_quiet : forall v e, place v e -> is_call e = false /\
  forall b s, (forall x, e <> Name x) -> ~ reads v b e s.
Proof.
  intros v e P. induction P as [x | n e a L P [IC IH] | n e m k L P [IC IH]].
  - split; [reflexivity|]. intros b s N. exfalso. apply (N x). reflexivity.
  - split; [reflexivity|]. intros b s _ R. inversion R; subst.
    + rewrite L in *. tauto.
    + eapply IH; eauto.
  - split; [reflexivity|]. intros b s _ R. inversion R; subst.
    + rewrite L in *. tauto.
    + eapply IH; eauto.
    + match goal with H : reads _ _ (Const _ _) _ |- _ => inversion H end.
Qed.

Definition s0 : st := {| syms := []; dead := []; used := [] |}.

Lemma quiet_index : forall v i, plain_index v i -> forall b s st,
  In s (syms (visit v false false i st)) <-> In s (syms st) \/ reads v b i s.
Proof.
  intros v i P. induction P as [n k | n es H IH | n e i L P Q IH]; intros b s st.
  - simpl. split; auto. intros [A|A]; auto. inversion A.
  - simpl.
    assert (G : forall l st, (forall e, In e l -> In e es) ->
      (In s (syms (fold_left (fun s e' => visit v false false e' s) l st)) <->
       In s (syms st) \/ exists e, In e l /\ reads v b e s)).
    { induction l as [|e l IHl]; intros st' S; simpl.
      - split; auto. intros [A|(e & [] & _)]; auto.
      - rewrite IHl by (intros; apply S; now right).
        rewrite (IH e (S e (or_introl eq_refl)) b s). split.
        + intros [[A|A]|(e' & A & B)]; eauto 6.
        + intros [A|(e' & [->|A] & B)]; eauto 6. }
    rewrite G by auto. split; intros [A|A]; auto; right.
    + destruct A as (e & A & B). eapply r_op; eauto.
    + inversion A; subst. eauto.
  - destruct (place_quiet v e P) as [IC NR]. cbn [visit]. rewrite IC.
    fold s0. cbn [add].
    set (q := syms (visit v false false i s0)).
    assert (Q' : forall s, In s q <-> reads v b i s).
    { intros s'. unfold q. rewrite (IH b s' s0). simpl. tauto. }
    destruct (loaded v n ++ q) as [|z l] eqn:E.
    + destruct (loaded v n); [congruence | discriminate].
    + rewrite <- E. cbn [extend syms]. rewrite !in_app_iff, Q'. split.
      * intros [A|[A|A]]; eauto using reads.
      * intros [A|A]; auto. inversion A; subst; auto.
        exfalso. eapply NR; eauto.
Qed.

(** Targets. *)
Lemma visit_target : forall v upd t, target v t -> forall st,
  let st' := visit v true upd t st in
  syms st' = syms st /\ used st' = used st /\
  forall s, In s (dead st') <-> In s (dead st) \/ hidden v (target_names t) s.
Proof.
  intros v upd t T. induction T as [x | n es L H IH]; intros st; cbv zeta.
  - cbn [visit add resolve syms dead used target_names].
    repeat apply conj; auto. intros s. rewrite In_supd, In_of_opt.
    unfold hidden. split; intros [A|A]; auto; right.
    + exists x. simpl. auto.
    + destruct A as (y & [->|[]] & A). exact A.
  - cbn [visit]. rewrite L.
    assert (G : forall l st, (forall e, In e l -> In e es) ->
      let st' := fold_left (fun s e' => visit v true upd e' s) l st in
      syms st' = syms st /\ used st' = used st /\
      forall s, In s (dead st') <-> In s (dead st) \/ hidden v (flat_map target_names l) s).
    { induction l as [|e l IHl]; intros st' S; cbv zeta; cbn [fold_left flat_map].
      - repeat apply conj; auto. intros s. split; auto. intros [A|(x & [] & _)]; auto.
      - destruct (IH e (S e (or_introl eq_refl)) st') as (A1 & A2 & A3).
        destruct (IHl (visit v true upd e st') (fun e' I => S e' (or_intror I))) as (B1 & B2 & B3).
        cbv zeta in *. rewrite B1, B2, A1, A2. repeat apply conj; auto.
        intros s. rewrite B3, A3. split.
        + intros [[A|(x & A & B)]|(x & A & B)]; auto; right; exists x; rewrite in_app_iff; auto.
        + intros [A|(x & A & B)]; auto. rewrite in_app_iff in A. destruct A as [A|A].
          * left. right. exists x. auto.
          * right. exists x. auto. }
    apply (G es st). auto.
Qed.

Lemma visit_targets : forall v upd ts, (forall t, In t ts -> target v t) -> forall st,
  let st' := fold_left (fun s e' => visit v true upd e' s) ts st in
  syms st' = syms st /\ used st' = used st /\
  forall s, In s (dead st') <-> In s (dead st) \/ hidden v (bound_by ts) s.
Proof.
  intros v upd. induction ts as [|t ts IH]; intros T st; cbv zeta; cbn [fold_left].
  - repeat apply conj; auto. intros s. split; auto. intros [A|(x & [] & _)]; auto.
  - destruct (visit_target v upd t (T t (or_introl eq_refl)) st) as (A1 & A2 & A3).
    destruct (IH (fun t' I => T t' (or_intror I)) (visit v true upd t st)) as (B1 & B2 & B3).
    cbv zeta in *. rewrite B1, B2, A1, A2. repeat apply conj; auto.
    intros s. rewrite B3, A3. unfold bound_by. cbn [flat_map]. split.
    + intros [[A|(x & A & B)]|(x & A & B)]; auto; right; exists x; rewrite in_app_iff; auto.
    + intros [A|(x & A & B)]; auto. rewrite in_app_iff in A. destruct A as [A|A].
      * left. right. exists x. auto.
      * right. exists x. auto.
Qed.

(** What a visit does, for a set of symbols read and a set of variables taken. *)
Definition does (v : env) (b : list nat) (R T : nat -> Prop) (st st' : RvalModel.st) : Prop :=
  (forall s, In s (syms st') <-> In s (syms st) \/ R s) /\
  (forall s, In s (dead st') <-> hidden v b s) /\
  (forall s, In s (used st') -> In s (used st) \/ R s) /\
  (forall s, In s (used st) \/ T s -> In s (used st')).

Lemma does_same : forall v b st, (forall s, In s (dead st) <-> hidden v b s) ->
  does v b (fun _ => False) (fun _ => False) st st.
Proof. intros v b st D. unfold does. repeat apply conj; firstorder. Qed.

Lemma does_trans : forall v b R1 T1 R2 T2 a c d,
  does v b R1 T1 a c -> does v b R2 T2 c d ->
  does v b (fun s => R1 s \/ R2 s) (fun s => T1 s \/ T2 s) a d.
Proof.
  intros v b R1 T1 R2 T2 a c d (A1 & A2 & A3 & A4) (B1 & B2 & B3 & B4).
  unfold does. refine (conj _ (conj B2 (conj _ _))); intros s.
  - rewrite B1, A1. tauto.
  - intros I. destruct (B3 s I) as [J|J]; [|tauto]. destruct (A3 s J); tauto.
  - intros [I|[I|I]]; auto.
Qed.

Lemma does_weak : forall v b (R1 T1 R2 T2 : nat -> Prop) a c, does v b R1 T1 a c ->
  (forall s, R1 s <-> R2 s) -> (forall s, T2 s -> T1 s) -> does v b R2 T2 a c.
Proof.
  intros v b R1 T1 R2 T2 a c (A1 & A2 & A3 & A4) E W.
  unfold does. refine (conj _ (conj A2 (conj _ _))); intros s.
  - rewrite A1, E. tauto.
  - intros I. destruct (A3 s I); auto. right. now apply E.
  - intros [I|I]; auto.
Qed.

Lemma does_dead : forall v b R T a c, does v b R T a c -> forall s, In s (dead c) <-> hidden v b s.
Proof. intros v b R T a c D. apply D. Qed.

(** Adding symbols. *)
Lemma does_add : forall v b l usage st, (forall s, In s (dead st) <-> hidden v b s) ->
  does v b (fun s => In s l /\ ~ hidden v b s)
           (fun s => usage = true /\ In s l /\ ~ hidden v b s)
           st (add false true true usage l st).
Proof.
  intros v b l usage st D. unfold add, does. cbn.
  assert (F : forall s, In s (filter (fun x => negb (memb x (dead st))) l) <->
                        In s l /\ ~ hidden v b s).
  { intros s. rewrite filter_In, negb_true_iff, memb_nIn, D. tauto. }
  refine (conj _ (conj D (conj _ _))); intros s.
  - rewrite in_app_iff, F. tauto.
  - destruct usage; auto. rewrite in_app_iff, F. tauto.
  - intros [I|(E & I)]; destruct usage; try discriminate; rewrite ?in_app_iff, ?F; auto.
Qed.

Lemma does_mark : forall v b l st, (forall s, In s (dead st) <-> hidden v b s) ->
  let st' := add false true false true l st in
  syms st' = syms st /\ (forall s, In s (dead st') <-> hidden v b s) /\
  (forall s, In s (used st') <-> In s (used st) \/ (In s l /\ ~ hidden v b s)).
Proof.
  intros v b l st D. cbn. refine (conj eq_refl (conj D _)). intros s.
  rewrite in_app_iff, filter_In, negb_true_iff, memb_nIn, D. tauto.
Qed.

Definition right (v : env) (b : list nat) (e : expr) : Prop :=
  forall st, (forall s, In s (dead st) <-> hidden v b s) ->
  does v b (reads v b e) (takes v b e) st (visit v false true e st).

Lemma does_list : forall v b es, (forall e, In e es -> right v b e) ->
  forall st, (forall s, In s (dead st) <-> hidden v b s) ->
  does v b (fun s => exists e, In e es /\ reads v b e s) (fun s => exists e, In e es /\ takes v b e s)
    st (fold_left (fun s e' => visit v false true e' s) es st).
Proof.
  intros v b. induction es as [|e es IH]; intros H st D; cbn [fold_left].
  - eapply does_weak; [apply does_same, D | |].
    + intros s. split; [tauto|]. intros (e & [] & _).
    + intros s (e & [] & _).
  - pose proof (H e (or_introl eq_refl) st D) as A.
    pose proof (IH (fun e' I => H e' (or_intror I)) _ (does_dead _ _ _ _ _ _ A)) as B.
    eapply does_weak; [exact (does_trans _ _ _ _ _ _ _ _ _ A B) | |]; cbn.
    + intros s. split.
      * intros [C|(e' & C & E)]; eauto.
      * intros (e' & [->|C] & E); eauto.
    + intros s (e' & [->|C] & E); eauto.
Qed.

Lemma does_generators : forall v b gens,
  (forall g, In g gens -> right v b (fst g)) ->
  (forall g e, In g gens -> In e (snd g) -> right v b e) ->
  forall st, (forall s, In s (dead st) <-> hidden v b s) ->
  does v b
    (fun s => exists g, In g gens /\ (reads v b (fst g) s \/ exists e, In e (snd g) /\ reads v b e s))
    (fun s => exists g, In g gens /\ (takes v b (fst g) s \/ exists e, In e (snd g) /\ takes v b e s))
    st
    (fold_left (fun s (g : expr * list expr) =>
       fold_left (fun s e' => visit v false true e' s) (snd g) (visit v false true (fst g) s)) gens st).
Proof.
  intros v b. induction gens as [|g gens IH]; intros H1 H2 st D; cbn [fold_left].
  - eapply does_weak; [apply does_same, D | |].
    + intros s. split; [tauto|]. intros (e & [] & _).
    + intros s (e & [] & _).
  - pose proof (H1 g (or_introl eq_refl) st D) as A.
    pose proof (does_list v b (snd g) (fun e I => H2 g e (or_introl eq_refl) I) _
                  (does_dead _ _ _ _ _ _ A)) as B.
    pose proof (does_trans _ _ _ _ _ _ _ _ _ A B) as AB.
    pose proof (IH (fun g' I => H1 g' (or_intror I)) (fun g' e I => H2 g' e (or_intror I)) _
                  (does_dead _ _ _ _ _ _ AB)) as C.
    eapply does_weak; [exact (does_trans _ _ _ _ _ _ _ _ _ AB C) | |]; cbn.
    + intros s. split.
      * intros [E|(g' & E & F)]; eauto.
      * intros (g' & [->|E] & F); eauto.
    + intros s (g' & [->|E] & F); eauto.
Qed.

Lemma hidden_app : forall v b c s, hidden v (b ++ c) s <-> hidden v b s \/ hidden v c s.
Proof.
  intros v b c s. unfold hidden. split.
  - intros (x & I & E). rewrite in_app_iff in I. destruct I; eauto.
  - intros [(x & I & E)|(x & I & E)]; exists x; rewrite in_app_iff; auto.
Qed.

Theorem fine_right : forall v, distinct_names v -> forall b e, fine v b e -> right v b e.
Proof.
  intros v DN b e F. unfold right.
  induction F as [b x | b n k | b n es H IH | b n es NH H IH | b n x args NH H IH
    | b n f args NH IC F IHf H IH | b n e a L NH P | b n m f args a L NH F IHf
    | b n e i L NH P PI | b n m f args i L NH F IHf PI | b n x NB | b n
    | b n ts hd it ifs gens TT HH IHh FI IHi NF HI IHifs HG IHg HGI IHgi];
    intros st D.
  - (* Name *)
    cbn [visit]. eapply does_weak; [apply (does_add v b _ true st D) | |]; cbn.
    + intros s. rewrite In_of_opt. split.
      * intros [E N]. apply r_name; auto. intros I. apply N. exists x. auto.
      * intros R. inversion R; subst. split; auto. intros (y & I & E).
        assert (y = x) by (eapply DN; eauto). subst. tauto.
    + intros s T. inversion T; subst. rewrite In_of_opt. repeat apply conj; auto.
      intros (y & I & E). assert (y = x) by (eapply DN; eauto). subst. tauto.
  - eapply does_weak; [apply does_same, D | |]; intros s.
    + split; [tauto|]. intros R. inversion R.
    + intros R. inversion R.
  - cbn [visit]. eapply does_weak; [apply (does_list v b es IH st D) | |]; cbn; intros s.
    + split; [intros (e & I & R); eapply r_op; eauto | intros R; inversion R; subst; eauto].
    + intros R; inversion R; subst; eauto.
  - cbn [visit]. destruct (loaded v n) as [|z l] eqn:E.
    + eapply does_weak; [apply (does_list v b es (IH eq_refl) st D) | |]; cbn; intros s.
      * split; [intros (e & I & R); eapply r_elt; eauto | intros R; inversion R; subst; eauto].
        rewrite E in *. simpl in *. tauto.
      * intros R; inversion R; subst; eauto.
    + eapply does_weak; [apply (does_add v b (z :: l) true st D) | |]; intros s.
      * split; [intros [I _]; apply r_lit; now rewrite E |].
        intros R. inversion R; subst; [|congruence]. rewrite E in *. auto.
      * intros R. inversion R; subst. congruence.
  - (* Call of a name *)
    cbn [visit is_chain resolve].
    pose proof (does_add v b (of_opt (lookup v x)) true st D) as A.
    pose proof (does_add v b (loaded v n) true _ (does_dead _ _ _ _ _ _ A)) as B.
    pose proof (does_trans _ _ _ _ _ _ _ _ _ A B) as AB.
    pose proof (does_list v b args IH _ (does_dead _ _ _ _ _ _ AB)) as C.
    eapply does_weak; [exact (does_trans _ _ _ _ _ _ _ _ _ AB C) | |]; cbn; intros s.
    + rewrite In_of_opt. split.
      * intros [[[E N]|[I N]]|(e & I & R)].
        -- apply r_fun, r_name; auto. intros I. apply N. exists x. auto.
        -- now apply r_res.
        -- eapply r_arg; eauto.
      * intros R. inversion R; subst; eauto.
        match goal with H : reads _ _ (Name _) _ |- _ => inversion H; subst end.
        left. left. split; auto. intros (y & I & E).
        assert (y = x) by (eapply DN; eauto). subst. tauto.
    + intros R. inversion R; subst; eauto.
      match goal with H : takes _ _ (Name _) _ |- _ => inversion H; subst end.
      left. left. rewrite In_of_opt. repeat apply conj; auto. intros (y & I & E).
      assert (y = x) by (eapply DN; eauto). subst. tauto.
  - (* Call of a place *)
    cbn [visit]. rewrite IC.
    pose proof (IHf st D) as Z.
    pose proof (does_add v b (resolve v f) true _ (does_dead _ _ _ _ _ _ Z)) as A.
    pose proof (does_trans _ _ _ _ _ _ _ _ _ Z A) as ZA.
    pose proof (does_add v b (loaded v n) true _ (does_dead _ _ _ _ _ _ ZA)) as B.
    pose proof (does_trans _ _ _ _ _ _ _ _ _ ZA B) as AB.
    pose proof (does_list v b args IH _ (does_dead _ _ _ _ _ _ AB)) as C.
    assert (RF : forall s, In s (resolve v f) -> reads v b f s).
    { intros s I. destruct f; try discriminate; cbn in I; eauto using reads. }
    eapply does_weak; [exact (does_trans _ _ _ _ _ _ _ _ _ AB C) | |]; cbn; intros s.
    + split.
      * intros [[[R|[I _]]|[I _]]|(e & I & R)].
        -- now apply r_fun.
        -- apply r_fun. auto.
        -- now apply r_res.
        -- eapply r_arg; eauto.
      * intros R. inversion R; subst; eauto 6.
    + intros R. inversion R; subst; eauto 6.
  - (* Attribute of a place *)
    destruct (place_quiet v e P) as [IC NR]. cbn [visit]. rewrite IC.
    destruct (loaded v n) as [|z l] eqn:E; [congruence|].
    eapply does_weak; [apply (does_add v b (z :: l) false st D) | |]; intros s.
    + split; [intros [I _]; apply r_attr; now rewrite E |].
      intros R. inversion R; subst; [rewrite E in *; auto|]. exfalso. eapply NR; eauto.
    + intros R. inversion R; subst. exfalso. eapply NR; eauto using takes_reads.
  - (* Attribute of a result *)
    assert (IC : is_call (Call m f args) = true) by reflexivity.
    assert (NN : forall x, Call m f args <> Name x) by discriminate.
    revert IC NN F IHf. generalize (Call m f args). intros c IC NN F IHf.
    cbn [visit]. rewrite IC.
    destruct (loaded v n) as [|z l] eqn:E; [congruence|].
    pose proof (IHf st D) as A.
    pose proof (does_add v b (z :: l) false _ (does_dead _ _ _ _ _ _ A)) as B.
    eapply does_weak; [exact (does_trans _ _ _ _ _ _ _ _ _ A B) | |]; cbv beta; intros s.
    + split.
      * intros [R|[I _]]; [apply r_attr_of; [exact NN | exact R] | apply r_attr; now rewrite E].
      * intros R. inversion R; subst; [rewrite E in *; auto | auto].
    + intros R. inversion R; subst; auto.
  - (* Item of a place *)
    destruct (place_quiet v e P) as [IC NR]. cbn [visit]. rewrite IC. fold s0.
    set (q := syms (visit v false false i s0)).
    assert (Q : forall s, In s q <-> reads v b i s).
    { intros s. unfold q. rewrite (quiet_index v i PI b s s0). simpl. tauto. }
    clearbody q.
    destruct (loaded v n ++ q) as [|z l] eqn:E; [destruct (loaded v n); [congruence | discriminate]|].
    rewrite <- E. destruct (does_mark v b (loaded v n) st D) as (M1 & M2 & M3). cbv zeta in *.
    unfold does. cbn [extend syms dead used]. refine (conj _ (conj M2 (conj _ _))); intros s.
    + rewrite M1, !in_app_iff, Q. split.
      * intros [A|[A|A]]; eauto using reads.
      * intros [A|A]; auto. inversion A; subst; auto. exfalso. eapply NR; eauto.
    + rewrite M3. intros [A|[A _]]; auto. right. now apply r_sub.
    + rewrite M3. intros [A|A]; auto. inversion A; subst.
      exfalso. eapply NR; eauto using takes_reads.
  - (* Item of a result *)
    assert (IC : is_call (Call m f args) = true) by reflexivity.
    assert (NN : forall x, Call m f args <> Name x) by discriminate.
    revert IC NN F IHf. generalize (Call m f args). intros c IC NN F IHf.
    cbn [visit]. rewrite IC. fold s0.
    set (q := syms (visit v false false i s0)).
    assert (Q : forall s, In s q <-> reads v b i s).
    { intros s. unfold q. rewrite (quiet_index v i PI b s s0). simpl. tauto. }
    clearbody q.
    destruct (loaded v n ++ q) as [|z l] eqn:E; [destruct (loaded v n); [congruence | discriminate]|].
    rewrite <- E. pose proof (IHf st D) as A. set (st1 := visit v false true c st) in *.
    clearbody st1. destruct A as (A1 & A2 & A3 & A4).
    destruct (does_mark v b (loaded v n) st1 A2) as (M1 & M2 & M3). cbv zeta in *.
    unfold does. cbn [extend syms dead used]. refine (conj _ (conj M2 (conj _ _))); intros s.
    + rewrite M1, !in_app_iff, Q, A1. split.
      * intros [[A|A]|[A|A]]; eauto using reads.
      * intros [A|A]; auto. inversion A; subst; auto.
    + rewrite M3. intros [A|[A _]]; [|right; now apply r_sub].
      destruct (A3 s A); auto. right. apply r_sub_of; [exact NN | assumption].
    + rewrite M3. intros [A|A]; auto. inversion A; subst; auto.
  - (* Starred *)
    cbn [visit resolve]. unfold does. cbn [extend syms dead used].
    refine (conj _ (conj D (conj _ _))); intros s; auto.
    + rewrite in_app_iff, In_of_opt. split.
      * intros [A|A]; auto. right. apply r_star, r_name; auto.
      * intros [A|A]; auto. inversion A; subst.
        match goal with H : reads _ _ (Name _) _ |- _ => inversion H; subst end. auto.
    + intros [A|A]; auto. inversion A.
  - cbn [visit]. unfold does. cbn [extend syms dead used].
    refine (conj _ (conj D (conj _ _))); intros s; auto.
    + rewrite in_app_iff. split; intros [A|A]; auto.
      * right. now apply r_lambda.
      * inversion A; subst; auto.
    + intros [A|A]; auto. inversion A.
  - (* Comprehension *)
    cbn [visit].
    destruct (visit_targets v true ts TT {| syms := syms st; dead := []; used := used st |})
      as (K1 & K2 & K3). cbv zeta in *.
    set (s1 := fold_left (fun s e' => visit v true true e' s) ts
                 {| syms := syms st; dead := []; used := used st |}) in *.
    clearbody s1. cbn [syms dead used] in K1, K2, K3.
    set (s2 := {| syms := syms s1; dead := supd (dead st) (dead s1); used := used s1 |}).
    assert (D2 : forall s, In s (dead s2) <-> hidden v (bound_by ts ++ b) s).
    { intros s. cbn. rewrite In_supd, hidden_app, D, K3. simpl. tauto. }
    pose proof (does_list v _ hd IHh s2 D2) as A.
    assert (G1 : forall g, In g ((it, ifs) :: gens) -> right v (bound_by ts ++ b) (fst g)).
    { intros g [<-|I]; [exact IHi | exact (IHg g I)]. }
    assert (G2 : forall g e, In g ((it, ifs) :: gens) -> In e (snd g) ->
                 right v (bound_by ts ++ b) e).
    { intros g e [<-|I] J; [exact (IHifs e J) | exact (IHgi g e I J)]. }
    pose proof (does_generators v _ _ G1 G2 _ (does_dead _ _ _ _ _ _ A)) as B.
    pose proof (does_trans _ _ _ _ _ _ _ _ _ A B) as AB.
    match type of AB with does _ _ _ _ _ ?x => set (s4 := x) in * end.
    clearbody s4. destruct AB as (C1 & C2 & C3 & C4).
    assert (RI : forall s, reads v (bound_by ts ++ b) it s <-> reads v b it s).
    { intros s. split; intros R.
      - eapply reads_fewer; [exact R|]. intros x I. apply in_app_iff. auto.
      - apply (reads_more v (bound_by ts) b it s R (NF s R)). intros x I.
        apply in_app_iff in I. tauto. }
    assert (RR : forall s,
      ((exists e, In e hd /\ reads v (bound_by ts ++ b) e s) \/
       (exists g, In g ((it, ifs) :: gens) /\ (reads v (bound_by ts ++ b) (fst g) s \/
          exists e, In e (snd g) /\ reads v (bound_by ts ++ b) e s))) <->
      reads v b (Comp n ts hd ((it, ifs) :: gens)) s).
    { intros s. split.
      - intros [(e & I & R)|([it' ifs'] & I & [R|(e & J & R)])].
        + eapply r_head; eauto.
        + destruct I as [I|I].
          * inversion I; subst. apply r_first. now apply RI.
          * eapply r_later; eauto.
        + eapply r_if; eauto.
      - intros R. inversion R; subst; eauto.
        + right. exists (it, ifs). split; [now left|]. left. now apply RI.
        + right. eexists. split; [right; eassumption|]. auto.
        + right. eexists. split; [eassumption|]. right. eauto. }
    unfold does. cbn [syms dead used]. refine (conj _ (conj _ (conj _ _))); intros s.
    + rewrite C1, <- RR. cbn [syms s2]. rewrite K1. reflexivity.
    + rewrite In_sdiff, In_sdiff, C2, hidden_app, K3. cbn [In].
      destruct (in_dec Nat.eq_dec s (dead st)) as [I|I].
      * apply D in I. rewrite D. tauto.
      * rewrite D in *. tauto.
    + intros I. rewrite <- RR. destruct (C3 s I) as [J|J]; auto. cbn in J. rewrite K2 in J. auto.
    + intros I. apply C4. cbn. rewrite K2. destruct I as [I|I]; auto. right.
      inversion I; subst; eauto.
      * right. exists (it, ifs). split; [now left|]. left.
        match goal with H : takes _ _ it _ |- _ =>
          apply (takes_more v (bound_by ts) b it s H (NF s (takes_reads _ _ _ _ H))) end.
        intros x J. apply in_app_iff in J. tauto.
      * right. eexists. split; [right; eassumption|]. auto.
      * right. eexists. split; [eassumption|]. right. eauto.
Qed.

Lemma plain_off : forall v e, plain e -> forall st, visit v false false e st = st.
Proof.
  intros v e P.
  assert (G : forall es, (forall e, In e es -> forall st, visit v false false e st = st) ->
    forall st, fold_left (fun s e' => visit v false false e' s) es st = st).
  { induction es as [|e' es IH]; intros H st; cbn [fold_left]; auto.
    rewrite (H e' (or_introl eq_refl)). apply IH. intros e'' I. apply H. now right. }
  induction P; intros st; cbn [visit add]; auto.
  - destruct (loaded v n); auto.
  - destruct (is_chain f); rewrite ?IHP; apply G; auto.
  - destruct (loaded v n).
    + fold s0. rewrite (IHP s0). destruct (is_call e); rewrite ?IHP; reflexivity.
    + destruct (is_call e); rewrite ?IHP; reflexivity.
Qed.
