(** Lemmas about the update protocol. *)
Require Import List Bool Arith Lia.
Import ListNotations.
Require Import Verif.Base Verif.Loops Verif.UpdModel Verif.UpdSpec.

Lemma nc_children_spec w u x y : In y (nc_children w u x) <-> dependent w u x y.
Proof.
  unfold nc_children, dependent. destruct (Nat.eqb_spec u x) as [->|N].
  - intuition.
  - rewrite filter_In. split; intros [A B]; split; auto.
    + right. intros n o E F. rewrite E, F in B. apply negb_true_iff, Nat.eqb_neq in B. auto.
    + destruct B as [B|B]; [congruence|].
      destruct (w_ns w (w_obj w y)) as [n|] eqn:E; auto.
      destruct (w_cloned w n) as [o|] eqn:F; auto.
      apply negb_true_iff, Nat.eqb_neq. eauto.
Qed.

Lemma nc_children_incl w u x : incl (nc_children w u x) (w_children w x).
Proof. intros y H. apply nc_children_spec in H. apply H. Qed.

Lemma memb_sadd x y l : memb x (sadd y l) = (Nat.eqb x y || memb x l)%bool.
Proof.
  destruct (memb x (sadd y l)) eqn:E.
  - apply memb_In, In_sadd in E. destruct E as [->|E]; [now rewrite Nat.eqb_refl|].
    apply memb_In in E. rewrite E. now rewrite orb_true_r.
  - apply memb_nIn in E. rewrite In_sadd in E. destruct (Nat.eqb_spec x y); [tauto|].
    symmetry. apply memb_nIn. tauto.
Qed.

(** ** Collecting what is updated *)

Section Collect.
  Variables (w : world) (desc : bool).
  Hypothesis CL : closed w.
  Let V := w_syms w.

  Definition next_up (x : nat) : list nat :=
    match (if w_module w x then None else w_cont w x) with
    | Some n => w_aliases w (w_ns_obj w n) | None => [] end.
  Definition next_down (x : nat) : list nat :=
    if desc then match w_ns w (w_obj w x) with Some n => w_members w n | None => [] end else [].

  Lemma next_spec x y : (In y (next_up x) \/ In y (next_down x)) /\ w_import w y = false <->
    carries w desc x y.
  Proof.
    unfold carries, container, member, next_up, next_down.
    destruct (w_module w x), (w_cont w x) as [n|], desc, (w_ns w (w_obj w x)) as [m|];
      simpl; split; intros [A B]; split; auto; 
      try (destruct A as [A|A]; try contradiction; eauto 8; fail);
      (destruct B as [[? (k & E & F)]|[? (k & E & F)]]; try discriminate; injection E as <-; auto).
  Qed.

  Definition collect_body f s x :=
    let s := see x (unmark x s) in
    let s := match (if w_module w x then None else w_cont w x) with
             | Some n => unnote n x s | None => s end in
    rbind (rfold (collect w desc f) (next_up x) s) (rfold (collect w desc f) (next_down x)).

  Lemma collect_eq f s x : collect w desc (S f) s x =
    if (w_import w x || memb x (s_seen s))%bool then Ok s else collect_body f s x.
  Proof.
    simpl. destruct (_ || _)%bool; auto. unfold collect_body, next_up, next_down.
    destruct (if w_module w x then None else w_cont w x) as [n|].
    - destruct (rfold _ _ _); simpl; auto. destruct desc; auto.
      destruct (w_ns w (w_obj w x)); auto.
    - simpl. destruct desc; auto. destruct (w_ns w (w_obj w x)); auto.
  Qed.

  Lemma next_incl x : incl (next_up x) V /\ incl (next_down x) V.
  Proof.
    unfold next_up, next_down. split.
    - destruct (if w_module w x then None else w_cont w x); [apply CL|intros ? []].
    - destruct desc; [|intros ? []]. destruct (w_ns w (w_obj w x)); [apply CL|intros ? []].
  Qed.

  Definition body_start s x :=
    let s := see x (unmark x s) in
    match (if w_module w x then None else w_cont w x) with
             | Some n => unnote n x s | None => s end.

  Lemma body_start_seen s x : s_seen (body_start s x) = sadd x (s_seen s).
  Proof. unfold body_start. destruct (if w_module w x then None else w_cont w x); reflexivity. Qed.
  Lemma body_start_marked s x : s_marked (body_start s x) = sdiff (s_marked s) [x].
  Proof. unfold body_start. destruct (if w_module w x then None else w_cont w x); reflexivity. Qed.
  Lemma body_start_nsw s x : incl (s_nsw (body_start s x)) (s_nsw s).
  Proof.
    unfold body_start. destruct (if w_module w x then None else w_cont w x); simpl.
    - intros p H. apply filter_In in H. tauto.
    - apply incl_refl.
  Qed.

  Record cpost (srcs : list nat) (s s' : st) : Prop := {
    cp_incl : incl (s_seen s) (s_seen s');
    cp_in : forall x, In x srcs -> w_import w x = true \/ In x (s_seen s');
    cp_from : forall z, In z (s_seen s') -> ~ In z (s_seen s) ->
      exists x, In x srcs /\ w_import w x = false /\ reach (carries w desc) x z;
    cp_closed : forall z y, In z (s_seen s') -> ~ In z (s_seen s) -> carries w desc z y ->
      In y (s_seen s');
    cp_marked : forall z, In z (s_marked s') <->
      In z (s_marked s) /\ (In z (s_seen s) \/ ~ In z (s_seen s'));
    cp_nsw : incl (s_nsw s') (s_nsw s)
  }.

  Lemma cpost_nil s : cpost [] s s.
  Proof.
    constructor; try (intros; contradiction); try apply incl_refl.
    intros z. destruct (in_dec Nat.eq_dec z (s_seen s)); tauto.
  Qed.

  Lemma cpost_app a b s t u : cpost a s t -> cpost b t u -> cpost (a ++ b) s u.
  Proof.
    intros A B. constructor.
    - intros z H. now apply (cp_incl _ _ _ B), (cp_incl _ _ _ A).
    - intros x H. apply in_app_iff in H. destruct H as [H|H].
      + destruct (cp_in _ _ _ A x H); auto. right. now apply (cp_incl _ _ _ B).
      + now apply (cp_in _ _ _ B).
    - intros z H N. destruct (in_dec Nat.eq_dec z (s_seen t)) as [I|I].
      + destruct (cp_from _ _ _ A z I N) as (x & X & Y). exists x. rewrite in_app_iff. tauto.
      + destruct (cp_from _ _ _ B z H I) as (x & X & Y). exists x. rewrite in_app_iff. tauto.
    - intros z y H N C. destruct (in_dec Nat.eq_dec z (s_seen t)) as [I|I].
      + apply (cp_incl _ _ _ B). eapply (cp_closed _ _ _ A); eauto.
      + eapply (cp_closed _ _ _ B); eauto.
    - intros z. rewrite (cp_marked _ _ _ B), (cp_marked _ _ _ A).
      pose proof (cp_incl _ _ _ A z). pose proof (cp_incl _ _ _ B z).
      destruct (in_dec Nat.eq_dec z (s_seen s)); destruct (in_dec Nat.eq_dec z (s_seen t));
        destruct (in_dec Nat.eq_dec z (s_seen u)); tauto.
    - intros z H. now apply (cp_nsw _ _ _ A), (cp_nsw _ _ _ B).
  Qed.

  Lemma cpost_fold f (IH : forall s x s', collect w desc f s x = Ok s' -> cpost [x] s s') l :
    forall s s', rfold (collect w desc f) l s = Ok s' -> cpost l s s'.
  Proof.
    induction l as [|x l IHl]; simpl; intros s s' H.
    - injection H as <-. apply cpost_nil.
    - destruct (collect w desc f s x) as [t|] eqn:E; [|discriminate].
      simpl in H. apply (cpost_app [x] l s t s'); auto.
  Qed.

  Lemma collect_post f : forall s x s', collect w desc f s x = Ok s' -> cpost [x] s s'.
  Proof.
    induction f as [|f IH]; intros s x s' H; [discriminate|].
    rewrite collect_eq in H. destruct (w_import w x || memb x (s_seen s))%bool eqn:E.
    - injection H as <-. destruct (cpost_nil s) as [A B C D F G]. constructor; auto.
      + intros z [<-|[]]. apply orb_true_iff in E. destruct E as [E|E]; auto.
        right. now apply memb_In.
      + intros; contradiction.
    - apply orb_false_iff in E. destruct E as [NI NS]. apply memb_nIn in NS.
      change (rbind (rfold (collect w desc f) (next_up x) (body_start s x))
               (rfold (collect w desc f) (next_down x)) = Ok s') in H.
      apply rbind_Ok in H. destruct H as (t & H1 & H2).
      apply (cpost_fold f IH) in H1. apply (cpost_fold f IH) in H2.
      pose proof (cpost_app _ _ _ _ _ H1 H2) as P. clear H1 H2 t.
      assert (SX : In x (s_seen s')).
      { apply (cp_incl _ _ _ P). rewrite body_start_seen. apply In_sadd. now left. }
      constructor.
      + intros z Hz. apply (cp_incl _ _ _ P). rewrite body_start_seen. apply In_sadd. now right.
      + intros z [<-|[]]. auto.
      + intros z Hz N. exists x. split; [now left|]. split; auto.
        destruct (Nat.eq_dec z x) as [->|NE]; [constructor|].
        destruct (cp_from _ _ _ P z Hz) as (y & Y & Yi & R).
        * rewrite body_start_seen, In_sadd. tauto.
        * econstructor; [|exact R]. apply next_spec. apply in_app_iff in Y. tauto.
      + intros z y Hz N C. destruct (Nat.eq_dec z x) as [->|NE].
        * apply next_spec in C. destruct C as [C Ci].
          destruct (cp_in _ _ _ P y) as [F|F]; auto; [apply in_app_iff; tauto|congruence].
        * eapply (cp_closed _ _ _ P); eauto. rewrite body_start_seen, In_sadd. tauto.
      + intros z. rewrite (cp_marked _ _ _ P), body_start_marked, body_start_seen, In_sdiff, In_sadd.
        simpl. destruct (Nat.eq_dec z x) as [->|NE]; [tauto|]. intuition congruence.
      + intros p Hp. apply (body_start_nsw s x). now apply (cp_nsw _ _ _ P).
  Qed.

  Lemma collect_total f : forall s x, In x V -> unvisited V (s_seen s) < f ->
    exists s', collect w desc f s x = Ok s'.
  Proof.
    induction f as [|f IH]; intros s x Hx L; [lia|].
    rewrite collect_eq. destruct (w_import w x || memb x (s_seen s))%bool eqn:E; [eauto|].
    apply orb_false_iff in E. destruct E as [NI NS]. apply memb_nIn in NS.
    assert (Q : forall l, incl l V -> forall t, unvisited V (s_seen t) < f ->
      exists t', rfold (collect w desc f) l t = Ok t').
    { induction l as [|y l IHl]; intros Hl t Lt; simpl; [eauto|].
      destruct (IH t y) as [t1 E1]; [apply Hl; now left|auto|]. rewrite E1. simpl.
      apply IHl; [intros z Hz; apply Hl; now right|].
      pose proof (cp_incl _ _ _ (collect_post f _ _ _ E1)) as I.
      pose proof (unvisited_mono V _ _ I). lia. }
    assert (L1 : unvisited V (s_seen (body_start s x)) < f).
    { rewrite body_start_seen.
      assert (unvisited V (sadd x (s_seen s)) < unvisited V (s_seen s)); [|lia].
      apply (unvisited_lt (fun _ => [])) with x; auto.
      - intros y Hy. apply In_sadd. now right.
      - apply In_sadd. now left. }
    destruct (next_incl x) as [U D].
    destruct (Q (next_up x) U (body_start s x) L1) as [t E1].
    unfold collect_body. change (exists s', rbind (rfold (collect w desc f) (next_up x) (body_start s x))
               (rfold (collect w desc f) (next_down x)) = Ok s').
    rewrite E1. simpl. apply Q; auto.
    pose proof (cp_incl _ _ _ (cpost_fold f (collect_post f) _ _ _ E1)) as I.
    pose proof (unvisited_mono V _ _ I). lia.
  Qed.

  Lemma collects_total l : incl l V -> forall s,
    exists s', rfold (collect w desc (enough w)) l s = Ok s'.
  Proof.
    intros Hl. induction l as [|y l IHl]; intros t; [simpl; eauto|]; cbn [rfold].
    destruct (collect_total (enough w) t y) as [t1 E1].
    - apply Hl; now left.
    - pose proof (unvisited_le V (s_seen t)). unfold enough. fold V. lia.
    - rewrite E1. simpl. apply IHl. intros z Hz; apply Hl; now right.
  Qed.

  Lemma collects_seen l marked nsw s :
    rfold (collect w desc (enough w)) l (mkSt [] marked nsw) = Ok s ->
    forall x, In x (s_seen s) <-> counts_as_updated w desc (fun d => In d l) x.
  Proof.
    intros H. apply (cpost_fold _ (collect_post _)) in H. intros x. split.
    - intros I. destruct (cp_from _ _ _ H x I) as (d & A & B & C); [simpl; tauto|].
      exists d. auto.
    - intros (d & A & B & R).
      assert (I : In d (s_seen s)).
      { destruct (cp_in _ _ _ H d A); auto. congruence. }
      clear A B. induction R as [|a b c E R IH]; auto.
      apply IH. eapply (cp_closed _ _ _ H); eauto.
  Qed.
End Collect.

(** ** Propagation *)

Section Propagate.
  Variables (w : world) (u : nat) (su start rhs : list nat).
  Hypothesis CL : closed w.
  Hypothesis SU : incl start su.
  Let V := w_syms w.
  Let A := affected w u start rhs.
  Let prop := propagate w u su.
  Let nc := nc_children w u.

  Definition excused (x : nat) : Prop :=
    In x (w_updated w) \/ In x su \/ should_mark w u x = false.

  (** The body of one call, after the test of [seen]. *)
  Definition body f k s x : res st :=
    match k with
    | ToParents =>
        match w_cont w x with
        | None => Ok s
        | Some n =>
            if w_ns_module w n then Ok s
            else
              let al := w_aliases w (w_ns_obj w n) in
              rbind (rfold (prop f ToParents false) al (note n x s)) (fun s =>
                rfold (fun s a => rfold (prop f ToDeps false) (nc a) s) al s)
        end
    | ToChildren =>
        match w_ns w (w_obj w x) with
        | None => Ok s
        | Some n => rfold (prop f ToDeps false) (w_own_members w n) s
        end
    | ToDeps =>
        rbind
          (if (memb x (w_updated w) || memb x su)%bool then Ok s
           else if should_mark w u x
           then rbind (prop f ToParents true (mark x s) x) (fun s => prop f ToChildren true s x)
           else Ok s)
          (fun s => rfold (prop f ToDeps false) (nc x) s)
    end.

  Lemma prop_eq f k skip s x : prop (S f) k skip s x =
    if (negb skip && memb x (s_seen s))%bool then Ok s else body f k (see x s) x.
  Proof. unfold prop, body. simpl. destruct (_ && _)%bool; auto. Qed.

  Definition D (s : st) (z : nat) := incl (nc z) (s_seen s).
  Definition Wt (s : st) (z : nat) := excused z \/ In z (s_marked s) \/
    exists n m, In (n, m) (s_nsw s) /\ w_cont w m = Some n /\ In z (w_aliases w (w_ns_obj w n)).
  (** The namespaces of a marked symbol have been dealt with. *)
  Definition M (s : st) (z : nat) :=
    (forall n, w_cont w z = Some n -> w_ns_module w n = false ->
       In (n, z) (s_nsw s) /\ incl (w_aliases w (w_ns_obj w n)) (s_seen s)) /\
    (forall n, w_ns w (w_obj w z) = Some n -> incl (w_own_members w n) (s_seen s)).

  (** From [s] to [t]; the symbols of [E] are still to be dealt with. *)
  Record G (E : nat -> Prop) (s t : st) : Prop := {
    g_seen : incl (s_seen s) (s_seen t);
    g_marked : incl (s_marked s) (s_marked t);
    g_nsw : incl (s_nsw s) (s_nsw t);
    g_new : forall z, In z (s_seen t) -> ~ In z (s_seen s) -> E z \/ (D t z /\ Wt t z);
    g_newm : forall z, In z (s_marked t) -> ~ In z (s_marked s) ->
      ~ excused z /\ A z /\ ~ In z rhs /\ ~ In z (s_seen s) /\ M t z;
    g_newn : forall n m, In (n, m) (s_nsw t) -> ~ In (n, m) (s_nsw s) ->
      A m /\ ~ In m rhs /\ w_cont w m = Some n /\ w_ns_module w n = false
  }.

  Lemma D_mono s t z : incl (s_seen s) (s_seen t) -> D s z -> D t z.
  Proof. intros I H y Hy. apply I, H, Hy. Qed.
  Lemma Wt_mono s t z : incl (s_marked s) (s_marked t) -> incl (s_nsw s) (s_nsw t) ->
    Wt s z -> Wt t z.
  Proof.
    intros I J [H|[H|(n & m & H & K)]]; [now left|right; left; auto|].
    right; right. exists n, m. split; auto.
  Qed.
  Lemma M_mono s t z : incl (s_seen s) (s_seen t) -> incl (s_nsw s) (s_nsw t) -> M s z -> M t z.
  Proof.
    intros I J [H K]. split.
    - intros n N N'. destruct (H n N N') as [X Y]. split; auto. intros y Hy. apply I, Y, Hy.
    - intros n N y Hy. apply I. eapply K; eauto.
  Qed.

  Lemma G_refl E s : G E s s.
  Proof. constructor; auto using incl_refl; intros; contradiction. Qed.

  Definition pair_dec (a b : nat * nat) : {a = b} + {a <> b}.
  Proof. decide equality; apply Nat.eq_dec. Defined.

  Lemma G_trans E s t r : G E s t -> G E t r -> G E s r.
  Proof.
    intros [A1 A2 A3 A4 A5 A6] [B1 B2 B3 B4 B5 B6]. constructor.
    - eapply incl_tran; eauto.
    - eapply incl_tran; eauto.
    - eapply incl_tran; eauto.
    - intros z H N. destruct (in_dec Nat.eq_dec z (s_seen t)) as [I|I]; [|auto].
      destruct (A4 z I N) as [X|[X Y]]; [now left|]. right.
      split; [eapply D_mono|eapply Wt_mono]; eauto.
    - intros z H N. destruct (in_dec Nat.eq_dec z (s_marked t)) as [I|I].
      + destruct (A5 z I N) as (P & Q & R & S & T). split; auto. split; auto. split; auto.
        split; auto. eapply M_mono; eauto.
      + destruct (B5 z H I) as (P & Q & R & S & T). auto 10.
    - intros n m H N. destruct (in_dec pair_dec (n, m) (s_nsw t)) as [I|I]; auto.
  Qed.

  Lemma G_weaken (E E' : nat -> Prop) s t : (forall z, E z -> E' z) -> G E s t -> G E' s t.
  Proof.
    intros H [A1 A2 A3 A4 A5 A6]. constructor; auto.
    intros z I N. destruct (A4 z I N); auto.
  Qed.

  Definition pre (k : kind) (skip : bool) (s : st) (x : nat) : Prop :=
    incl rhs (s_seen s) /\
    match skip, k with
    | true, ToDeps => In x start
    | true, _ => A x /\ ~ In x rhs
    | false, _ => A x
    end.

  Record post (k : kind) (skip : bool) (s t : st) (x : nat) : Prop := {
    po_G : G (eq x) s t;
    po_in : In x (s_seen t);
    po_deps : k = ToDeps -> skip = true \/ ~ In x (s_seen s) -> D t x /\ Wt t x;
    po_par : k = ToParents -> skip = true ->
      forall n, w_cont w x = Some n -> w_ns_module w n = false ->
        In (n, x) (s_nsw t) /\ incl (w_aliases w (w_ns_obj w n)) (s_seen t);
    po_chd : k = ToChildren -> skip = true ->
      forall n, w_ns w (w_obj w x) = Some n -> incl (w_own_members w n) (s_seen t)
  }.

  Definition none : nat -> Prop := fun _ => False.

  Lemma deps_G s t x : post ToDeps false s t x -> G none s t.
  Proof.
    intros [[A1 A2 A3 A4 A5 A6] B C _ _]. constructor; auto.
    intros z I N. destruct (A4 z I N) as [<-|X]; auto.
  Qed.

  Lemma loop f k (E : nat -> Prop)
    (IH : forall s x t, pre k false s x -> prop f k false s x = Ok t -> post k false s t x) l :
    (forall x, In x l -> A x) ->
    (k = ToDeps \/ forall x, In x l -> E x) ->
    forall s t, incl rhs (s_seen s) -> rfold (prop f k false) l s = Ok t ->
    G E s t /\ incl l (s_seen t).
  Proof.
    intros HA HE. induction l as [|x l IHl]; intros s t R H.
    - injection H as <-. split; [apply G_refl|intros ? []].
    - simpl in H. destruct (prop f k false s x) as [r|] eqn:P; [|discriminate]. simpl in H.
      assert (PO : post k false s r x).
      { apply IH; auto. split; auto. apply HA. now left. }
      assert (G1 : G E s r).
      { destruct HE as [->|HE].
        - eapply G_weaken; [|eapply deps_G; eauto]. intros z [].
        - eapply G_weaken; [|apply (po_G _ _ _ _ _ PO)]. intros z <-. apply HE. now left. }
      destruct (IHl (fun y Y => HA y (or_intror Y))
        (match HE with or_introl a => or_introl a
         | or_intror b => or_intror (fun y Y => b y (or_intror Y)) end) r t) as [G2 I2]; auto.
      { eapply incl_tran; [exact R|]. apply (g_seen _ _ _ G1). }
      split; [eapply G_trans; eauto|]. intros y [<-|Y]; auto.
      apply (g_seen _ _ _ G2), (po_in _ _ _ _ _ PO).
  Qed.

  Lemma loop2 f
    (IH : forall s x t, pre ToDeps false s x -> prop f ToDeps false s x = Ok t ->
       post ToDeps false s t x) al :
    (forall a y, In a al -> In y (nc a) -> A y) ->
    forall s t, incl rhs (s_seen s) ->
      rfold (fun s a => rfold (prop f ToDeps false) (nc a) s) al s = Ok t ->
    G none s t /\ (forall a, In a al -> D t a).
  Proof.
    intros HA. induction al as [|a al IHl]; intros s t R H.
    - injection H as <-. split; [apply G_refl|intros ? []].
    - simpl in H. destruct (rfold (prop f ToDeps false) (nc a) s) as [r|] eqn:P; [|discriminate].
      simpl in H.
      destruct (loop f ToDeps none IH (nc a)) with (s := s) (t := r) as [G1 I1]; auto.
      { intros y Y. eapply HA; eauto. now left. }
      destruct (IHl (fun b y B => HA b y (or_intror B)) r t) as [G2 I2]; auto.
      { eapply incl_tran; [exact R|]. apply (g_seen _ _ _ G1). }
      split; [eapply G_trans; eauto|]. intros b [<-|B]; auto.
      eapply D_mono; [apply (g_seen _ _ _ G2)|exact I1].
  Qed.

  Lemma G_see (E : nat -> Prop) x s t : E x -> G E (see x s) t -> G E s t.
  Proof.
    intros Ex [A1 A2 A3 A4 A5 A6]. simpl in *. constructor; auto.
    - intros z H. apply A1. apply In_sadd. now right.
    - intros z I N. destruct (Nat.eq_dec z x) as [->|NE]; [now left|].
      apply A4; auto. rewrite In_sadd. tauto.
    - intros z I N. destruct (A5 z I N) as (P & Q & R & S & T).
      split; auto. split; auto. split; auto. split; auto.
      intros X. apply S. apply In_sadd. now right.
  Qed.

  Lemma see_in x s : In x (s_seen (see x s)).
  Proof. simpl. apply In_sadd. now left. Qed.

  Lemma see_rhs x s : incl rhs (s_seen s) -> incl rhs (s_seen (see x s)).
  Proof. intros H y Y. simpl. apply In_sadd. right. auto. Qed.

  Lemma body_parents f
    (IH : forall k s x t, pre k false s x -> prop f k false s x = Ok t -> post k false s t x)
    s x t : incl rhs (s_seen s) -> A x -> ~ In x rhs ->
    body f ToParents (see x s) x = Ok t ->
    G (eq x) s t /\ In x (s_seen t) /\
    forall n, w_cont w x = Some n -> w_ns_module w n = false ->
        In (n, x) (s_nsw t) /\ incl (w_aliases w (w_ns_obj w n)) (s_seen t).
  Proof.
    intros R Ax Nx H. unfold body in H.
    destruct (w_cont w x) as [n|] eqn:C.
    2:{ injection H as <-. split; [apply (G_see _ x); auto using G_refl|].
        split; [apply see_in|discriminate]. }
    destruct (w_ns_module w n) eqn:Mo.
    { injection H as <-. split; [apply (G_see _ x); auto using G_refl|].
      split; [apply see_in|]. intros k [= <-] F. congruence. }
    set (al := w_aliases w (w_ns_obj w n)) in *. cbv zeta in H.
    apply rbind_Ok in H. destruct H as (r & H1 & H2).
    assert (OC : forall a, In a al -> obj_container w x a).
    { intros a Ha. exists n. auto. }
    destruct (loop f ToParents (fun z => In z al) (IH ToParents) al) with (s := note n x (see x s)) (t := r)
      as [G1 I1]; auto.
    { intros a Ha. eapply Af_up; eauto. }
    { apply see_rhs; auto. }
    destruct (loop2 f (IH ToDeps) al) with (s := r) (t := t) as [G2 D2]; auto.
    { intros a y Ha Hy. eapply Af_up_next; eauto. now apply nc_children_spec. }
    { eapply incl_tran; [|apply (g_seen _ _ _ G1)]. apply see_rhs; auto. }
    assert (G3 : G (fun z => In z al) (note n x (see x s)) t).
    { eapply G_trans; [exact G1|]. eapply G_weaken; [|exact G2]. intros z []. }
    assert (NN : In (n, x) (s_nsw t)).
    { apply (g_nsw _ _ _ G3). simpl. now left. }
    split; [|split].
    - apply (G_see _ x); auto. destruct G3 as [A1 A2 A3 A4 A5 A6]. simpl in *.
      constructor; auto.
      + intros p P. apply A3. simpl. now right.
      + intros z I N. destruct (A4 z I N) as [X|X]; auto.
        right. split; auto. right; right. exists n, x. auto.
      + intros n' m I N. destruct (pair_dec (n, x) (n', m)) as [E|E].
        * injection E as <- <-. auto.
        * apply A6; auto. simpl. tauto.
    - apply (g_seen _ _ _ G3). simpl. apply In_sadd. now left.
    - intros k [= <-] _. split; auto. intros a Ha. apply (g_seen _ _ _ G2), I1, Ha.
  Qed.

  Lemma body_children f
    (IH : forall k s x t, pre k false s x -> prop f k false s x = Ok t -> post k false s t x)
    s x t : incl rhs (s_seen s) -> A x -> ~ In x rhs ->
    body f ToChildren (see x s) x = Ok t ->
    G (eq x) s t /\ In x (s_seen t) /\
    forall n, w_ns w (w_obj w x) = Some n -> incl (w_own_members w n) (s_seen t).
  Proof.
    intros R Ax Nx H. unfold body in H.
    destruct (w_ns w (w_obj w x)) as [n|] eqn:C.
    2:{ injection H as <-. split; [apply (G_see _ x); auto using G_refl|].
        split; [apply see_in|discriminate]. }
    destruct (loop f ToDeps (eq x) (IH ToDeps) (w_own_members w n)) with (s := see x s) (t := t)
      as [G1 I1]; auto.
    { intros a Ha. eapply Af_down; eauto. exists n. auto. }
    { apply see_rhs; auto. }
    split; [now apply (G_see _ x)|]. split.
    - apply (g_seen _ _ _ G1), see_in.
    - intros k [= <-]. auto.
  Qed.

  Lemma excused_dec x : excused x \/ ~ excused x.
  Proof.
    unfold excused. destruct (in_dec Nat.eq_dec x (w_updated w)); [tauto|].
    destruct (in_dec Nat.eq_dec x su); [tauto|].
    destruct (should_mark w u x); [|tauto]. right. intros [?|[?|?]]; tauto || discriminate.
  Qed.

  Lemma prop_post f : forall k skip s x t, pre k skip s x -> prop f k skip s x = Ok t ->
    post k skip s t x.
  Proof.
    induction f as [|f IH]; intros k skip s x t [R PR] H; [discriminate|].
    rewrite prop_eq in H.
    destruct (negb skip && memb x (s_seen s))%bool eqn:E.
    { injection H as <-. apply andb_true_iff in E. destruct E as [S I].
      apply negb_true_iff in S. subst skip. apply memb_In in I.
      constructor; auto using G_refl; try discriminate.
      intros _ [X|X]; [discriminate|contradiction]. }
    assert (NX : skip = false -> ~ In x (s_seen s)).
    { intros ->. simpl in E. now apply memb_nIn. }
    clear E.
    assert (IHf : forall k s x t, pre k false s x -> prop f k false s x = Ok t -> post k false s t x)
      by (intros; now apply IH).
    destruct k.
    - (* ToDeps *)
      cbn [body] in H. apply rbind_Ok in H. destruct H as (r & H1 & H2).
      assert (SRC : In x start \/ (A x /\ ~ In x rhs)).
      { destruct skip; [now left|]. right. split; [exact PR|]. intros X. apply (NX eq_refl), R, X. }
      assert (STEP : G (eq x) s r /\ In x (s_seen r) /\ (Wt r x)).
      { destruct (memb x (w_updated w) || memb x su)%bool eqn:Q.
        - injection H1 as <-. split; [apply (G_see _ x); auto using G_refl|].
          split; [apply see_in|]. left. apply orb_true_iff in Q. unfold excused.
          destruct Q as [Q|Q]; apply memb_In in Q; tauto.
        - apply orb_false_iff in Q. destruct Q as [Q1 Q2].
          apply memb_nIn in Q1. apply memb_nIn in Q2.
          destruct (should_mark w u x) eqn:SM.
          2:{ injection H1 as <-. split; [apply (G_see _ x); auto using G_refl|].
              split; [apply see_in|]. left. unfold excused. auto. }
          assert (AX : A x /\ ~ In x rhs /\ skip = false).
          { destruct skip; [destruct Q2; auto|]. destruct SRC as [X|[X Y]]; auto.
            destruct Q2; auto. }
          destruct AX as (AX & RX & ->). specialize (NX eq_refl).
          apply rbind_Ok in H1. destruct H1 as (q & P1 & P2).
          assert (R1 : incl rhs (s_seen (mark x (see x s)))) by (apply see_rhs; auto).
          apply IH in P1; [|split; auto].
          assert (R2 : incl rhs (s_seen q)).
          { eapply incl_tran; [exact R1|]. apply (g_seen _ _ _ (po_G _ _ _ _ _ P1)). }
          apply IH in P2; [|split; auto].
          pose proof (G_trans _ _ _ _ (po_G _ _ _ _ _ P1) (po_G _ _ _ _ _ P2)) as G1.
          assert (MX : M r x).
          { split.
            - intros n N N'. destruct (po_par _ _ _ _ _ P1 eq_refl eq_refl n N N') as [X Y].
              split; [now apply (g_nsw _ _ _ (po_G _ _ _ _ _ P2))|].
              eapply incl_tran; [exact Y|]. apply (g_seen _ _ _ (po_G _ _ _ _ _ P2)).
            - intros n N. apply (po_chd _ _ _ _ _ P2 eq_refl eq_refl n N). }
          destruct G1 as [A1 A2 A3 A4 A5 A6]. simpl in *.
          split; [|split].
          + constructor; auto.
            * intros z Hz. apply A1. apply In_sadd. now right.
            * intros z Hz. apply A2. apply In_sadd. now right.
            * intros z I N. destruct (Nat.eq_dec z x) as [->|NE]; [now left|].
              apply A4; auto. rewrite In_sadd. tauto.
            * intros z I N. destruct (Nat.eq_dec z x) as [->|NE].
              -- split; [|auto]. unfold excused. rewrite SM.
                 intros [X|[X|X]]; try contradiction. discriminate.
              -- destruct (A5 z I) as (B1 & B2 & B3 & B4 & B5).
                 { rewrite In_sadd. tauto. }
                 split; auto. split; auto. split; auto. split; auto.
                 intros X. apply B4. apply In_sadd. now right.
          + apply (po_in _ _ _ _ _ P2).
          + right; left. apply A2. apply In_sadd. now left. }
      destruct STEP as (G1 & I1 & W1).
      destruct (loop f ToDeps none (IHf ToDeps) (nc x)) with (s := r) (t := t) as [G2 I2]; auto.
      { intros y Y. apply nc_children_spec in Y.
        destruct SRC as [X|[X Z]]; [eapply Af_first|eapply Af_next]; eauto. }
      { eapply incl_tran; [exact R|]. apply (g_seen _ _ _ G1). }
      assert (G3 : G (eq x) r t).
      { eapply G_weaken; [|exact G2]. intros z []. }
      constructor; try discriminate.
      + eapply G_trans; eauto.
      + now apply (g_seen _ _ _ G2).
      + intros _ _. split; auto. 
        eapply Wt_mono; [apply (g_marked _ _ _ G2)|apply (g_nsw _ _ _ G2)|auto].
    - assert (AX : A x /\ ~ In x rhs).
      { destruct skip; [exact PR|]. split; [exact PR|]. intros X. apply (NX eq_refl), R, X. }
      destruct (body_parents f IHf s x t) as (B1 & B2 & B3); try tauto.
      constructor; auto; discriminate.
    - assert (AX : A x /\ ~ In x rhs).
      { destruct skip; [exact PR|]. split; [exact PR|]. intros X. apply (NX eq_refl), R, X. }
      destruct (body_children f IHf s x t) as (B1 & B2 & B3); try tauto.
      constructor; auto; discriminate.
  Qed.

  (** *** Termination *)

  Definition need (k : kind) (skip : bool) : nat :=
    if skip then match k with ToDeps => 3 | _ => 2 end else 1.

  Lemma prop_incl f : forall k skip s x t, prop f k skip s x = Ok t -> incl (s_seen s) (s_seen t).
  Proof.
    induction f as [|f IH]; intros k skip s x t H; [discriminate|].
    rewrite prop_eq in H. destruct (_ && _)%bool; [injection H as <-; apply incl_refl|].
    apply incl_tran with (s_seen (see x s)).
    { intros y Y. simpl. apply In_sadd. now right. }
    revert H. generalize (see x s). clear s. intros s H.
    assert (L : forall k l s t, rfold (prop f k false) l s = Ok t -> incl (s_seen s) (s_seen t)).
    { intros k0 l s0 t0 Hl. apply (rfold_inv (prop f k0 false) (fun q => incl (s_seen s0) (s_seen q)) l s0 t0); auto.
      - apply incl_refl.
      - intros a q q' _ I Hq. eapply incl_tran; [exact I|]. eapply IH; eauto. }
    destruct k; cbn [body] in H.
    - apply rbind_Ok in H. destruct H as (r & H1 & H2).
      apply incl_tran with (s_seen r); [|eapply L; eauto].
      destruct (_ || _)%bool; [injection H1 as <-; apply incl_refl|].
      destruct (should_mark w u x); [|injection H1 as <-; apply incl_refl].
      apply rbind_Ok in H1. destruct H1 as (q & P1 & P2).
      apply IH in P1. apply IH in P2. eapply incl_tran; [exact P1|exact P2].
    - destruct (w_cont w x) as [n|]; [|injection H as <-; apply incl_refl].
      destruct (w_ns_module w n); [injection H as <-; apply incl_refl|].
      apply rbind_Ok in H. destruct H as (r & H1 & H2).
      apply L in H1. eapply incl_tran; [exact H1|].
      apply (rfold_inv _ (fun q => incl (s_seen r) (s_seen q))) in H2; auto.
      + apply incl_refl.
      + intros a q q' _ I Hq. eapply incl_tran; [exact I|]. eapply L; eauto.
    - destruct (w_ns w (w_obj w x)) as [n|]; [|injection H as <-; apply incl_refl].
      eapply L; eauto.
  Qed.

  Lemma nc_V x : incl (nc x) V.
  Proof. eapply incl_tran; [apply nc_children_incl|]. apply CL. Qed.

  Lemma loop_total f k l :
    (forall s x, In x V -> 2 * unvisited V (s_seen s) + 1 <= f ->
       exists t, prop f k false s x = Ok t) ->
    incl l V -> forall s, 2 * unvisited V (s_seen s) + 1 <= f ->
    exists t, rfold (prop f k false) l s = Ok t /\ incl (s_seen s) (s_seen t).
  Proof.
    intros IH. induction l as [|x l IHl]; intros HV s L; simpl.
    - exists s. split; auto. apply incl_refl.
    - destruct (IH s x) as [r E]; [apply HV; now left|auto|]. rewrite E. simpl.
      apply prop_incl in E. pose proof (unvisited_mono V _ _ E).
      destruct (IHl (fun y Y => HV y (or_intror Y)) r) as (t & T & I); [lia|].
      exists t. split; auto. eapply incl_tran; eauto.
  Qed.

  Lemma prop_total f : forall k skip s x, In x V ->
    2 * unvisited V (s_seen s) + need k skip <= f ->
    exists t, prop f k skip s x = Ok t.
  Proof.
    induction f as [|f IH]; intros k skip s x Hx L.
    { unfold need in L. destruct skip, k; lia. }
    rewrite prop_eq. destruct (negb skip && memb x (s_seen s))%bool eqn:E; [eauto|].
    assert (U : 2 * unvisited V (s_seen (see x s)) + (if skip then 0 else 2) <=
                2 * unvisited V (s_seen s)).
    { assert (I : incl (s_seen s) (s_seen (see x s))).
      { intros y Y. simpl. apply In_sadd. now right. }
      destruct skip; [pose proof (unvisited_mono V _ _ I); lia|].
      simpl in E. apply memb_nIn in E.
      assert (unvisited V (s_seen (see x s)) < unvisited V (s_seen s)); [|lia].
      apply (unvisited_lt (fun _ => [])) with x; auto. apply see_in. }
    assert (B : 2 * unvisited V (s_seen (see x s)) +
       (if skip then need k skip else 3) <= S f).
    { destruct skip; [lia|]. unfold need in L. lia. }
    clear E U L.
    assert (LT : forall k l, incl l V -> forall s, 2 * unvisited V (s_seen s) + 1 <= f ->
       exists t, rfold (prop f k false) l s = Ok t /\ incl (s_seen s) (s_seen t)).
    { intros k0 l Hl. apply loop_total; auto. }
    assert (B1 : 2 * unvisited V (s_seen (see x s)) + 1 <= f).
    { unfold need in B. destruct skip, k; lia. }
    revert B B1. generalize (see x s). clear s. intros s B B1.
    destruct k; cbn [body].
    - assert (S1 : exists r,
        (if (memb x (w_updated w) || memb x su)%bool then Ok s
           else if should_mark w u x
           then rbind (prop f ToParents true (mark x s) x) (fun s => prop f ToChildren true s x)
           else Ok s) = Ok r /\ incl (s_seen s) (s_seen r)).
      { destruct (_ || _)%bool; [exists s; split; auto using incl_refl|].
        destruct (should_mark w u x); [|exists s; split; auto using incl_refl].
        destruct (IH ToParents true (mark x s) x) as [q P1]; auto.
        { simpl. unfold need. unfold need in B. destruct skip; lia. }
        rewrite P1. simpl. apply prop_incl in P1. simpl in P1.
        pose proof (unvisited_mono V _ _ P1).
        destruct (IH ToChildren true q x) as [r P2]; auto.
        { unfold need. unfold need in B. destruct skip; lia. }
        rewrite P2. exists r. split; auto. apply prop_incl in P2. eapply incl_tran; eauto. }
      destruct S1 as (r & -> & I). simpl.
      pose proof (unvisited_mono V _ _ I).
      destruct (LT ToDeps (nc x) (nc_V x) r) as (t & T & _); [lia|eauto].
    - destruct (w_cont w x) as [n|]; [|eauto].
      destruct (w_ns_module w n); [eauto|].
      destruct (LT ToParents (w_aliases w (w_ns_obj w n)) (cl_aliases _ CL _) (note n x s))
        as (r & R & I); [simpl; lia|].
      rewrite R. simpl. pose proof (unvisited_mono V _ _ I) as UM. simpl in UM.
      assert (UL : 2 * unvisited V (s_seen r) + 1 <= f) by lia.
      clear R I UM. generalize dependent r.
      induction (w_aliases w (w_ns_obj w n)) as [|a al IHal]; intros r UL; simpl; [eauto|].
      destruct (LT ToDeps (nc a) (nc_V a) r) as (q & Q & I); auto. rewrite Q. simpl.
      apply IHal. pose proof (unvisited_mono V _ _ I). lia.
    - destruct (w_ns w (w_obj w x)) as [n|]; [|eauto].
      destruct (LT ToDeps (w_own_members w n) (cl_own _ CL _) s) as (t & T & _); [auto|eauto].
  Qed.

  (** *** The whole loop *)

  Lemma starts_post l : incl l start -> forall s t, incl rhs (s_seen s) -> incl l (s_seen s) ->
    rfold (prop (enough w) ToDeps true) l s = Ok t ->
    G none s t /\ (forall x, In x l -> D t x).
  Proof.
    induction l as [|x l IHl]; intros HS s t R HL H.
    - injection H as <-. split; [apply G_refl|intros ? []].
    - cbn [rfold] in H. destruct (prop (enough w) ToDeps true s x) as [r|] eqn:P; [|discriminate].
      simpl in H. apply prop_post in P; [|split; auto; apply HS; now left].
      assert (G1 : G none s r).
      { destruct (po_G _ _ _ _ _ P) as [A1 A2 A3 A4 A5 A6]. constructor; auto.
        intros z I N. destruct (A4 z I N) as [<-|X]; auto. destruct N. apply HL. now left. }
      destruct (IHl (fun y Y => HS y (or_intror Y)) r t) as [G2 D2]; auto.
      { eapply incl_tran; [exact R|]. apply (g_seen _ _ _ G1). }
      { intros y Y. apply (g_seen _ _ _ G1), HL. now right. }
      split; [eapply G_trans; eauto|]. intros y [<-|Y]; auto.
      eapply D_mono; [apply (g_seen _ _ _ G2)|]. apply (po_deps _ _ _ _ _ P); auto.
  Qed.

  Lemma starts_total l : incl l V -> forall s,
    exists t, rfold (prop (enough w) ToDeps true) l s = Ok t.
  Proof.
    induction l as [|x l IHl]; intros HV s; [simpl; eauto|]. cbn [rfold].
    destruct (prop_total (enough w) ToDeps true s x) as [r P].
    - apply HV. now left.
    - pose proof (unvisited_le V (s_seen s)). unfold enough, need. fold V. lia.
    - rewrite P. simpl. apply IHl. intros y Y. apply HV. now right.
  Qed.
End Propagate.

(** ** The whole protocol *)

Lemma closed_after w u dup mut : closed w -> incl dup (w_syms w) -> closed (after_dup w u dup mut).
Proof.
  intros [A B C D] I. constructor; simpl; auto.
  intros o. unfold aliases_after. destruct (_ && _)%bool; auto.
  intros y Y. apply In_supd in Y. destruct Y as [Y|Y]; [now apply (B o)|auto].
Qed.

Lemma direct_incl w u dup mut : closed w -> In u (w_syms w) -> incl dup (w_syms w) ->
  incl (direct w u dup mut) (w_syms w).
Proof.
  intros [A B C D] Hu I y Y. apply In_supd in Y. destruct Y as [Y|Y]; auto.
  destruct mut; [now apply (B (w_obj w u))|]. destruct Y as [<-|[]]; auto.
Qed.

Lemma reach_syms w desc x y : closed w -> In x (w_syms w) -> reach (carries w desc) x y ->
  In y (w_syms w).
Proof.
  intros [A B C D] H R. induction R as [|a b c E R IH]; auto. apply IH.
  destruct E as [_ [[_ (n & _ & I)]|[_ (n & _ & I)]]]; [now apply B in I|now apply C in I].
Qed.

Lemma direct_directly w u dup mut x : In x (direct w u dup mut) <-> directly w u dup mut x.
Proof.
  unfold direct, directly. rewrite In_supd. destruct mut; simpl; [reflexivity|].
  split; intros [H|H]; auto. destruct H as [<-|[]]; auto.
Qed.

Lemma protocol_total w u dup rhs mut desc su m n : closed w -> In u (w_syms w) ->
  incl dup (w_syms w) -> exists r, protocol w u dup rhs mut desc su m n = Ok r.
Proof.
  intros CL Hu Hd. unfold protocol. change (with_aliases w (aliases_after w u dup mut)) with (after_dup w u dup mut).
  pose proof (closed_after w u dup mut CL Hd) as CL'.
  pose proof (direct_incl w u dup mut CL Hu Hd) as DI.
  destruct (collects_total (after_dup w u dup mut) desc CL' (direct w u dup mut) DI (mkSt [] m n))
    as [s E].
  rewrite E. cbn [rbind].
  destruct (starts_total (after_dup w u dup mut) u (supd su (s_seen s)) CL' (s_seen s))
    with (s := mkSt (supd (s_seen s) rhs) (s_marked s) (s_nsw s)) as [t T].
  { intros x X. apply (collects_seen _ desc _ _ _ _ E) in X.
    destruct X as (d & A & _ & R). apply (reach_syms (after_dup w u dup mut) desc d); auto. }
  rewrite T. simpl. eauto.
Qed.

Record outcome (w : world) (u : nat) (dir rhs : list nat) (desc : bool) (su m : list nat)
    (n : list (nat * nat)) (t : st) (upd : list nat) : Prop := {
  oc_upd : forall x, In x upd <-> counts_as_updated w desc (fun d => In d dir) x;
  oc_kept : forall x, In x m -> ~ In x upd -> In x (s_marked t);
  oc_marked : forall x, In x (s_marked t) ->
    (In x m /\ ~ In x upd) \/
    (~ exempt w u su upd x /\ affected w u upd rhs x /\ ~ In x rhs /\ M w t x);
  oc_nsw : forall k x, In (k, x) (s_nsw t) -> In (k, x) n \/
    (affected w u upd rhs x /\ ~ In x rhs /\ w_cont w x = Some k /\ w_ns_module w k = false);
  oc_seen : forall x, In x (s_seen t) -> In x upd \/ In x rhs \/
     (D w u t x /\ Wt w u (supd su upd) t x);
  oc_start : forall x, In x upd -> D w u t x
}.

Lemma excused_exempt w u su upd x : excused w u (supd su upd) x <-> exempt w u su upd x.
Proof.
  unfold excused, exempt, should_mark. rewrite In_supd.
  destruct (w_quiet w x), (Nat.eqb_spec u x); simpl; intuition congruence.
Qed.

Lemma protocol_outcome w u dup rhs mut desc su m n t upd :
  protocol w u dup rhs mut desc su m n = Ok (t, upd) ->
  outcome (after_dup w u dup mut) u (direct w u dup mut) rhs desc su m n t upd.
Proof.
  unfold protocol. change (with_aliases w (aliases_after w u dup mut)) with (after_dup w u dup mut). set (w' := after_dup w u dup mut).
  intros H. apply rbind_Ok in H. destruct H as (s & H1 & H2).
  apply rmap_Ok in H2. destruct H2 as (t' & H2 & E). injection E as E1 E2. subst t' upd.
  pose proof (collects_seen _ desc _ _ _ _ H1) as CS.
  apply (cpost_fold w' desc _ (collect_post w' desc _)) in H1.
  apply (starts_post w' u (supd su (s_seen s)) (s_seen s) rhs) in H2.
  - destruct H2 as [[A1 A2 A3 A4 A5 A6] DD]. simpl in *.
    assert (MM : forall x, In x (s_marked s) <-> In x m /\ ~ In x (s_seen s)).
    { intros x. rewrite (cp_marked _ _ _ _ _ H1). simpl. tauto. }
    constructor; auto.
    + intros x X N. apply A2. apply MM. auto.
    + intros x X. destruct (in_dec Nat.eq_dec x (s_marked s)) as [I|I].
      * left. now apply MM.
      * right. destruct (A5 x X I) as (P & Q & R & S & T). rewrite <- excused_exempt. auto.
    + intros k x X. destruct (in_dec pair_dec (k, x) (s_nsw s)) as [I|I].
      * left. apply (cp_nsw _ _ _ _ _ H1) in I. exact I.
      * right. now apply A6.
    + intros x X. destruct (in_dec Nat.eq_dec x (supd (s_seen s) rhs)) as [I|I].
      * apply In_supd in I. tauto.
      * right; right. destruct (A4 x X I) as [[]|Y]; auto.
  - intros x X. apply In_supd. now right.
  - apply incl_refl.
  - intros x X. simpl. apply In_supd. now right.
  - intros x X. simpl. apply In_supd. now left.
Qed.

Lemma outcome_downstream w u dir rhs desc su m n t upd :
  outcome w u dir rhs desc su m n t upd ->
  forall x, downstream w u upd rhs x -> In x (s_seen t).
Proof.
  intros O x H. induction H as [x y I E|x y H IH N E]; apply nc_children_spec in E.
  - apply (oc_start _ _ _ _ _ _ _ _ _ _ O x I), E.
  - destruct (oc_seen _ _ _ _ _ _ _ _ _ _ O x IH) as [X|[X|[X _]]].
    + apply (oc_start _ _ _ _ _ _ _ _ _ _ O x X), E.
    + contradiction.
    + apply X, E.
Qed.

Lemma Wt_waiting w u su upd t x : coherent w -> Wt w u (supd su upd) t x ->
  ~ exempt w u su upd x -> is_waiting w t x = true.
Proof.
  intros [C1 C2] W N. unfold is_waiting.
  assert (Q : w_quiet w x = false).
  { destruct (w_quiet w x) eqn:Q; auto. destruct N. unfold exempt. auto. }
  rewrite Q. simpl. destruct W as [W|[W|(n & m & A & B & C)]].
  - apply excused_exempt in W. contradiction.
  - apply memb_In in W. now rewrite W.
  - rewrite (C1 _ _ C), (C2 _ _ B). apply orb_true_iff. right.
    apply existsb_exists. exists (n, m). split; auto. simpl. apply Nat.eqb_refl.
Qed.
