(** Proofs about waiting symbols. *)
Require Import List Arith ZArith Bool Lia Relations.
Import ListNotations.
Require Import Verif.Base Verif.Loops Verif.WaitModel Verif.WaitSpec.
Local Open Scope Z_scope.

(** * Waiting at all *)
Lemma any_Ok : forall {A} (f : A -> res bool) l b, any f l = Ok b -> (b = true -> exists x, In x l /\ f x = Ok true) /\ (b = false -> forall x, In x l -> f x = Ok false).
Proof.
  intros A f. induction l as [|x l IH]; intros b H; cbn [any] in H.
  - injection H as <-. split; [discriminate|intros _ x []].
  - apply rbind_Ok in H. destruct H as (b1 & H1 & H). destruct b1.
    + injection H as <-. split; [intros _; exists x; simpl; auto|discriminate].
    + destruct (IH _ H) as (P & Q). split; [intros E; destruct (P E) as (z & I & F); exists z; simpl; auto|]. intros E z [<-|I]; auto.
Qed.
Lemma shallow_spec : forall w s, shallow w s = true <-> stale w s.
Proof.
  intros w s. unfold shallow, stale. destruct (y_quiet (w_sym w s)); [split; [discriminate|intros (H & _); discriminate]|]. rewrite Z.ltb_lt, Z.max_lub_lt_iff. tauto.
Qed.
Lemma is_waiting_spec : forall f w s b, is_waiting f w s = Ok b -> (b = true <-> waiting w s).
Proof.
  induction f as [|f IH]; intros w s b H; cbn [is_waiting] in H; [discriminate|]. destruct (y_quiet (w_sym w s)) eqn:Qt.
  { injection H as <-. split; [discriminate|]. intros W. inversion W as [? (C & _)| |]; congruence. }
  destruct (Z.max (y_ts (w_sym w s)) (w_min w) <? y_req (w_sym w s)) eqn:M.
  { injection H as <-. split; auto. intros _. apply by_itself. apply shallow_spec. unfold shallow. rewrite Qt. auto. }
  assert (N : ~ stale w s). { intros C. apply shallow_spec in C. unfold shallow in C. rewrite Qt in C. congruence. }
  destruct (Z.eqb_spec (w_min w) (-1)) as [E|E].
  - injection H as <-. destruct (y_members (w_sym w s)) as [|m l] eqn:D; simpl.
    + split; [discriminate|]. intros W. inversion W as [? C|? m ? ? I|? m ? I]; subst; [contradiction| |]; rewrite D in I; destruct I.
    + split; auto. intros _. apply by_note with (m := m); auto. rewrite D. simpl. auto.
  - apply any_Ok in H. destruct H as (P & Q). split.
    + intros B. destruct (P B) as (m & I & F). eapply by_member; eauto. eapply IH; eauto.
    + intros W. destruct b; auto. exfalso. inversion W as [? C|? m ? E'|? m ? I C]; subst; [contradiction|congruence|]. pose proof (Q eq_refl m I) as F. pose proof (proj2 (IH _ _ _ F) C). discriminate.
Qed.
Lemma is_waiting_more : forall f f' w s b, (f <= f')%nat -> is_waiting f w s = Ok b -> is_waiting f' w s = Ok b.
Proof.
  induction f as [|f IH]; intros [|f'] w s b L H; cbn [is_waiting] in *; try discriminate; try lia. destruct (y_quiet (w_sym w s)); auto. destruct (_ <? _); auto. destruct (w_min w =? -1); auto.
  revert b H. induction (y_members (w_sym w s)) as [|m l IHl]; intros b H; cbn [any] in *; auto. apply rbind_Ok in H. destruct H as (b1 & H1 & H). rewrite (IH f' _ _ _ ltac:(lia) H1). cbn [rbind]. destruct b1; auto.
Qed.

(** * The calls made for a node *)
Definition base (w : world) (a : node) : Prop := exists p q ts u, from w (fst (fst a)) (snd (fst a)) p q ts u /\ ts < u.
Definition child (w : world) (a b : node) : Prop :=
  snd b = true /\ ((exists ts u, from w (fst (fst a)) (snd (fst a)) (fst (fst b)) (snd (fst b)) ts u /\ ~ ts < u) \/
   snd a = true /\ In (fst (fst b)) (y_members (w_sym w (fst (fst a)))) /\ snd (fst b) = snd (fst a)).
Section CALLS.
  Variable rec : caches -> node -> res (bool * caches).
  Inductive calls : list node -> caches -> caches -> Prop :=
  | calls_nil : forall c, calls [] c c
  | calls_cons : forall n l c c1 c2, rec c n = Ok (false, c1) -> calls l c1 c2 -> calls (n :: l) c c2.
  Lemma calls_app : forall l l' a b c, calls l a b -> calls l' b c -> calls (l ++ l') a c.
  Proof. intros l l' a b c H. induction H; simpl; auto. intros H'. econstructor; eauto. Qed.
  Definition ran (kids : node -> Prop) (bs : Prop) (b : bool) (c c' : caches) : Prop := exists l c1, calls l c c1 /\ (forall n, In n l -> kids n) /\
    (b = false -> c' = c1 /\ ~ bs /\ forall n, kids n -> In n l) /\ (b = true -> c' = c1 /\ bs \/ exists n, kids n /\ rec c1 n = Ok (true, c')).
  Lemma ran_iff : forall (k k' : node -> Prop) (bs bs' : Prop) b c c', (forall n, k n <-> k' n) -> (bs <-> bs') -> ran k bs b c c' -> ran k' bs' b c c'.
  Proof.
    intros k k' bs bs' b c c' K B (l & c1 & C & I & F & T). exists l, c1. split; auto. split; [intros n Q; apply K; auto|]. split.
    - intros E. destruct (F E) as (E1 & E2 & E3). split; auto. split; [tauto|]. intros n Q. apply E3, K, Q.
    - intros E. destruct (T E) as [(E1 & E2)|(n & E1 & E2)]; [left; split; tauto|right]. exists n. split; [apply K; auto|auto].
  Qed.
  Lemma ran_false : forall (k : node -> Prop) (bs : Prop) c, (forall n, ~ k n) -> ~ bs -> ran k bs false c c.
  Proof. intros k bs c K B. exists [], c. split; [constructor|]. split; [intros n []|]. split; [|discriminate]. intros _. auto. Qed.
  Lemma ran_true : forall (k : node -> Prop) (bs : Prop) c, bs -> ran k bs true c c.
  Proof. intros k bs c B. exists [], c. split; [constructor|]. split; [intros n []|]. split; [discriminate|]. auto. Qed.
  Lemma ran_rec : forall (k : node -> Prop) (bs : Prop) n b c c', (forall m, k m <-> n = m) -> ~ bs -> rec c n = Ok (b, c') -> ran k bs b c c'.
  Proof.
    intros k bs n b c c' K B H. destruct b.
    - exists [], c. split; [constructor|]. split; [intros m []|]. split; [discriminate|]. intros _. right. exists n. split; [apply K; auto|auto].
    - exists [n], c'. split; [econstructor; eauto; constructor|]. split; [intros m [<-|[]]; apply K; auto|]. split; [|discriminate]. intros _. split; auto. split; auto. intros m Q. left. apply K. auto.
  Qed.
  Lemma ran_then : forall (k1 k2 k : node -> Prop) (b1 b2 bs : Prop) b c c1 c2, ran k1 b1 false c c1 -> ran k2 b2 b c1 c2 -> (forall n, k n <-> k1 n \/ k2 n) -> (bs <-> b1 \/ b2) -> ran k bs b c c2.
  Proof.
    intros k1 k2 k b1 b2 bs b c c1 c2 (l1 & x & C1 & I1 & F1 & _) (l2 & y & C2 & I2 & F2 & T2) K B. destruct (F1 eq_refl) as (-> & N1 & A1). exists (l1 ++ l2), y. split; [eapply calls_app; eauto|].
    split; [intros n Q; apply K; apply in_app_or in Q; destruct Q; auto|]. split.
    - intros E. destruct (F2 E) as (E1 & E2 & E3). split; auto. split; [tauto|]. intros n Q. apply in_or_app. apply K in Q. destruct Q; auto.
    - intros E. destruct (T2 E) as [(E1 & E2)|(n & E1 & E2)]; [left; split; tauto|right]. exists n. split; [apply K; auto|auto].
  Qed.
  Lemma any_st_ran : forall {A} (f : caches -> A -> res (bool * caches)) (kids : A -> node -> Prop) (bs : A -> Prop) l c b c',
    (forall x c b c', In x l -> f c x = Ok (b, c') -> ran (kids x) (bs x) b c c') -> any_st f l c = Ok (b, c') -> ran (fun n => exists x, In x l /\ kids x n) (exists x, In x l /\ bs x) b c c'.
  Proof.
    intros A f kids bs. induction l as [|x l IH]; intros c b c' F H; cbn [any_st] in H.
    - injection H as <- <-. apply ran_false; [intros n (x & [] & _)|intros (x & [] & _)].
    - apply rbind_Ok in H. destruct H as ((b1, c1) & H1 & H). cbn [fst snd] in H. apply F in H1; [|simpl; auto]. destruct b1.
      + injection H as <- <-. destruct H1 as (l1 & y & C & I & _ & T). exists l1, y. split; auto. split; [intros n Q; exists x; simpl; auto|]. split; [discriminate|]. intros E. destruct (T E) as [(E1 & E2)|(n & E1 & E2)]; [left; split; auto; exists x; simpl; auto|right; exists n; split; auto; exists x; simpl; auto].
      + apply IH in H; [|intros; apply F; simpl; auto]. eapply ran_then; [exact H1|exact H| |].
        * intros n. split; [intros (z & [<-|Iz] & Q); [auto|right; exists z; auto]|intros [Q|(z & Iz & Q)]; [exists x|exists z]; simpl; auto].
        * split; [intros (z & [<-|Iz] & Q); [auto|right; exists z; auto]|intros [Q|(z & Iz & Q)]; [exists x|exists z]; simpl; auto].
  Qed.
End CALLS.
Lemma impl_ran : forall rec w s pos deep c b c', impl rec w s pos deep c = Ok (b, c') -> ran (fun (c : caches) (n : node) => rec c (fst (fst n)) (snd (fst n))) (child w (s, pos, deep)) (base w (s, pos, deep)) b c c'.
Proof.
  intros rec w s pos deep c b c' H. unfold impl in H. apply rbind_Ok in H. destruct H as ((b1, c1) & H1 & H). cbn [fst snd] in H. set (R := fun (c : caches) (n : node) => rec c (fst (fst n)) (snd (fst n))).
  pose (k1 := fun n : node => snd n = true /\ exists ts u, from w s pos (fst (fst n)) (snd (fst n)) ts u /\ ~ ts < u).
  assert (A : ran R k1 (base w (s, pos, deep)) b1 c c1).
  { pose (kr := fun (r : nat * list Z) (n : node) => fst (fst n) = fst r /\ snd n = true /\ exists ts u p, In ts (snd r) /\ w_pos w ts = Some (snd (fst n)) /\ snd (fst n) <= pos /\ In u (y_updated (w_sym w (fst r))) /\ w_pos w u = Some p /\ p <= snd (fst n) /\ ~ ts < u).
    pose (br := fun (r : nat * list Z) => exists ts u q p, In ts (snd r) /\ w_pos w ts = Some q /\ q <= pos /\ In u (y_updated (w_sym w (fst r))) /\ w_pos w u = Some p /\ p <= q /\ ts < u).
    eapply ran_iff; [| |eapply (any_st_ran R _ kr br); [|exact H1]].
    - intros n. unfold k1, kr, from. split.
      + intros ((p, l) & I & E & D & ts & u & r & Q1 & Q2 & Q3 & Q4 & Q5 & Q6 & Q7). simpl in *. subst p. split; auto. exists ts, u. split; auto. exists l, r. auto 8.
      + intros (D & ts & u & (l & r & Q0 & Q1 & Q2 & Q3 & Q4 & Q5 & Q6) & Q7). exists (fst (fst n), l). split; auto. simpl. split; auto. split; auto. exists ts, u, r. auto 8.
    - unfold base, br, from. simpl. split.
      + intros ((p, l) & I & ts & u & q & r & Q1 & Q2 & Q3 & Q4 & Q5 & Q6 & Q7). simpl in *. exists p, q, ts, u. split; auto. exists l, r. auto 8.
      + intros (p & q & ts & u & (l & r & Q0 & Q1 & Q2 & Q3 & Q4 & Q5 & Q6) & Q7). exists (p, l). split; auto. simpl. exists ts, u, q, r. auto 8.
    - clear H1 b1 c1 H c b c'. intros r c b c' I H.
      pose (kt := fun (ts : Z) (n : node) => fst (fst n) = fst r /\ snd n = true /\ exists u p, w_pos w ts = Some (snd (fst n)) /\ snd (fst n) <= pos /\ In u (y_updated (w_sym w (fst r))) /\ w_pos w u = Some p /\ p <= snd (fst n) /\ ~ ts < u).
      pose (bt := fun (ts : Z) => exists u q p, w_pos w ts = Some q /\ q <= pos /\ In u (y_updated (w_sym w (fst r))) /\ w_pos w u = Some p /\ p <= q /\ ts < u).
      eapply ran_iff; [| |eapply (any_st_ran R _ kt bt); [|exact H]].
      + intros n. unfold kt, kr. split; [intros (ts & It & E & D & u & p & Q); split; auto; split; auto; exists ts, u, p; split; auto|intros (E & D & ts & u & p & It & Q); exists ts; split; auto; split; auto; split; auto; exists u, p; auto].
      + unfold bt, br. split; [intros (ts & It & u & q & p & Q); exists ts, u, q, p; split; auto|intros (ts & u & q & p & It & Q); exists ts; split; auto; exists u, q, p; auto].
      + clear H c b c'. intros ts c b c' It H. apply rbind_Ok in H. destruct H as (q & Hq & H). apply of_option_Ok in Hq. destruct (Z.ltb_spec pos q) as [Lq|Lq].
        { injection H as <- <-. apply ran_false; [intros n (_ & _ & u & p & Q & Q' & _); rewrite Q in Hq; injection Hq as <-; lia|intros (u & q' & p & Q & Q' & _); rewrite Q in Hq; injection Hq as <-; lia]. }
        pose (ku := fun (u : Z) (n : node) => n = (fst r, q, true) /\ exists p, w_pos w u = Some p /\ p <= q /\ ~ ts < u).
        pose (bu := fun (u : Z) => exists p, w_pos w u = Some p /\ p <= q /\ ts < u).
        eapply ran_iff; [| |eapply (any_st_ran R _ ku bu); [|exact H]].
        * intros n. unfold ku, kt. split; [intros (u & Iu & -> & p & Q1 & Q2 & Q3); simpl; split; auto; split; auto; exists u, p; auto 8|].
          intros (E & D & u & p & Q1 & Q2 & Q3 & Q4 & Q5 & Q6). exists u. split; auto. assert (q = snd (fst n)) by congruence. split; [destruct n as ((a, e), d); simpl in *; congruence|]. subst q. exists p. auto.
        * unfold bu, bt. split; [intros (u & Iu & p & Q1 & Q2 & Q3); exists u, q, p; auto 8|intros (u & q' & p & Q1 & Q2 & Q3 & Q4 & Q5 & Q6); assert (q' = q) by congruence; subst q'; exists u; split; auto; exists p; auto].
        * clear H c b c'. intros u c b c' Iu H. apply rbind_Ok in H. destruct H as (p & Hp & H). apply of_option_Ok in Hp. unfold ku, bu.
          destruct (Z.ltb_spec q p) as [Lp|Lp]; [injection H as <- <-; apply ran_false; [intros n (_ & p' & Q1 & Q2 & _)|intros (p' & Q1 & Q2 & _)]; rewrite Q1 in Hp; injection Hp as <-; lia|].
          destruct (Z.ltb_spec ts u) as [Lt|Lt]; [injection H as <- <-; apply ran_true; exists p; auto|].
          apply ran_rec with (n := (fst r, q, true)); auto; [|intros (p' & _ & _ & Q); lia]. intros m. split; [intros (-> & _); auto|]. intros <-. split; auto. exists p. split; auto. split; auto. lia. }
  assert (K : forall n, child w (s, pos, deep) n <-> k1 n \/ snd n = true /\ deep = true /\ In (fst (fst n)) (y_members (w_sym w s)) /\ snd (fst n) = pos).
  { intros n. unfold child, k1. simpl. intuition. }
  destruct b1.
  - injection H as <- <-. destruct A as (l & x & C & I & _ & T). exists l, x. split; auto. split; [intros n Q; apply K; auto|]. split; [discriminate|]. intros E. destruct (T E) as [Q|(n & Q1 & Q2)]; auto. right. exists n. split; [apply K; auto|auto].
  - destruct deep.
    + pose (km := fun (m : nat) (n : node) => n = (m, pos, true)).
      assert (B : ran R (fun n => exists m, In m (y_members (w_sym w s)) /\ km m n) (exists m, In m (y_members (w_sym w s)) /\ False) b c1 c').
      { eapply any_st_ran; [|exact H]. intros m d b' d' Im Hm. apply ran_rec with (n := (m, pos, true)); auto. intros n. unfold km. split; auto. }
      eapply ran_then; [exact A|exact B| |].
      * intros n. rewrite K. split; [intros [Q|(Q1 & _ & Q2 & Q3)]; auto; right; exists (fst (fst n)); split; auto; unfold km; destruct n as ((x, y), z); simpl in *; congruence|intros [Q|(m & Q1 & ->)]; auto].
      * split; auto. intros [Q|(m & _ & [])]. auto.
    + injection H as <- <-. eapply ran_iff; [|reflexivity|exact A]. intros n. rewrite K. split; auto. intros [Q|(_ & Q & _)]; [auto|discriminate].
Qed.
Lemma ran_ext : forall R R' (kids : node -> Prop) (bs : Prop) b c c', (forall c n, kids n -> R c n = R' c n) -> ran R kids bs b c c' -> ran R' kids bs b c c'.
Proof.
  intros R R' kids bs b c c' E (l & c1 & C & I & F & T). exists l, c1. split.
  - clear F T. induction C as [c|n l c d e H C IH]; [constructor|]. econstructor; [rewrite <- E; [exact H|apply I; simpl; auto]|]. apply IH. intros m Q. apply I. simpl. auto.
  - split; auto. split; auto. intros Eb. destruct (T Eb) as [Q|(n & Q1 & Q2)]; auto. right. exists n. split; auto. rewrite <- E; auto.
Qed.
Lemma calls_prefix : forall R (P : list node -> caches -> Prop) l c c', calls R l c c' -> P [] c -> (forall done n d d', In n l -> P done d -> R d n = Ok (false, d') -> P (done ++ [n]) d') -> P l c'.
Proof.
  intros R P l c c' H. assert (G : forall done, P done c -> (forall dn n d d', In n l -> P dn d -> R d n = Ok (false, d') -> P (dn ++ [n]) d') -> P (done ++ l) c').
  { induction H as [c|n l c c1 c2 Q C IH]; intros done P0 S; [rewrite app_nil_r; auto|]. replace (done ++ n :: l) with ((done ++ [n]) ++ l) by (rewrite <- app_assoc; auto). apply IH; [eapply S; eauto; simpl; auto|]. intros; eapply S; eauto. simpl. auto. }
  intros P0 S. apply (G [] P0 S).
Qed.

(** * Caches *)
Definition atn (f : nat) (w : world) (c : caches) (n : node) : res (bool * caches) := at_position f w c (fst (fst n)) (snd (fst n)) (snd n).
Definition view (w : world) (c : caches) (n : node) : option bool := if fst (c (fst (fst n))) <? w_now w then None else snd (c (fst (fst n))) (snd (fst n)) (snd n).
Definition mono (w : world) (c c' : caches) : Prop := forall s, (w_now w <= fst (c s) -> w_now w <= fst (c' s)) /\ (fst (c s) <= w_now w -> fst (c' s) <= w_now w).
Lemma mono_refl : forall w c, mono w c c.
Proof. intros w c s. split; auto. Qed.
Lemma mono_trans : forall w a b c, mono w a b -> mono w b c -> mono w a c.
Proof. intros w a b c H1 H2 s. destruct (H1 s), (H2 s). split; auto. Qed.
Lemma mono_put : forall w c s pos deep b, mono w c (put c s pos deep b).
Proof. intros w c s pos deep b s'. unfold put. destruct (Nat.eqb_spec s' s) as [->|]; simpl; auto. Qed.
Definition renew (w : world) (c : caches) (s : nat) : caches := if fst (c s) <? w_now w then clear c s (w_now w) else c.
Lemma mono_renew : forall w c s, mono w c (renew w c s).
Proof.
  intros w c s s'. unfold renew. destruct (Z.ltb_spec (fst (c s)) (w_now w)); auto. unfold clear. destruct (Nat.eqb_spec s' s) as [->|]; simpl; auto. split; intros; lia.
Qed.
Lemma renew_ready : forall w c s, w_now w <= fst (renew w c s s).
Proof. intros w c s. unfold renew. destruct (Z.ltb_spec (fst (c s)) (w_now w)); auto. unfold clear. rewrite Nat.eqb_refl. simpl. lia. Qed.
Lemma view_renew : forall w c s n, view w (renew w c s) n = view w c n.
Proof.
  intros w c s n. unfold view, renew. destruct (Z.ltb_spec (fst (c s)) (w_now w)) as [L|]; auto. unfold clear. destruct (Nat.eqb_spec (fst (fst n)) s) as [->|]; auto. simpl. rewrite Z.ltb_irrefl. apply Z.ltb_lt in L. rewrite L. auto.
Qed.
Lemma node_dec : forall a b : node, {a = b} + {a <> b}.
Proof. intros ((a1, a2), a3) ((b1, b2), b3). destruct (Nat.eq_dec a1 b1), (Z.eq_dec a2 b2), (bool_dec a3 b3); subst; auto; right; congruence. Qed.
Lemma view_put : forall w c s pos deep b n, w_now w <= fst (c s) -> view w (put c s pos deep b) n = if node_dec n (s, pos, deep) then Some b else view w c n.
Proof.
  intros w c s pos deep b ((s', p), d) R. unfold view, put. simpl. destruct (Nat.eqb_spec s' s) as [->|N]; simpl.
  - assert (E : fst (c s) <? w_now w = false) by (apply Z.ltb_ge; auto). rewrite E. destruct (node_dec (s, p, d) (s, pos, deep)) as [[= -> ->]|Ne]; [rewrite Z.eqb_refl, eqb_reflx; auto|].
    destruct (Z.eqb_spec p pos) as [->|]; auto. destruct (Bool.eqb d deep) eqn:D; auto. apply eqb_prop in D. subst. congruence.
  - destruct (node_dec (s', p, d) (s, pos, deep)) as [E|]; auto. congruence.
Qed.
Lemma at_mono : forall f w c n b c', atn f w c n = Ok (b, c') -> mono w c c'.
Proof.
  unfold atn. induction f as [|f IH]; intros w c ((s, pos), deep) b c' H; simpl fst in *; simpl snd in *; cbn [at_position] in H; [discriminate|]. apply rbind_Ok in H. destruct H as (g & _ & H).
  destruct (negb g); [injection H as <- <-; apply mono_refl|]. destruct (w_any w); [injection H as <- <-; apply mono_refl|]. cbv zeta in H. fold (renew w c s) in H. destruct (snd (renew w c s s) pos deep) as [v|].
  - injection H as <- <-. apply mono_renew.
  - apply rbind_Ok in H. destruct H as ((b2, c2) & H & E). injection E as <- <-. simpl. apply impl_ran in H. destruct H as (l & c1 & C & I & F & T).
    assert (M : mono w (put (renew w c s) s pos deep false) c1). { refine (calls_prefix _ (fun _ d => mono w _ d) l _ _ C (mono_refl _ _) _). intros done n d d' In M Q. eapply mono_trans; [exact M|]. eapply (IH w d (fst (fst n), snd (fst n), true)). exact Q. }
    eapply mono_trans; [apply mono_renew|]. eapply mono_trans; [apply mono_put|]. eapply mono_trans; [exact M|]. eapply mono_trans; [|apply mono_put]. destruct b2.
    + destruct (T eq_refl) as [(-> & _)|(n & _ & Q)]; [apply mono_refl|]. eapply (IH w c1 (fst (fst n), snd (fst n), true)). exact Q.
    + destruct (F eq_refl) as (-> & _). apply mono_refl.
Qed.
(** What a question does to what is cached. *)
Inductive done (f : nat) (w : world) (c : caches) (n : node) : bool -> caches -> Prop :=
| d_not : ~ gated w n -> done f w c n false c
| d_any : gated w n -> w_any w = true -> done f w c n true c
| d_known : forall b c', gated w n -> w_any w = false -> view w c n = Some b -> (forall m, view w c' m = view w c m) -> done f w c n b c'
| d_new : forall b c1 c2 c', gated w n -> w_any w = false -> view w c n = None -> (forall m, view w c1 m = if node_dec m n then Some false else view w c m) ->
    ran (atn f w) (child w n) (base w n) b c1 c2 -> (forall m, view w c' m = if node_dec m n then Some b else view w c2 m) -> done f w c n b c'.
Lemma at_done : forall f w c n b c', atn (S f) w c n = Ok (b, c') -> done f w c n b c'.
Proof.
  unfold atn. intros f w c ((s, pos), deep) b c' H; simpl fst in *; simpl snd in *; cbn [at_position] in H. apply rbind_Ok in H. destruct H as (g & G & H).
  assert (Gs : g = true <-> gated w (s, pos, deep)). { unfold gated, gate. simpl. destruct deep; [eapply is_waiting_spec; eauto|injection G as <-; apply shallow_spec]. }
  destruct g; cbn [negb] in H; [|injection H as <- <-; apply d_not; intros Q; apply Gs in Q; discriminate]. assert (Gd : gated w (s, pos, deep)) by (apply Gs; auto).
  destruct (w_any w) eqn:An; [injection H as <- <-; apply d_any; auto|]. cbv zeta in H. fold (renew w c s) in H.
  assert (V : snd (renew w c s s) pos deep = view w c (s, pos, deep)).
  { rewrite <- (view_renew w c s). unfold view. simpl. pose proof (renew_ready w c s) as R. apply Z.ltb_ge in R. rewrite R. auto. }
  rewrite V in H. destruct (view w c (s, pos, deep)) as [v|] eqn:Vn.
  - injection H as <- <-. apply d_known; auto. intros m. apply view_renew.
  - apply rbind_Ok in H. destruct H as ((b2, c2) & H & E). injection E as <- <-. simpl. apply impl_ran in H.
    assert (H' : ran (atn f w) (child w (s, pos, deep)) (base w (s, pos, deep)) b2 (put (renew w c s) s pos deep false) c2).
    { eapply ran_ext; [|exact H]. intros d m (K & _). unfold atn. rewrite K. auto. }
    eapply d_new; eauto.
    + intros m. rewrite view_put by apply renew_ready. rewrite view_renew. auto.
    + intros m. rewrite view_put; auto. enough (M : mono w (put (renew w c s) s pos deep false) c2) by (apply (M s); apply (mono_put w (renew w c s) s pos deep false s), renew_ready).
      destruct H' as (l & d & C & I & F & T). assert (M : mono w (put (renew w c s) s pos deep false) d).
      { refine (calls_prefix _ (fun _ d => mono w _ d) l _ _ C (mono_refl _ _) _). intros dn n x x' In M Q. eapply mono_trans; [exact M|]. eapply at_mono; eauto. }
      destruct b2; [destruct (T eq_refl) as [(-> & _)|(n & _ & Q)]; auto; eapply mono_trans; [exact M|eapply at_mono; eauto]|destruct (F eq_refl) as (-> & _); auto].
Qed.
Lemma at_zero : forall w c n r, atn 0 w c n = Ok r -> False.
Proof. discriminate. Qed.
Lemma at_keeps : forall f w c n b c', atn f w c n = Ok (b, c') -> forall m v, view w c m = Some v -> view w c' m = Some v.
Proof.
  induction f as [|f IH]; intros w c n b c' H m v V; [destruct (at_zero _ _ _ _ H)|]. apply at_done in H. inversion H as [N|G An|b0 c0 G An Vn E|b0 c1 c2 c0 G An Vn E1 (l & d & C & I & F & T) E2]; subst; auto; [rewrite E; auto|].
  rewrite E2. destruct (node_dec m n) as [->|Ne]; [congruence|]. assert (V1 : view w c1 m = Some v) by (rewrite E1; destruct (node_dec m n); congruence).
  assert (Vd : view w d m = Some v). { refine (calls_prefix _ (fun _ d => view w d m = Some v) l _ _ C V1 _). intros; eapply IH; eauto. }
  destruct b; [destruct (T eq_refl) as [(-> & _)|(k & _ & Q)]; auto; eapply IH; eauto|destruct (F eq_refl) as (-> & _); auto].
Qed.
Lemma calls_keeps : forall f w l c c', calls (atn f w) l c c' -> forall m v, view w c m = Some v -> view w c' m = Some v.
Proof. intros f w l c c' C m v V. refine (calls_prefix _ (fun _ d => view w d m = Some v) l _ _ C V _). intros; eapply at_keeps; eauto. Qed.

(** * Answers *)
Definition holds (w : world) (n : node) : Prop := waits w (fst (fst n)) (snd (fst n)) (snd n).
Lemma holds_base : forall w n, gated w n -> base w n -> holds w n.
Proof. intros w n G (p & q & ts & u & Fr & L). eapply newer; eauto. Qed.
Lemma holds_child : forall w n m, gated w n -> child w n m -> holds w m -> holds w n.
Proof.
  intros w ((s, pos), deep) ((p, q), e) G (E & K) H. unfold gated, holds in *. simpl in *. subst e. destruct K as [(ts & u & Fr & _)|(-> & I & ->)]; [eapply older; eauto|eapply inside; eauto].
Qed.
Lemma holds_inv : forall w n, w_any w = false -> holds w n -> gated w n /\ (base w n \/ exists m, child w n m /\ holds w m).
Proof.
  intros w ((s, pos), deep) An H. unfold holds, gated in *. simpl in *. inversion H as [? ? ? G A|? ? ? p q ts u G Fr L|? ? ? p q ts u G Fr W|? ? m G I W]; subst.
  - congruence.
  - split; auto. left. exists p, q, ts, u. auto.
  - split; auto. destruct (Z.lt_ge_cases ts u) as [L|L]; [left; exists p, q, ts, u; auto|]. right. exists (p, q, true). split; auto. split; auto. left. exists ts, u. split; auto. lia.
  - split; auto. right. exists (m, pos, true). split; auto. split; auto. 
Qed.
Definition sound (w : world) (c : caches) : Prop := forall m, view w c m = Some true -> holds w m.
Lemma at_sound : forall f w c n b c', atn f w c n = Ok (b, c') -> sound w c -> sound w c' /\ (b = true -> holds w n).
Proof.
  induction f as [|f IH]; intros w c n b c' H S; [destruct (at_zero _ _ _ _ H)|]. apply at_done in H. inversion H as [N|G An|b0 c0 G An Vn E|b0 c1 c2 c0 G An Vn E1 (l & d & C & I & F & T) E2]; subst.
  - split; auto. discriminate.
  - split; auto. intros _. apply in_any_order; auto.
  - split; [intros m V; apply S; rewrite <- E; auto|]. intros ->. auto.
  - assert (S1 : sound w c1). { intros m V. apply S. rewrite E1 in V. destruct (node_dec m n); congruence. }
    assert (Sd : sound w d). { refine (calls_prefix _ (fun _ d => sound w d) l _ _ C S1 _). intros dn k x x' Ik Sx Q. eapply IH; eauto. }
    assert (R : sound w c2 /\ (b = true -> holds w n)).
    { destruct b; [|destruct (F eq_refl) as (-> & _); split; auto; discriminate]. destruct (T eq_refl) as [(-> & B)|(k & K & Q)]; [split; auto; intros _; apply holds_base; auto|]. destruct (IH _ _ _ _ _ Q Sd) as (S2 & Hk). split; auto. intros _. eapply holds_child; eauto. }
    destruct R as (S2 & Hn). split; auto. intros m V. rewrite E2 in V. destruct (node_dec m n) as [->|]; [apply Hn; congruence|auto].
Qed.
(** When the answer is no, then all that was looked at was so. *)
Definition settled (w : world) (c : caches) (m : node) : Prop := view w c m = Some false /\ gated w m /\ ~ base w m /\ w_any w = false /\ forall k, child w m k -> gated w k -> view w c k = Some false.
Lemma at_closed : forall f w c n c', atn f w c n = Ok (false, c') -> (gated w n -> view w c' n = Some false) /\ (forall m, view w c m = None -> view w c' m <> None -> settled w c' m).
Proof.
  induction f as [|f IH]; intros w c n c' H; [destruct (at_zero _ _ _ _ H)|]. pose proof (at_keeps _ _ _ _ _ _ H) as Kp. apply at_done in H. inversion H as [N|G An|b0 c0 G An Vn E|b0 c1 c2 c0 G An Vn E1 R E2]; subst.
  - split; [contradiction|congruence].
  - split; [intros _; rewrite E; auto|]. intros m V V'. rewrite E in V'. congruence.
  - destruct R as (l & d & C & I & F & _). destruct (F eq_refl) as (-> & Nb & All). clear F.
    pose (P := fun (dn : list node) x => (forall m v, view w c1 m = Some v -> view w x m = Some v) /\ (forall k, In k dn -> gated w k -> view w x k = Some false) /\ (forall m, view w c1 m = None -> view w x m <> None -> settled w x m)).
    assert (Q : P l d).
    { refine (calls_prefix _ P l _ _ C _ _); [split; auto; split; [intros k []|congruence]|]. intros dn k x x' Ik (P1 & P2 & P3) Q. pose proof (at_keeps _ _ _ _ _ _ Q) as Kx. destruct (IH _ _ _ _ Q) as (Q1 & Q2).
      split; [auto|]. split; [intros k' Ik' Gk'; apply in_app_or in Ik'; destruct Ik' as [Ik'|[<-|[]]]; auto|]. intros m V V'. destruct (view w x m) as [v|] eqn:Vx.
      - assert (S : settled w x m) by (apply P3; congruence). destruct S as (S1 & S2 & S3 & S4 & S5). split; [apply Kx; auto|]. repeat apply conj; auto.
      - apply Q2; auto. }
    destruct Q as (Q1 & Q2 & Q3). split; [intros _; rewrite E2; destruct (node_dec n n); congruence|].
    assert (V2 : forall k, view w d k = Some false -> view w c' k = Some false) by (intros k Vk; rewrite E2; destruct (node_dec k n); auto).
    intros m V V'. destruct (node_dec m n) as [->|Ne].
    + split; [rewrite E2; destruct (node_dec n n); congruence|]. repeat apply conj; auto.
    + assert (S : settled w d m). { apply Q3; [rewrite E1; destruct (node_dec m n); congruence|]. rewrite E2 in V'. destruct (node_dec m n); congruence. }
      destruct S as (S1 & S2 & S3 & S4 & S5). split; auto. repeat apply conj; auto.
Qed.
Lemma holds_gated : forall w n, holds w n -> gated w n.
Proof. intros w ((s, pos), deep) H. unfold holds, gated in *. simpl in *. inversion H; auto. Qed.
Lemma at_first : forall f w c n b c', atn f w c n = Ok (b, c') -> (forall m, view w c m = None) -> (b = true <-> holds w n).
Proof.
  intros f w c n b c' H Em. destruct (at_sound _ _ _ _ _ _ H) as (_ & S); [intros m V; congruence|]. split; auto. intros Hn. destruct b; auto. exfalso. destruct (at_closed _ _ _ _ _ H) as (C1 & C2).
  destruct (w_any w) eqn:An.
  { destruct f; [destruct (at_zero _ _ _ _ H)|]. apply at_done in H. inversion H; subst; try congruence. apply holds_gated in Hn. contradiction. }
  assert (A : forall s pos deep, waits w s pos deep -> view w c' (s, pos, deep) <> Some false).
  { intros s pos deep W. induction W as [s pos deep G A|s pos deep p q ts u G Fr L|s pos deep p q ts u G Fr W IH|s pos m G I W IH]; intros V.
    - congruence.
    - destruct (C2 (s, pos, deep) (Em _)) as (_ & _ & B & _); [rewrite V; discriminate|]. apply B. exists p, q, ts, u. auto.
    - destruct (C2 (s, pos, deep) (Em _)) as (_ & _ & B & _ & K); [rewrite V; discriminate|]. destruct (Z.lt_ge_cases ts u) as [L|L]; [apply B; exists p, q, ts, u; auto|]. apply IH. apply K.
      + split; auto. left. exists ts, u. split; auto. lia.
      + apply (holds_inv w (p, q, true)); auto.
    - destruct (C2 (s, pos, true) (Em _)) as (_ & _ & B & _ & K); [rewrite V; discriminate|]. apply IH. apply K; [split; auto|]. apply (holds_inv w (m, pos, true)); auto. }
  destruct n as ((s, pos), deep). apply (A s pos deep Hn). apply C1. apply (holds_inv w (s, pos, deep)); auto.
Qed.
Lemma classic_gate : forall f w c n b c', atn f w c n = Ok (b, c') -> gated w n \/ ~ gated w n /\ b = false /\ c' = c.
Proof. intros f w c n b c' H. destruct f; [destruct (at_zero _ _ _ _ H)|]. apply at_done in H. inversion H; subst; auto. Qed.
(** Where nothing depends on itself every answer is right. *)
Lemma at_acyclic : forall f w, acyclic w -> forall c n b c' (X : node -> Prop), atn f w c n = Ok (b, c') -> (forall m v, view w c m = Some v -> ~ X m -> (v = true <-> holds w m)) ->
  (forall m, X m -> m <> n /\ ~ clos_trans node (edge w) n m) -> (gated w n -> ~ X n) ->
  (b = true <-> holds w n) /\ (forall m v, view w c' m = Some v -> ~ X m -> (v = true <-> holds w m)).
Proof.
  induction f as [|f IH]; intros w Ac c n b c' X H Ex NX NXn; [destruct (at_zero _ _ _ _ H)|]. apply at_done in H. inversion H as [N|G An|b0 c0 G An Vn E|b0 c1 c2 c0 G An Vn E1 R E2]; subst.
  - split; auto. split; [discriminate|]. intros Hn. exfalso. apply N. apply holds_gated. auto.
  - split; auto. split; auto. intros _. apply in_any_order; auto.
  - split; [apply Ex; auto|]. intros m v V. rewrite E in V. auto.
  - destruct R as (l & d & C & I & F & T). pose (X' := fun m => X m \/ m = n).
    assert (Ed : forall k, child w n k -> gated w k -> edge w n k). { intros k (K1 & K2) Gk. split; auto. split; auto. split; auto. destruct K2 as [(ts & u & Fr & _)|K2]; [left; eauto|auto]. }
    assert (Ki : forall k x x' b', child w n k -> atn f w x k = Ok (b', x') -> (forall m v, view w x m = Some v -> ~ X' m -> (v = true <-> holds w m)) ->
      (b' = true <-> holds w k) /\ (forall m v, view w x' m = Some v -> ~ X' m -> (v = true <-> holds w m))).
    { intros k x x' b' K Q Ex'. destruct (classic_gate f w x k b' x' Q) as [Gk|Nk]. 
      - apply (IH w Ac x k b' x' X' Q Ex').
        + intros m [Xm| ->].
          * destruct (NX m Xm) as (N1 & N2). split; [intros ->; apply N2; apply t_step, Ed; auto|]. intros P. apply N2. apply t_trans with k; [apply t_step, Ed; auto|exact P].
          * split; [intros ->; apply (Ac k); apply t_step, Ed; auto|]. intros P. apply (Ac n). apply t_trans with k; [apply t_step, Ed; auto|exact P].
        + intros _ [Xk| ->]; [|apply (Ac n), t_step, Ed; auto]. destruct (NX k Xk) as (_ & N2). apply N2, t_step, Ed; auto.
      - destruct Nk as (Nk & -> & ->). split; auto. split; [discriminate|]. intros Hk. destruct (holds_inv w k An Hk). contradiction. }
    assert (Ex1 : forall m v, view w c1 m = Some v -> ~ X' m -> (v = true <-> holds w m)).
    { intros m v V N. rewrite E1 in V. destruct (node_dec m n) as [->|Ne]; [destruct N; right; auto|]. apply Ex; auto. intros Xm. apply N. left. auto. }
    pose (P := fun (dn : list node) x => (forall m v, view w x m = Some v -> ~ X' m -> (v = true <-> holds w m)) /\ forall k, In k dn -> ~ holds w k).
    assert (Q : P l d).
    { refine (calls_prefix _ P l _ _ C _ _); [split; auto; intros k []|]. intros dn k x x' Ik (P1 & P2) Q. destruct (Ki k x x' false (I k Ik) Q P1) as (R1 & R2). split; auto.
      intros k' Ik'. apply in_app_or in Ik'. destruct Ik' as [Ik'|[<-|[]]]; auto. intros Hk. apply R1 in Hk. discriminate. }
    destruct Q as (Q1 & Q2).
    assert (Z : (b = true <-> holds w n) /\ (forall m v, view w c2 m = Some v -> ~ X' m -> (v = true <-> holds w m))).
    { destruct b.
      - destruct (T eq_refl) as [(-> & B)|(k & K & Q)]; [split; auto; split; auto; intros _; apply holds_base; auto|]. destruct (Ki k d c2 true K Q Q1) as (R1 & R2). split; auto. split; auto. intros _. eapply holds_child; eauto. apply R1. auto.
      - destruct (F eq_refl) as (-> & Nb & All). split; auto. split; [discriminate|]. intros Hn. destruct (holds_inv w n An Hn) as (_ & [B|(k & K & Hk)]); [contradiction|]. destruct (Q2 k (All k K) Hk). }
    destruct Z as (Z1 & Z2). split; auto. intros m v V N. rewrite E2 in V. destruct (node_dec m n) as [->|Ne]; [injection V as <-; auto|]. apply Z2; auto. intros [Xm|Xm]; auto.
Qed.

(** * Sequences of questions *)
Definition qn (q : question) : node := (q_s q, q_pos q, q_deep q).
Lemma view_old : forall w c, (forall s, fst (c s) < w_now w) -> forall n, view w c n = None.
Proof. intros w c H n. unfold view. specialize (H (fst (fst n))). apply Z.ltb_lt in H. rewrite H. auto. Qed.
Lemma asks_inv : forall f (P : world -> caches -> Prop) (A : world -> node -> bool -> Prop) l t c bs c',
  (forall q c, In q l -> (forall n, view (q_w q) c n = None) -> P (q_w q) c) ->
  (forall q c b c', In q l -> P (q_w q) c -> atn f (q_w q) c (qn q) = Ok (b, c') -> P (q_w q) c' /\ A (q_w q) (qn q) b) ->
  (forall s, fst (c s) <= t) -> (forall q, In q l -> w_now (q_w q) = t -> P (q_w q) c) -> in_time t l -> asks f l c = Ok (bs, c') -> Forall2 (fun q b => A (q_w q) (qn q) b) l bs.
Proof.
  intros f P A. induction l as [|q l IH]; intros t c bs c' Em St Bd Pc Tm H; cbn [asks] in H.
  - injection H as <- <-. constructor.
  - apply rbind_Ok in H. destruct H as ((b, c1) & H1 & H). apply rmap_Ok in H. destruct H as ((bs2, c2) & H2 & E). injection E as <- <-. cbn [fst snd] in *. destruct Tm as (T1 & T2 & T3).
    assert (Pq : P (q_w q) c). { destruct (Z.eq_dec (w_now (q_w q)) t) as [E|N]; [apply Pc; simpl; auto|]. apply Em; [simpl; auto|]. apply view_old. intros s. specialize (Bd s). lia. }
    pose proof (at_mono f (q_w q) c (qn q) b c1 H1) as M. destruct (St q c b c1 (or_introl eq_refl) Pq H1) as (P1 & A1). constructor; auto.
    eapply (IH (w_now (q_w q)) c1); eauto.
    + intros q' d I. apply Em. simpl. auto.
    + intros q' d b' d' I. apply St. simpl. auto.
    + intros s. apply M. specialize (Bd s). lia.
    + intros q' I E. rewrite (T2 q' I E). auto.
Qed.
Lemma asks_bound : forall f l t c bs c' T, in_time t l -> (forall s, fst (c s) <= t) -> asks f l c = Ok (bs, c') -> t <= T -> (forall q, In q l -> w_now (q_w q) <= T) -> forall s, fst (c' s) <= T.
Proof.
  intros f. induction l as [|q l IH]; intros t c bs c' T Tm Bd H Lt Lq s; cbn [asks] in H.
  - injection H as <- <-. specialize (Bd s). lia.
  - apply rbind_Ok in H. destruct H as ((b, c1) & H1 & H). apply rmap_Ok in H. destruct H as ((bs2, c2) & H2 & E). injection E as <- <-. cbn [fst snd] in *. destruct Tm as (T1 & T2 & T3).
    pose proof (at_mono f (q_w q) c (qn q) b c1 H1) as M. eapply (IH _ _ _ _ T T3); [|exact H2| |]; [|apply Lq; simpl; auto|intros; apply Lq; simpl; auto]. intros s'. apply M. specialize (Bd s'). lia.
Qed.
Lemma asks_app : forall f l q c bs c', asks f (l ++ [q]) c = Ok (bs, c') -> exists bs1 b c1, bs = bs1 ++ [b] /\ asks f l c = Ok (bs1, c1) /\ atn f (q_w q) c1 (qn q) = Ok (b, c').
Proof.
  intros f. induction l as [|x l IH]; intros q c bs c' H; cbn [asks app] in H; apply rbind_Ok in H; destruct H as ((b, c1) & H1 & H); apply rmap_Ok in H; destruct H as ((bs2, c2) & H2 & E); injection E as <- <-; cbn [fst snd] in *.
  - injection H2 as <- <-. exists [], b, c. auto.
  - destruct (IH _ _ _ _ H2) as (bs1 & b' & d & -> & Q1 & Q2). exists (b :: bs1), b', d. split; auto. split; auto. cbn [asks]. rewrite H1. cbn [rbind fst snd]. rewrite Q1. auto.
Qed.

(** * Termination *)
Lemma any_st_total : forall {A} (I : caches -> Prop) (f : caches -> A -> res (bool * caches)) l c, (forall x c, In x l -> I c -> exists b c', f c x = Ok (b, c') /\ I c') -> I c -> exists b c', any_st f l c = Ok (b, c') /\ I c'.
Proof.
  intros A I f. induction l as [|x l IH]; intros c F Ic; cbn [any_st]; [eauto|]. destruct (F x c (or_introl eq_refl) Ic) as (b & c1 & -> & I1). cbn [rbind fst snd]. destruct b; [eauto|]. apply IH; auto. intros; apply F; simpl; auto.
Qed.
Definition open_ (w : world) (U : list node) (c : caches) : nat := length (filter (fun n => match view w c n with None => true | Some _ => false end) U).
Lemma open_le : forall w U c c', (forall m v, view w c m = Some v -> exists v', view w c' m = Some v') -> (open_ w U c' <= open_ w U c)%nat.
Proof.
  intros w U c c' H. unfold open_. induction U as [|n U IH]; simpl; auto. destruct (view w c n) as [v|] eqn:V; [destruct (H _ _ V) as (v' & ->); auto|]. destruct (view w c' n); simpl; lia.
Qed.
Lemma open_lt : forall w U c c' n, (forall m v, view w c m = Some v -> exists v', view w c' m = Some v') -> In n U -> view w c n = None -> (exists v, view w c' n = Some v) -> (open_ w U c' < open_ w U c)%nat.
Proof.
  intros w U c c' n H I N (v & V). induction U as [|m U IH]; [destruct I|]. pose proof (open_le w U c c' H) as L. unfold open_ in *. simpl. destruct I as [->|I].
  - rewrite N, V. simpl. lia.
  - specialize (IH I). destruct (view w c m) as [v2|] eqn:V2; [destruct (H _ _ V2) as (v3 & ->); auto|]. destruct (view w c' m); simpl; lia.
Qed.
Section TOTAL.
  Variables (w : world) (U : list node) (d : nat).
  Hypothesis closed : forall n k, In n U -> snd k = true -> ((exists ts u, from w (fst (fst n)) (snd (fst n)) (fst (fst k)) (snd (fst k)) ts u) \/ snd n = true /\ In (fst (fst k)) (y_members (w_sym w (fst (fst n)))) /\ snd (fst k) = snd (fst n)) -> In k U.
  Hypothesis known : forall n p l ts, In n U -> In (p, l) (y_parents (w_sym w (fst (fst n)))) -> In ts l \/ In ts (y_updated (w_sym w p)) -> w_pos w ts <> None.
  Hypothesis ends : forall n, In n U -> exists b, is_waiting d w (fst (fst n)) = Ok b.
  Lemma at_total : forall f c n, (d + open_ w U c < f)%nat -> In n U -> exists b c', atn f w c n = Ok (b, c').
  Proof.
    induction f as [|f IH]; intros c ((s, pos), deep) L I; [lia|]. unfold atn. simpl fst. simpl snd. cbn [at_position].
    assert (G : exists g, (if deep then is_waiting f w s else Ok (shallow w s)) = Ok g). { destruct deep; [|eauto]. destruct (ends _ I) as (b & B). exists b. apply is_waiting_more with (f := d); auto. lia. }
    destruct G as (g & ->). cbn [rbind]. destruct g; cbn [negb]; [|eauto]. destruct (w_any w); [eauto|]. cbv zeta. fold (renew w c s). destruct (snd (renew w c s s) pos deep) as [v|] eqn:V; [eauto|].
    assert (Vn : view w c (s, pos, deep) = None). { rewrite <- (view_renew w c s). unfold view. simpl. pose proof (renew_ready w c s) as R. apply Z.ltb_ge in R. rewrite R. auto. }
    set (c1 := put (renew w c s) s pos deep false).
    assert (V1 : forall m, view w c1 m = if node_dec m (s, pos, deep) then Some false else view w c m) by (intros m; unfold c1; rewrite view_put by apply renew_ready; rewrite view_renew; auto).
    assert (L1 : (open_ w U c1 < open_ w U c)%nat).
    { apply open_lt with (n := (s, pos, deep)); auto; [|rewrite V1; destruct (node_dec (s, pos, deep) (s, pos, deep)); eauto; congruence]. intros m v Vm. rewrite V1. destruct (node_dec m (s, pos, deep)); eauto. }
    pose (Q := fun x => (open_ w U x <= open_ w U c1)%nat).
    assert (R : forall x k, Q x -> In k U -> snd k = true -> exists b c', at_position f w x (fst (fst k)) (snd (fst k)) true = Ok (b, c') /\ Q c').
    { intros x k Qx Ik Ek. unfold Q in *. destruct (IH x k ltac:(lia) Ik) as (b & c' & H). unfold atn in H. rewrite Ek in H. exists b, c'. split; auto. enough (open_ w U c' <= open_ w U x)%nat by lia. apply open_le. intros m v Vm. exists v. eapply (at_keeps f w x (fst (fst k), snd (fst k), true)); eauto. }
    enough (T : exists b c', impl (fun c s pos => at_position f w c s pos true) w s pos deep c1 = Ok (b, c')). { destruct T as (b & c' & ->). cbn [rbind fst snd]. eauto. }
    unfold impl.
    assert (A : exists b c', any_st (fun c (r : nat * list Z) =>
      any_st (fun c ts =>
        rbind (of_option KeyError (w_pos w ts)) (fun q =>
          if pos <? q then Ok (false, c)
          else
            any_st (fun c u =>
              rbind (of_option KeyError (w_pos w u)) (fun p =>
                if q <? p then Ok (false, c) else if ts <? u then Ok (true, c) else at_position f w c (fst r) q true)) (y_updated (w_sym w (fst r))) c)) (snd r) c)
      (y_parents (w_sym w s)) c1 = Ok (b, c') /\ Q c').
    { apply (any_st_total Q); [|unfold Q; lia]. intros (p, l) x Ip Qx. cbn [fst snd]. apply (any_st_total Q); auto. clear x Qx. intros ts x Its Qx.
      pose proof (known _ p l ts I Ip (or_introl Its)) as K. destruct (w_pos w ts) as [q|] eqn:Pq; [|congruence]. cbn [of_option rbind]. destruct (Z.ltb_spec pos q) as [Lq|Lq]; [eauto|].
      apply (any_st_total Q); auto. clear x Qx. intros u x Iu Qx. pose proof (known _ p l u I Ip (or_intror Iu)) as K'. destruct (w_pos w u) as [r|] eqn:Pr; [|congruence]. cbn [of_option rbind]. destruct (Z.ltb_spec q r); [eauto|]. destruct (ts <? u); [eauto|].
      apply (R x (p, q, true)); auto. apply (closed (s, pos, deep)); auto. left. exists ts, u. exists l, r. simpl. auto 8. }
    destruct A as (b & c2 & -> & Q2). cbn [rbind fst snd]. destruct b; [eauto|]. destruct deep; [|eauto].
    destruct (any_st_total Q (fun c m => at_position f w c m pos true) (y_members (w_sym w s)) c2) as (b & c' & -> & _); auto; [|eauto]. intros m x Im Qx. apply (R x (m, pos, true)); auto. apply (closed (s, pos, true)); auto.
  Qed.
End TOTAL.
Lemma is_waiting_flat : forall w s, w_min w = -1 -> exists b, is_waiting 1 w s = Ok b.
Proof. intros w s E. cbn [is_waiting]. rewrite E. destruct (y_quiet (w_sym w s)); [eauto|]. destruct (_ <? _); simpl; eauto. Qed.
Lemma is_waiting_rank : forall w (rank : nat -> nat), (forall s m, In m (y_members (w_sym w s)) -> (rank m < rank s)%nat) -> forall f s, (rank s < f)%nat -> exists b, is_waiting f w s = Ok b.
Proof.
  intros w rank R. induction f as [|f IH]; intros s L; [lia|]. cbn [is_waiting]. destruct (y_quiet (w_sym w s)); [eauto|]. destruct (_ <? _); [eauto|]. destruct (_ =? _); [eauto|].
  assert (A : forall m, In m (y_members (w_sym w s)) -> exists b, is_waiting f w m = Ok b) by (intros m I; apply IH; specialize (R s m I); lia).
  clear R L. induction (y_members (w_sym w s)) as [|m l IHl]; cbn [any]; [eauto|]. destruct (A m (or_introl eq_refl)) as (b & ->). cbn [rbind]. destruct b; [eauto|]. apply IHl. intros; apply A; simpl; auto.
Qed.
Lemma ask_total : forall w L, complete w L -> w_min w = -1 \/ nested w -> forall pos, exists d, forall f, (d <= f)%nat -> forall s c deep, In s L -> exists b c', at_position f w c s pos deep = Ok (b, c').
Proof.
  intros w L Cl Nt pos. pose (Ps := pos :: flat_map (fun s => flat_map (fun r : nat * list Z => flat_map (fun ts => match w_pos w ts with Some q => [q] | None => [] end) (snd r)) (y_parents (w_sym w s))) L).
  pose (U := list_prod (list_prod L Ps) [true; false]).
  assert (IU : forall n, In n U <-> In (fst (fst n)) L /\ In (snd (fst n)) Ps).
  { intros ((s, p), e). unfold U. rewrite !in_prod_iff. simpl. destruct e; intuition. }
  assert (E : exists d, forall n, In n U -> exists b, is_waiting d w (fst (fst n)) = Ok b).
  { destruct Nt as [E|(rank & R)]; [exists 1%nat; intros; apply is_waiting_flat; auto|]. exists (S (list_max (map rank L))). intros n I. apply IU in I. apply (is_waiting_rank w rank R). pose proof (proj1 (list_max_le (map rank L) (list_max (map rank L))) (le_n _)) as M. rewrite Forall_forall in M. specialize (M (rank (fst (fst n))) (in_map rank _ _ (proj1 I))). lia. }
  destruct E as (d & E). exists (S (d + length U)). intros f Lf s c deep Is. apply (at_total w U d) with (n := (s, pos, deep)); auto.
  - intros n k I Ek K. apply IU in I. destruct I as (I1 & I2). apply IU. destruct (Cl _ I1) as (C1 & C2). destruct K as [(ts & u & l & r & Q1 & Q2 & Q3 & Q4 & _)|(_ & Im & ->)].
    + destruct (C1 _ _ ts Q1) as (Ip & _). split; auto. right. apply in_flat_map. exists (fst (fst n)). split; auto. apply in_flat_map. exists (fst (fst k), l). split; auto. apply in_flat_map. exists ts. split; auto. rewrite Q3. simpl. auto.
    + split; auto.
  - intros n p l ts I Ip. apply IU in I. destruct (Cl _ (proj1 I)) as (C1 & _). apply (C1 p l ts Ip).
  - assert (open_ w U c <= length U)%nat; [|lia]. unfold open_. clear. induction U as [|n U IH]; simpl; auto. destruct (view w c n); simpl; lia.
  - apply IU. simpl. auto.
Qed.
