(** Lemmas about interrupts. *)
Require Import List Arith Bool Lia.
Import ListNotations.
Require Import Verif.Base Verif.IntrModel Verif.IntrSpec.

Lemma In_types ts t : In t (types_of ts) <-> In (Ty t) ts.
Proof.
  unfold types_of. rewrite in_flat_map. split.
  - intros ([u|] & I & J); simpl in J; [destruct J as [<-|[]]|destruct J]; auto.
  - intros I. exists (Ty t). simpl. auto.
Qed.
Lemma valid_exc E ts t : valid E ts = true -> In t (types_of ts) -> is_exc E t = true.
Proof. unfold valid. rewrite forallb_forall, In_types. intros V I. apply (V _ I). Qed.

Lemma handle_Some E exc node ts num set num' : handle E exc node ts num = (Some set, num') ->
  exc = KeyInt /\ valid E ts = true /\
  threshold (types_of ts) <= (match dget num node with Some k => k | None => 0 end) + 1 /\
  set <> [] /\
  (forall t, In t set <->
     (t <> KeyInt /\ t <> SysExit /\
      ((In t (types_of ts) /\ t <> BaseExc) \/ (In BaseExc (types_of ts) /\ In t (direct E)))) \/
     (t = Placeholder /\ forall u, ~ (u <> KeyInt /\ u <> SysExit /\
      ((In u (types_of ts) /\ u <> BaseExc) \/ (In BaseExc (types_of ts) /\ In u (direct E)))))).
Proof.
  intros H. unfold handle in H.
  destruct (Nat.eqb_spec exc KeyInt) as [->|]; [|discriminate]. cbn [negb] in H.
  destruct (valid E ts) eqn:V; [|discriminate]. cbn [negb] in H.
  set (s0 := supd [] (types_of ts)) in H.
  assert (M0 : forall t, In t s0 <-> In t (types_of ts)).
  { intros t. unfold s0. rewrite In_supd. simpl. tauto. }
  assert (T : threshold s0 = threshold (types_of ts)).
  { unfold threshold. destruct (memb KeyInt s0) eqn:A, (memb KeyInt (types_of ts)) eqn:B; auto;
      rewrite ?memb_In, ?memb_nIn in *; rewrite M0 in A; tauto. }
  destruct (Nat.ltb_spec ((match dget num node with Some k => k | None => 0 end) + 1) (threshold s0)); [discriminate|].
  set (s1 := if memb BaseExc s0 then supd (sdiff s0 [BaseExc]) (direct E) else s0) in H.
  assert (M1 : forall t, In t s1 <-> (In t (types_of ts) /\ t <> BaseExc) \/ (In BaseExc (types_of ts) /\ In t (direct E))).
  { intros t. unfold s1. destruct (memb BaseExc s0) eqn:A.
    - apply memb_In in A. rewrite In_supd, In_sdiff, M0. apply M0 in A. simpl. intuition.
    - apply memb_nIn in A. rewrite M0 in *. split; [|tauto]. intros I. left. split; auto. intros ->. auto. }
  set (s2 := sdiff (sdiff s1 [KeyInt]) [SysExit]) in H.
  assert (M2 : forall t, In t s2 <-> t <> KeyInt /\ t <> SysExit /\
     ((In t (types_of ts) /\ t <> BaseExc) \/ (In BaseExc (types_of ts) /\ In t (direct E)))).
  { intros t. unfold s2. rewrite !In_sdiff, M1. simpl. intuition. }
  injection H as <- <-. split; auto. split; auto. split; [rewrite <- T; lia|].
  destruct s2 as [|a l] eqn:Q.
  - split; [discriminate|]. intros t. simpl. split.
    + intros [<-|[]]. right. split; auto. intros u. rewrite <- M2. auto.
    + intros [I|[-> _]]; auto. apply M2 in I. destruct I.
  - split; [discriminate|]. intros t. rewrite M2. split; auto. intros [I|[-> I]]; auto.
    exfalso. apply (I a). apply M2. left. auto.
Qed.

Lemma sub_trans bases t u v : sub bases t u -> sub bases u v -> sub bases t v.
Proof. induction 1; auto. intros. eapply sub_step; eauto. Qed.

Lemma sub_key bases E t : python bases E -> sub bases KeyInt t -> is_exc E t = true -> t = KeyInt \/ t = BaseExc.
Proof.
  intros P H X. inversion H; subst; auto. rewrite (p_key _ _ P) in H0. destruct H0 as [<-|[]]. right.
  eapply p_root; eauto.
Qed.
(** Whatever is below BaseException is below one of its direct subclasses, or is BaseException. *)
Lemma sub_base bases x : sub bases x BaseExc -> x = BaseExc \/ exists y, In BaseExc (bases y) /\ sub bases x y.
Proof.
  intros H. remember BaseExc as b eqn:B. induction H; auto. destruct (IHsub B) as [->|(y & Y1 & Y2)].
  - right. exists t. split; auto. constructor.
  - right. exists y. split; auto. eapply sub_step; eauto.
Qed.

Definition count (node : nat) (num : dict nat) : nat := match dget num node with Some k => k | None => 0 end.
Lemma handle_count E exc node ts num node' : count node' (snd (handle E exc node ts num)) =
  count node' num + (if (exc =? KeyInt) && valid E ts && (node' =? node) then 1 else 0).
Proof.
  unfold handle. destruct (exc =? KeyInt); [|simpl; lia]. destruct (valid E ts); [|simpl; lia]. cbn [negb andb].
  assert (Q : count node' (dset num node (count node num + 1)) = count node' num + (if node' =? node then 1 else 0)).
  { unfold count. rewrite dget_dset. destruct (Nat.eqb_spec node' node) as [->|]; lia. }
  fold (count node num). destruct (_ <? _); exact Q.
Qed.

Lemma not_key bases E ts num exc node set num' : python bases E -> handle E exc node ts num = (Some set, num') ->
  forall t, In t set -> is_exc E t = true /\ t <> BaseExc /\ t <> KeyInt /\ t <> SysExit.
Proof.
  intros P H t I. destruct (handle_Some _ _ _ _ _ _ _ H) as (-> & V & _ & _ & M). apply M in I.
  destruct I as [(N1 & N2 & K)|[-> _]].
  - assert (is_exc E t = true).
    { destruct K as [[K _]|[_ K]]; [eapply valid_exc; eauto|]. apply P in K. apply P. eapply sub_step; eauto. constructor. }
    split; auto. split; auto. intros ->. destruct K as [[_ K]|[_ K]]; [congruence|]. apply P in K. eapply p_top; eauto.
  - split; [|repeat split; discriminate]. apply P. eapply sub_step; [rewrite (p_place _ _ P); left; reflexivity|constructor].
Qed.
Lemma not_caught bases E ts num exc node set num' : python bases E -> handle E exc node ts num = (Some set, num') ->
  ~ catches bases set KeyInt.
Proof.
  intros P H (t & I & S1). destruct (not_key _ _ _ _ _ _ _ _ P H t I) as (X & N1 & N2 & N3).
  destruct (sub_key _ _ _ P S1 X); auto.
Qed.
Lemma handle_None E node ts num num' : handle E KeyInt node ts num = (None, num') -> valid E ts = true ->
  In (Ty KeyInt) ts /\ count node num = 0.
Proof.
  intros H V. unfold handle in H. rewrite V in H. cbn [negb Nat.eqb KeyInt] in H. fold (count node num) in H.
  destruct (Nat.ltb_spec (count node num + 1) (threshold (supd [] (types_of ts)))) as [L|]; [|discriminate].
  unfold threshold in L. destruct (memb KeyInt _) eqn:A; [|lia].
  apply memb_In in A. rewrite In_supd in A. destruct A as [[]|A]. apply In_types in A. split; auto. lia.
Qed.
Lemma swallows_first bases E e num : python bases E -> swallows bases E e num ->
  In (Ty KeyInt) (e_types e) /\ count (e_node e) num = 0 /\
  count (e_node e) (snd (handle E (e_exc e) (e_node e) (e_types e) num)) = 1.
Proof.
  intros P (X & V & C). destruct (handle E (e_exc e) (e_node e) (e_types e) num) as [[set|] num'] eqn:H; simpl in *.
  - exfalso. eapply not_caught; eauto.
  - rewrite X in H. destruct (handle_None _ _ _ _ _ H V) as [A B]. split; auto. split; auto.
    pose proof (handle_count E (e_exc e) (e_node e) (e_types e) num (e_node e)) as Q. rewrite X in Q. rewrite H in Q.
    simpl snd in Q. rewrite V, !Nat.eqb_refl in Q. simpl in Q. lia.
Qed.
Lemma swallowed_none bases E node es num n : python bases E -> swallowed bases E node es num n ->
  (0 < count node num \/ forall e, In e es -> e_node e = node -> ~ In (Ty KeyInt) (e_types e)) -> n = 0.
Proof.
  intros P H. induction H; intros K; auto.
  - exfalso. destruct (swallows_first _ _ _ _ P H0) as (A & B & C). rewrite H in *. destruct K as [K|K]; [lia|].
    eapply K; eauto. left; auto.
  - apply IHswallowed. destruct K as [K|K].
    + left. rewrite handle_count. lia.
    + right. intros e' I. apply K. right; auto.
Qed.
