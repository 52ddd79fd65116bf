(** Proofs about library calls. *)
From Coq Require Import List Arith Bool Lia Permutation.
From Verif Require Import Base ExtModel ExtSpec.
Import ListNotations.

(** * Running events *)

Lemma run_app has x y s s1 : run has x s = Ok s1 -> run has (x ++ y) s = run has y s1.
Proof.
  revert s. induction x as [|e x IH]; intros s; cbn.
  - intros E. injection E as ->. reflexivity.
  - destruct (step has e s); cbn; [apply IH|discriminate].
Qed.

Lemma run_cons has e y s s1 : step has e s = Ok s1 -> run has (e :: y) s = run has y s1.
Proof. intros E. cbn. rewrite E. reflexivity. Qed.

Lemma on_last_app f hs h : on_last f (hs ++ [h]) = Ok (hs ++ [f h]).
Proof.
  induction hs as [|x hs IH]; [reflexivity|]. cbn. rewrite IH.
  destruct (hs ++ [h]) eqn:E; [destruct hs; discriminate|]. reflexivity.
Qed.

(** What the arguments of a call make of its handler. *)
Fixpoint absorb (a : args) (h : handler) : handler :=
  match a with ANil => h | ACons k v _ r => absorb r (process k v h) end.

Lemma absorb_call a h : h_call (absorb a h) = h_call h.
Proof. revert h. induction a as [|[n|] v e r IH]; intros h; cbn; auto; rewrite IH; reflexivity. Qed.
Lemma absorb_ret a h : h_ret (absorb a h) = h_ret h.
Proof. revert h. induction a as [|[n|] v e r IH]; intros h; cbn; auto; rewrite IH; reflexivity. Qed.
Lemma absorb_args a h : h_args (absorb a h) = h_args h ++ positional a.
Proof.
  revert h. induction a as [|[n|] v e r IH]; intros h; cbn; [now rewrite app_nil_r| |]; rewrite IH; cbn; auto.
  rewrite <- app_assoc. reflexivity.
Qed.

Lemma dset_new {V} (d : dict V) k v : ~ In k (map fst d) -> dset d k v = d ++ [(k, v)].
Proof.
  induction d as [|[k' w] d IH]; intros H; [reflexivity|]. cbn in *.
  destruct (k =? k') eqn:E.
  - apply Nat.eqb_eq in E. subst. tauto.
  - rewrite IH by tauto. reflexivity.
Qed.

Lemma absorb_kwargs a : forall h, NoDup (map fst (h_kwargs h ++ keyword a)) ->
  h_kwargs (absorb a h) = h_kwargs h ++ keyword a.
Proof.
  induction a as [|[n|] v e r IH]; intros h H; cbn; [now rewrite app_nil_r| |].
  - assert (D : dset (h_kwargs h) n v = h_kwargs h ++ [(n, v)]).
    { apply dset_new. cbn in H. rewrite map_app in H. cbn in H. apply NoDup_remove_2 in H.
      rewrite in_app_iff in H. tauto. }
    rewrite IH; cbn; rewrite D; rewrite <- app_assoc; [reflexivity|exact H].
  - rewrite IH; [reflexivity|exact H].
Qed.

(** * Any program *)

Section Any.
  Variable has : nat -> bool.
  Variable out : nat -> option nat.

  (** A handler of a site: its own arguments and, if the call returned, its own result. *)
  Definition fits (S : list (nat * args)) (h : handler) : Prop :=
    has (h_call h) = true /\
    exists a, In (h_call h, a) S /\ h_args h = positional a /\ h_kwargs h = keyword a
              /\ forall v, out (h_call h) = Some v -> h_ret h = Some v.

  Definition cov (S : list (nat * args)) (hs : list handler) : Prop :=
    (forall h, In h hs -> fits S h) /\ (NoDup (map fst S) -> NoDup (map h_call hs)).

  (** The same handler, but for the result of a call that raised. *)
  Definition sim (h h' : handler) : Prop :=
    h' = h \/ out (h_call h) = None /\ exists v, h' = process_return v h.

  Definition good (l : level) : Prop :=
    pending l = true -> exists hs h, external l = hs ++ [h] /\ out (h_call h) = None.

  Lemma sim_refl h : sim h h.
  Proof. left. reflexivity. Qed.
  Lemma sim_trans a b c : sim a b -> sim b c -> sim a c.
  Proof.
    intros [->|(O & v & ->)]; auto.
    intros [->|(O2 & w & ->)]; right; split; auto; [exists v|exists w]; reflexivity.
  Qed.
  Lemma sims_refl l : Forall2 sim l l.
  Proof. induction l; constructor; auto using sim_refl. Qed.
  Lemma sims_trans a : forall b c, Forall2 sim a b -> Forall2 sim b c -> Forall2 sim a c.
  Proof.
    induction a as [|x a IH]; intros b c H K.
    - inversion H; subst. inversion K; subst. constructor.
    - inversion H; subst. inversion K; subst. constructor; [eapply sim_trans; eauto|eapply IH; eauto].
  Qed.
  Lemma sim_call h h' : sim h h' -> h_call h' = h_call h.
  Proof. intros [->|(_ & v & ->)]; reflexivity. Qed.
  Lemma sims_call l l' : Forall2 sim l l' -> map h_call l' = map h_call l.
  Proof. induction 1; cbn; [auto|]. f_equal; [apply sim_call; auto|auto]. Qed.
  Lemma fits_sim S h h' : sim h h' -> fits S h -> fits S h'.
  Proof.
    intros [->|(O & v & ->)]; auto. intros (H & a & A1 & A2 & A3 & A4). split; [exact H|]. exists a.
    cbn. repeat split; auto. intros w E. congruence.
  Qed.
  Lemma sims_fix l l' : (forall h, In h l -> out (h_call h) <> None) -> Forall2 sim l l' -> l' = l.
  Proof.
    intros N H. induction H as [|x y l l' H1 H2 IH]; [reflexivity|]. f_equal.
    - destruct H1 as [->|(O & _)]; auto. exfalso. exact (N x (or_introl eq_refl) O).
    - apply IH. intros h I. apply N. right. exact I.
  Qed.
  Lemma cov_sims S l l' : Forall2 sim l l' -> cov S l -> cov S l'.
  Proof.
    intros H [C D]. split.
    - clear D. revert C. induction H as [|x y l l' H1 H2 IH]; intros C h I; [destruct I|].
      destruct I as [<-|I]; [eapply fits_sim; [exact H1|apply C; left; reflexivity]|].
      apply IH; auto. intros z Z. apply C. right. exact Z.
    - intros N. rewrite (sims_call _ _ H). auto.
  Qed.

  Lemma fits_in S S' h : incl S S' -> fits S h -> fits S' h.
  Proof. intros I (H & a & A & B). split; [exact H|]. exists a. split; [apply I; exact A|exact B]. Qed.

  Lemma cov_nil S : cov S [].
  Proof. split; [intros h []|intros _; constructor]. Qed.
  Lemma cov_perm S l l' : Permutation l l' -> cov S l -> cov S l'.
  Proof.
    intros P [C D]. split.
    - intros h I. apply C. eapply Permutation_in; [apply Permutation_sym; exact P|exact I].
    - intros N. eapply Permutation_NoDup; [apply Permutation_map; exact P|auto].
  Qed.
  Lemma NoDup_app_parts {A} (l m : list A) :
    NoDup (l ++ m) -> NoDup l /\ NoDup m /\ forall x, In x l -> ~ In x m.
  Proof.
    induction l as [|a l IH]; cbn; intros H.
    - split; [constructor|]. split; [exact H|]. intros x [].
    - inversion H as [|? ? Ha Hl]; subst. destruct (IH Hl) as (P & Q & R).
      split; [constructor; [intros I; apply Ha; apply in_or_app; left; exact I|exact P]|].
      split; [exact Q|]. intros x [<-|I]; [intros K; apply Ha; apply in_or_app; right; exact K|auto].
  Qed.
  Lemma NoDup_app_join {A} (l m : list A) :
    NoDup l -> NoDup m -> (forall x, In x l -> ~ In x m) -> NoDup (l ++ m).
  Proof.
    induction l as [|a l IH]; cbn; intros P Q R; [exact Q|].
    inversion P as [|? ? Ha Hl]; subst. constructor.
    - rewrite in_app_iff. intros [I|I]; [auto|]. exact (R a (or_introl eq_refl) I).
    - apply IH; auto.
  Qed.
  Lemma cov_app S S' l l' : cov S l -> cov S' l' -> cov (S ++ S') (l ++ l').
  Proof.
    intros [C D] [C' D']. split.
    - intros h I. apply in_app_iff in I. destruct I as [I|I].
        eapply fits_in; [|apply C; exact I]. intros x X. apply in_or_app. left. exact X.
      + eapply fits_in; [|apply C'; exact I]. intros x X. apply in_or_app. right. exact X.
    - rewrite !map_app. intros N. apply NoDup_app_parts in N. destruct N as (N1 & N2 & N3).
      apply NoDup_app_join; auto.
      intros x X Y. apply in_map_iff in X. destruct X as (h & <- & X).
      apply in_map_iff in Y. destruct Y as (h' & E & Y).
      destruct (C h X) as (_ & a & A & _). destruct (C' h' Y) as (_ & a' & A' & _).
      rewrite E in A'. apply (N3 (h_call h)).
      + exact (in_map fst _ _ A).
      + exact (in_map fst _ _ A').
  Qed.

  Definition st (l : level) (sv : list level) (d : list (list handler)) : state :=
    {| cur := l; saved := sv; done := d |}.

  Lemma own_some e : forall h, In h (own has out e) -> out (h_call h) <> None
  with own_args_some a : forall h, In h (own_args has out a) -> out (h_call h) <> None.
  Proof.
    - destruct e as [| |a b|r i a c]; cbn; intros h H; try (destruct H; fail).
      + apply in_app_iff in H. destruct H as [H|H]; eapply own_some; exact H.
      + apply in_app_iff in H. destruct H as [H|H]; [eapply own_some; exact H|].
        apply in_app_iff in H. destruct H as [H|H]; [eapply own_args_some; exact H|].
        destruct (has i); [|destruct H]. destruct (out i) eqn:E; [|destruct H].
        destruct H as [<-|[]]. cbn. congruence.
    - destruct a as [|k v e r]; cbn; intros h H; [destruct H|].
      apply in_app_iff in H. destruct H as [H|H]; [eapply own_some; exact H|eapply own_args_some; exact H].
  Qed.

  Lemma kd_app_l S S' : keywords_differ (S ++ S') -> keywords_differ S.
  Proof. intros K i a H. apply (K i a). apply in_or_app. left. exact H. Qed.
  Lemma kd_app_r S S' : keywords_differ (S ++ S') -> keywords_differ S'.
  Proof. intros K i a H. apply (K i a). apply in_or_app. right. exact H. Qed.

  Lemma cov_left S S' l : cov S l -> cov (S ++ S') l.
  Proof. intros C. rewrite <- (app_nil_r l). apply cov_app; [exact C|apply cov_nil]. Qed.
  Lemma cov_right S S' l : cov S' l -> cov (S ++ S') l.
  Proof. intros C. change l with ([] ++ l). apply cov_app; [apply cov_nil|exact C]. Qed.

  Lemma perm_parts {A} (a b c d : list A) : Permutation ((a ++ b) ++ (c ++ d)) ((a ++ c) ++ (b ++ d)).
  Proof.
    rewrite <- !app_assoc. apply Permutation_app_head. rewrite !app_assoc. apply Permutation_app_tail.
    apply Permutation_app_comm.
  Qed.

  Lemma after_other v l : good l -> exists l',
    after_call v l = Ok l' /\ pending l' = false /\ lexical l' = tl (lexical l)
    /\ Forall2 sim (external l) (external l').
  Proof.
    intros G. unfold after_call. destruct (pending l) eqn:P.
    - destruct (G P) as (hs & h & E & O). rewrite E, on_last_app. cbn. eexists. split; [reflexivity|].
      cbn. split; [reflexivity|]. split; [destruct (lexical l); reflexivity|].
      apply Forall2_app; [apply sims_refl|]. constructor; [|constructor]. right. split; [exact O|].
      exists v. reflexivity.
    - eexists. split; [reflexivity|]. cbn. split; [reflexivity|].
      split; [destruct (lexical l); reflexivity|]. apply sims_refl.
  Qed.

  Lemma sims_split l m x : Forall2 sim (l ++ m) x -> exists l' m',
    x = l' ++ m' /\ Forall2 sim l l' /\ Forall2 sim m m'.
  Proof.
    intros H. destruct (Forall2_app_inv_l l m H) as (l' & m' & A & B & C). exists l', m'. auto.
  Qed.

  Definition P_expr (e : expr) : Prop := keywords_differ (sites e) -> forall l sv d, good l ->
    exists l' d' old new,
      run has (fst (events out e)) (st l sv d) = Ok (st l' sv (d ++ d')) /\ good l' /\
      external l' = old ++ new /\ Forall2 sim (external l) old /\ cov (sites e) (concat d' ++ new) /\
      (snd (events out e) = true -> lexical l' = lexical l /\ new = own has out e).

  Definition P_args (a : args) : Prop := keywords_differ (sites_args a) ->
    forall l sv d c L, good l -> lexical l = c :: L ->
    exists l' d' old new,
      run has (fst (events_args out a)) (st l sv d) = Ok (st l' sv (d ++ d')) /\
      Forall2 sim (external l) old /\ cov (sites_args a) (concat d' ++ new) /\
      if snd (events_args out a) then
        lexical l' = option_map (absorb a) c :: L /\ new = own_args has out a /\
        match c, a_nil a with
        | Some h, false => external l' = old ++ new ++ [absorb a h] /\ pending l' = true
        | _, _ => external l' = old ++ new /\ good l'
        end
      else external l' = old ++ new /\ good l'.

  Definition P_callee (c : callee) : Prop := keywords_differ (sites_callee c) -> forall l sv d,
    exists d', run has (events_callee out c) (st l sv d) = Ok (st l sv (d ++ d')) /\
               cov (sites_callee c) (concat d').

  Definition P_block (b : block) : Prop := keywords_differ (sites_block b) -> forall l sv d, good l ->
    exists l' d' old new,
      run has (fst (events_block out b)) (st l sv d) = Ok (st l' sv (d ++ d')) /\ good l' /\
      Permutation (concat d' ++ external l') (old ++ new) /\ Forall2 sim (external l) old /\
      cov (sites_block b) new /\
      (forall e, In e (completes out b) -> exists left, In (left ++ own has out e) d').

  Lemma seq_case a b : P_expr a -> P_expr b -> P_expr (Seq a b).
  Proof.
    intros IHa IHb K l sv d G. cbn [sites] in K.
    destruct (IHa (kd_app_l _ _ K) l sv d G) as (l1 & d1 & o1 & n1 & R1 & G1 & X1 & S1 & C1 & F1).
    cbn [events]. destruct (events out a) as [x okx] eqn:Ea. cbn [fst snd] in *. destruct okx.
    - destruct (IHb (kd_app_r _ _ K) l1 sv (d ++ d1) G1) as (l2 & d2 & o2 & n2 & R2 & G2 & X2 & S2 & C2 & F2).
      destruct (events out b) as [y oky] eqn:Eb. cbn [fst snd] in *.
      destruct (F1 eq_refl) as [L1 N1].
      rewrite X1 in S2. destruct (sims_split _ _ _ S2) as (o2' & n1' & E2 & S2a & S2b).
      assert (n1' = n1) as -> by (apply sims_fix; [rewrite N1; apply own_some|exact S2b]).
      exists l2, (d1 ++ d2), o2', (n1 ++ n2).
      split; [rewrite (run_app _ _ _ _ _ R1), app_assoc; exact R2|]. split; [exact G2|].
      split; [rewrite X2, E2, app_assoc; reflexivity|].
      split; [exact (sims_trans _ _ _ S1 S2a)|].
      split.
      + cbn [sites]. rewrite concat_app. eapply cov_perm; [|exact (cov_app _ _ _ _ C1 C2)]. apply perm_parts.
      + intros Hy. destruct (F2 Hy) as [L2 N2]. split; [congruence|]. cbn. congruence.
    - exists l1, d1, o1, n1. split; [exact R1|]. split; [exact G1|]. split; [exact X1|]. split; [exact S1|].
      split; [apply cov_left; exact C1|]. discriminate.
  Qed.

  (** From before a call to the end of its arguments. *)
  Lemma to_args i a : P_args a -> keywords_differ (sites_args a) -> forall l sv d, good l ->
    exists l' d' old new,
      run has (BeforeCall i (a_nil a) :: fst (events_args out a)) (st l sv d) = Ok (st l' sv (d ++ d')) /\
      Forall2 sim (external l) old /\ cov (sites_args a) (concat d' ++ new) /\
      if snd (events_args out a) then
        tl (lexical l') = lexical l /\ new = own_args has out a /\
        (if has i then external l' = old ++ new ++ [absorb a (new_handler i)] /\ pending l' = true
         else external l' = old ++ new /\ good l')
      else external l' = old ++ new /\ good l'.
  Proof.
    intros IH K l sv d G. destruct (a_nil a) eqn:Z.
    - destruct a; [|discriminate]. cbn [events_args fst snd].
      exists (before_call has i true l), [], (external l), []. split.
      { cbn. rewrite app_nil_r. reflexivity. }
      split; [apply sims_refl|]. split; [apply cov_nil|].
      unfold before_call, to_external. cbn. destruct (has i); cbn; repeat split; auto; rewrite app_nil_r; reflexivity.
    - set (l1 := before_call has i false l).
      assert (G1 : good l1) by exact G.
      destruct (IH K l1 sv d (if has i then Some (new_handler i) else None) (lexical l) G1 eq_refl)
        as (l2 & d2 & o & n & R & S & C & F).
      exists l2, d2, o, n. split; [erewrite run_cons; [exact R|reflexivity]|]. split; [exact S|].
      split; [exact C|]. destruct (snd (events_args out a)); [|exact F]. destruct F as (F1 & F2 & F3).
      rewrite F1. split; [reflexivity|]. split; [exact F2|]. rewrite Z in F3. destruct (has i); exact F3.
  Qed.

  Lemma call_case r i a c : P_expr r -> P_args a -> P_callee c -> P_expr (Call r i a c).
  Proof.
    intros IHr IHa IHc K l sv d G. cbn [sites] in K.
    pose proof (kd_app_l _ _ K) as Kr. pose proof (kd_app_r _ _ K) as K1.
    pose proof (kd_app_l _ _ K1) as Ka. pose proof (kd_app_r _ _ K1) as K2.
    pose proof (kd_app_l _ _ K2) as Kc.
    assert (Ki : NoDup (map fst (keyword a))).
    { apply (K i a). apply in_or_app. right. apply in_or_app. right. apply in_or_app. right. left. reflexivity. }
    destruct (IHr Kr l sv d G) as (l1 & d1 & o1 & n1 & R1 & G1 & X1 & S1 & C1 & F1).
    cbn [events]. destruct (events out r) as [x okx] eqn:Er. cbn [fst snd] in *. destruct okx.
    2:{ exists l1, d1, o1, n1. split; [exact R1|]. split; [exact G1|]. split; [exact X1|]. split; [exact S1|].
        split; [apply cov_left; exact C1|]. discriminate. }
    destruct (F1 eq_refl) as [L1 N1].
    destruct (to_args i a IHa Ka l1 sv (d ++ d1) G1) as (l2 & d2 & o2 & n2 & R2 & S2 & C2 & F2).
    destruct (events_args out a) as [y oky] eqn:Ea. cbn [fst snd] in *.
    rewrite X1 in S2. destruct (sims_split _ _ _ S2) as (o2' & n1' & E2 & S2a & S2b).
    assert (n1' = n1) as -> by (apply sims_fix; [rewrite N1; apply own_some|exact S2b]).
    pose proof (sims_trans _ _ _ S1 S2a) as So.
    assert (C12 : cov (sites r ++ sites_args a) (concat (d1 ++ d2) ++ (n1 ++ n2))).
    { rewrite concat_app. eapply cov_perm; [|exact (cov_app _ _ _ _ C1 C2)]. apply perm_parts. }
    destruct oky.
    2:{ destruct F2 as [F2 F2']. exists l2, (d1 ++ d2), o2', (n1 ++ n2). cbn [fst snd].
        split; [rewrite (run_app _ _ _ _ _ R1), app_assoc; exact R2|]. split; [exact F2'|].
        split; [rewrite F2, E2, app_assoc; reflexivity|]. split; [exact So|]. split; [|discriminate].
        cbn [sites]. rewrite app_assoc. apply cov_left. exact C12. }
    destruct F2 as (L2 & N2 & F2).
    destruct (IHc Kc l2 sv ((d ++ d1) ++ d2)) as (d3 & R3 & C3).
    assert (RR : forall tail, run has (x ++ BeforeCall i (a_nil a) :: y ++ events_callee out c ++ tail) (st l sv d)
                 = run has tail (st l2 sv (((d ++ d1) ++ d2) ++ d3))).
    { intros tail. rewrite (run_app _ _ _ _ _ R1).
      change (BeforeCall i (a_nil a) :: y ++ events_callee out c ++ tail)
        with ((BeforeCall i (a_nil a) :: y) ++ events_callee out c ++ tail).
      rewrite (run_app _ _ _ _ _ R2). rewrite (run_app _ _ _ _ _ R3). reflexivity. }
    assert (C123 : forall n', cov [(i, a)] n' ->
       cov (sites (Call r i a c)) (concat (d1 ++ d2 ++ d3) ++ (n1 ++ n2) ++ n')).
    { intros n' Cn. cbn [sites].
      pose proof (cov_app _ _ _ _ C12 (cov_app _ _ _ _ C3 Cn)) as CC.
      rewrite <- app_assoc in CC. eapply cov_perm; [|exact CC].
      rewrite !concat_app, <- !app_assoc. apply Permutation_app_head. apply Permutation_app_head.
      rewrite !app_assoc. apply Permutation_app_tail.
      rewrite <- !app_assoc. rewrite (app_assoc n1). apply Permutation_app_comm. }
    assert (D : d ++ d1 ++ d2 ++ d3 = ((d ++ d1) ++ d2) ++ d3) by (rewrite <- !app_assoc; reflexivity).
    assert (FH : forall h, has i = true -> h_call h = i -> h_args h = positional a -> h_kwargs h = keyword a ->
                 (forall v, out i = Some v -> h_ret h = Some v) -> cov [(i, a)] [h]).
    { intros h Hh E A B V. split.
      - intros h' [<-|[]]. split; [rewrite E; exact Hh|]. exists a. rewrite E.
        split; [left; reflexivity|]. auto.
      - intros _. cbn. constructor; [intros []|constructor]. }
    assert (AB : h_call (absorb a (new_handler i)) = i /\ h_args (absorb a (new_handler i)) = positional a
                 /\ h_kwargs (absorb a (new_handler i)) = keyword a).
    { split; [apply absorb_call|]. split; [rewrite absorb_args; reflexivity|].
      rewrite absorb_kwargs; [reflexivity|exact Ki]. }
    destruct AB as (AB1 & AB2 & AB3).
    destruct (out i) as [v|] eqn:O; cbn [fst snd].
    - destruct (has i) eqn:Hi.
      + destruct F2 as [F2 F2p].
        exists {| lexical := tl (lexical l2);
                  external := (o2 ++ n2) ++ [process_return v (absorb a (new_handler i))]; pending := false |},
          (d1 ++ d2 ++ d3), o2', ((n1 ++ n2) ++ [process_return v (absorb a (new_handler i))]).
        split.
        { rewrite RR. cbn. unfold after_call. rewrite F2p, F2.
          replace (o2 ++ n2 ++ [absorb a (new_handler i)]) with ((o2 ++ n2) ++ [absorb a (new_handler i)])
            by (rewrite <- app_assoc; reflexivity).
          rewrite on_last_app. cbn. rewrite D. unfold st. destruct (lexical l2); reflexivity. }
        split; [intros H; discriminate|].
        split; [cbn; rewrite E2, <- !app_assoc; reflexivity|]. split; [exact So|].
        split.
        { apply C123. apply FH; auto; cbn; auto. }
        intros _. cbn [lexical]. split; [congruence|]. cbn [own]. rewrite Hi, O, N1, N2, <- app_assoc.
        do 2 f_equal. unfold completed, process_return. rewrite AB1, AB2, AB3. reflexivity.
      + destruct F2 as [F2 F2g].
        destruct (after_other v l2 F2g) as (l3 & A1 & A2 & A3 & A4).
        rewrite F2, E2 in A4. destruct (sims_split _ _ _ A4) as (o3 & n2' & E3 & S3 & S3').
        destruct (sims_split _ _ _ S3) as (o4 & n1' & E4 & S4 & S4').
        assert (n1' = n1) as -> by (apply sims_fix; [rewrite N1; apply own_some|exact S4']).
        assert (n2' = n2) as -> by (apply sims_fix; [rewrite N2; apply own_args_some|exact S3']).
        exists l3, (d1 ++ d2 ++ d3), o4, ((n1 ++ n2) ++ []).
        split; [rewrite RR; cbn; rewrite A1; cbn; rewrite D; reflexivity|].
        split; [intros H; congruence|].
        split; [rewrite E3, E4, app_nil_r, app_assoc; reflexivity|].
        split; [exact (sims_trans _ _ _ So S4)|]. split; [apply C123; apply cov_nil|].
        intros _. split; [congruence|]. cbn [own]. rewrite Hi, N1, N2, <- app_assoc. reflexivity.
    - specialize (RR []). rewrite app_nil_r in RR. destruct (has i) eqn:Hi.
      + destruct F2 as [F2 F2p].
        exists l2, (d1 ++ d2 ++ d3), o2', ((n1 ++ n2) ++ [absorb a (new_handler i)]).
        split; [rewrite RR, D; reflexivity|].
        split.
        { intros _. exists (o2 ++ n2), (absorb a (new_handler i)). rewrite F2, <- app_assoc.
          split; [reflexivity|]. rewrite AB1. exact O. }
        split; [rewrite F2, E2, <- !app_assoc; reflexivity|]. split; [exact So|].
        split; [|discriminate]. apply C123. apply FH; auto. intros v H. congruence.
      + destruct F2 as [F2 F2g].
        exists l2, (d1 ++ d2 ++ d3), o2', ((n1 ++ n2) ++ []).
        split; [rewrite RR, D; reflexivity|]. split; [exact F2g|].
        split; [rewrite F2, E2, app_nil_r, app_assoc; reflexivity|]. split; [exact So|].
        split; [apply C123; apply cov_nil|discriminate].
  Qed.

  Lemma args_case k v e r : P_expr e -> P_args r -> P_args (ACons k v e r).
  Proof.
    intros IHe IHr K l sv d c L G HL. cbn [sites_args] in K.
    destruct (IHe (kd_app_l _ _ K) l sv d G) as (l1 & d1 & o1 & n1 & R1 & G1 & X1 & S1 & C1 & F1).
    cbn [events_args]. destruct (events out e) as [x okx] eqn:Ee. cbn [fst snd] in *. destruct okx.
    2:{ exists l1, d1, o1, n1. split; [exact R1|]. split; [exact S1|].
        split; [apply cov_left; exact C1|]. cbn. auto. }
    destruct (F1 eq_refl) as [L1 N1]. rewrite HL in L1.
    destruct r as [|k' v' e' r'].
    - cbn [events_args fst snd a_nil].
      exists (on_argument k v true l1), d1, o1, n1.
      split; [rewrite (run_app _ _ _ _ _ R1); reflexivity|]. split; [exact S1|].
      split; [cbn [sites_args]; rewrite app_nil_r; exact C1|].
      unfold on_argument. rewrite L1. destruct c as [h|]; cbn.
      + split; [reflexivity|]. split; [rewrite app_nil_r; exact N1|]. split; [|reflexivity].
        rewrite X1, <- app_assoc. reflexivity.
      + split; [exact L1|]. split; [rewrite app_nil_r; exact N1|]. split; [exact X1|exact G1].
    - set (r := ACons k' v' e' r') in *. change (a_nil r) with false.
      set (l1' := on_argument k v false l1).
      assert (E1 : external l1' = external l1 /\ pending l1' = pending l1
                   /\ lexical l1' = option_map (process k v) c :: L).
      { unfold l1', on_argument. rewrite L1. destruct c; cbn; auto. }
      destruct E1 as (E1 & E1p & E1l).
      assert (G1' : good l1') by (unfold good; rewrite E1p, E1; exact G1).
      destruct (IHr (kd_app_r _ _ K) l1' sv (d ++ d1) _ _ G1' E1l) as (l2 & d2 & o2 & n2 & R2 & S2 & C2 & F2).
      destruct (events_args out r) as [y oky] eqn:Er. cbn [fst snd] in *.
      rewrite E1, X1 in S2. destruct (sims_split _ _ _ S2) as (o2' & n1' & E2 & S2a & S2b).
      assert (n1' = n1) as -> by (apply sims_fix; [rewrite N1; apply own_some|exact S2b]).
      exists l2, (d1 ++ d2), o2', (n1 ++ n2).
      split.
      { rewrite (run_app _ _ _ _ _ R1). erewrite run_cons; [|reflexivity]. rewrite app_assoc. exact R2. }
      split; [exact (sims_trans _ _ _ S1 S2a)|].
      split.
      { change (sites_args (ACons k v e r)) with (sites e ++ sites_args r). rewrite concat_app.
        eapply cov_perm; [|exact (cov_app _ _ _ _ C1 C2)]. apply perm_parts. }
      destruct oky.
      + destruct F2 as (F2a & F2b & F2c). split.
        { rewrite F2a. destruct c; reflexivity. }
        split; [change (own_args has out (ACons k v e r)) with (own has out e ++ own_args has out r); congruence|].
        change (a_nil (ACons k v e r)) with false. change (a_nil r) with false in F2c.
        destruct c as [h|]; cbn [option_map] in *.
        * destruct F2c as [F2c F2d]. split; [|exact F2d].
          rewrite F2c, E2, <- !app_assoc. reflexivity.
        * destruct F2c as [F2c F2d]. split; [|exact F2d]. rewrite F2c, E2, <- !app_assoc. reflexivity.
      + destruct F2 as [F2c F2d]. split; [|exact F2d]. rewrite F2c, E2, <- !app_assoc. reflexivity.
  Qed.

  Lemma callee_case b r : P_block b -> P_callee r -> P_callee (CCons b r).
  Proof.
    intros IHb IHr K l sv d. cbn [sites_callee] in K.
    assert (G0 : good level0) by (intros H; discriminate).
    destruct (IHb (kd_app_l _ _ K) level0 (l :: sv) d G0) as (l1 & d1 & o & n & R1 & _ & P1 & S1 & C1 & _).
    inversion S1; subst o.
    destruct (IHr (kd_app_r _ _ K) l sv (d ++ d1)) as (d2 & R2 & C2).
    exists (d1 ++ d2). split.
    - cbn [events_callee]. erewrite run_cons; [|reflexivity].
      change {| cur := level0; saved := cur (st l sv d) :: saved (st l sv d); done := done (st l sv d) |}
        with (st level0 (l :: sv) d).
      rewrite (run_app _ _ _ _ _ R1). erewrite run_cons; [|reflexivity]. cbn. rewrite app_assoc. exact R2.
    - cbn [sites_callee]. rewrite concat_app. apply cov_app; [|exact C2].
      assert (CC : cov (sites_block b) (concat d1 ++ external l1)).
      { eapply cov_perm; [apply Permutation_sym; exact P1|exact C1]. }
      destruct CC as [CC1 CC2]. split.
      + intros h H. apply CC1. apply in_or_app. left. exact H.
      + intros N. specialize (CC2 N). rewrite map_app in CC2. apply NoDup_app_parts in CC2. tauto.
  Qed.

  Lemma block_case c e r : P_expr e -> P_block r -> P_block (BCons c e r).
  Proof.
    intros IHe IHr K l sv d G. cbn [sites_block] in K.
    destruct (IHe (kd_app_l _ _ K) l sv d G) as (l1 & d1 & o1 & n1 & R1 & G1 & X1 & S1 & C1 & F1).
    cbn [events_block completes]. destruct (events out e) as [x okx] eqn:Ee. cbn [fst snd] in *. destruct okx.
    - destruct (F1 eq_refl) as [L1 N1].
      set (l1' := {| lexical := lexical l1; external := []; pending := false |}).
      assert (G1' : good l1') by (intros H; discriminate).
      destruct (IHr (kd_app_r _ _ K) l1' sv ((d ++ d1) ++ [external l1]) G1')
        as (l2 & d2 & o2 & n2 & R2 & G2 & P2 & S2 & C2 & F2).
      inversion S2; subst o2.
      destruct (events_block out r) as [y oky] eqn:Er. cbn [fst snd] in *.
      exists l2, (d1 ++ [external l1] ++ d2), o1, ((concat d1 ++ n1) ++ n2).
      split.
      { rewrite (run_app _ _ _ _ _ R1). erewrite run_cons; [|reflexivity]. cbn [cur saved done st].
        rewrite !app_assoc. exact R2. }
      split; [exact G2|].
      split.
      { rewrite !concat_app. cbn [concat]. rewrite app_nil_r, <- !app_assoc. rewrite P2. cbn [app].
        rewrite X1, <- !app_assoc. rewrite !app_assoc. do 2 apply Permutation_app_tail.
        apply Permutation_app_comm. }
      split; [exact S1|].
      split; [apply cov_app; [exact C1|exact C2]|].
      intros e' [<-|H].
      + exists o1. apply in_or_app. right. left. rewrite X1. congruence.
      + destruct (F2 e' H) as (left & Hl). exists left. apply in_or_app. right. right. exact Hl.
    - destruct c.
      + destruct (IHr (kd_app_r _ _ K) l1 sv (d ++ d1) G1) as (l2 & d2 & o2 & n2 & R2 & G2 & P2 & S2 & C2 & F2).
        destruct (events_block out r) as [y oky] eqn:Er. cbn [fst snd] in *.
        rewrite X1 in S2. destruct (sims_split _ _ _ S2) as (o2' & n1' & E2 & S2a & S2b). subst o2.
        exists l2, (d1 ++ d2), o2', ((concat d1 ++ n1') ++ n2).
        split; [rewrite (run_app _ _ _ _ _ R1), app_assoc; exact R2|]. split; [exact G2|].
        split.
        { rewrite concat_app, <- !app_assoc, P2, <- !app_assoc. rewrite !app_assoc.
          do 2 apply Permutation_app_tail. apply Permutation_app_comm. }
        split; [exact (sims_trans _ _ _ S1 S2a)|].
        split.
        { apply cov_app; [|exact C2]. eapply cov_sims; [|exact C1].
          apply Forall2_app; [apply sims_refl|exact S2b]. }
        intros e' H. destruct (F2 e' H) as (left & Hl). exists left. apply in_or_app. right. exact Hl.
      + exists l1, d1, o1, (concat d1 ++ n1). split; [exact R1|]. split; [exact G1|].
        split; [rewrite X1, !app_assoc; apply Permutation_app_tail; apply Permutation_app_comm|].
        split; [exact S1|]. split; [apply cov_left; exact C1|]. intros e' [].
  Qed.

  Lemma program_ok :
    (forall e, P_expr e) /\ (forall a, P_args a) /\ (forall c, P_callee c) /\ (forall b, P_block b).
  Proof.
    apply program_ind.
    - intros K l sv d G. exists l, [], (external l), []. cbn. rewrite !app_nil_r.
      split; [reflexivity|]. split; [exact G|]. split; [reflexivity|]. split; [apply sims_refl|].
      split; [apply cov_nil|]. auto.
    - intros K l sv d G. exists l, [], (external l), []. cbn. rewrite !app_nil_r.
      split; [reflexivity|]. split; [exact G|]. split; [reflexivity|]. split; [apply sims_refl|].
      split; [apply cov_nil|]. discriminate.
    - intros a Ha b Hb. apply seq_case; auto.
    - intros r Hr i a Ha c Hc. apply call_case; auto.
    - intros K l sv d c L G HL. exists l, [], (external l), []. cbn. rewrite !app_nil_r.
      split; [reflexivity|]. split; [apply sims_refl|]. split; [apply cov_nil|].
      split; [destruct c; exact HL|]. split; [reflexivity|]. destruct c; auto.
    - intros k v e He r Hr. apply args_case; auto.
    - intros K l sv d. exists []. cbn. rewrite app_nil_r. split; [reflexivity|apply cov_nil].
    - intros b Hb r Hr. apply callee_case; auto.
    - intros K l sv d G. exists l, [], (external l), []. cbn. rewrite !app_nil_r.
      split; [reflexivity|]. split; [exact G|]. split; [reflexivity|]. split; [apply sims_refl|].
      split; [apply cov_nil|]. intros e [].
    - intros c e He r Hr. apply block_case; auto.
  Qed.
End Any.

(** * Programs that raise nothing *)

Section Quiet.
  Variable has : nat -> bool.
  Variable out : nat -> option nat.

  Definition returns (S : list (nat * args)) : Prop := forall i a, In (i, a) S -> out i <> None.

  Lemma ret_app_l S S' : returns (S ++ S') -> returns S.
  Proof. intros K i a H. apply (K i a). apply in_or_app. left. exact H. Qed.
  Lemma ret_app_r S S' : returns (S ++ S') -> returns S'.
  Proof. intros K i a H. apply (K i a). apply in_or_app. right. exact H. Qed.

  Definition plus (l : level) (hs : list handler) : level :=
    {| lexical := lexical l; external := external l ++ hs; pending := false |}.

  Definition Q_expr (e : expr) : Prop :=
    no_fail e -> returns (sites e) -> keywords_differ (sites e) -> forall l sv d, pending l = false ->
    run has (fst (events out e)) (st l sv d) = Ok (st (plus l (own has out e)) sv (d ++ finished has out e))
    /\ snd (events out e) = true.

  Definition last_one (c : option handler) (a : args) : list handler :=
    match c, a_nil a with Some h, false => [absorb a h] | _, _ => [] end.

  Definition Q_args (a : args) : Prop :=
    no_fail_args a -> returns (sites_args a) -> keywords_differ (sites_args a) ->
    forall l sv d c L, pending l = false -> lexical l = c :: L ->
    run has (fst (events_args out a)) (st l sv d)
    = Ok (st {| lexical := option_map (absorb a) c :: L;
                external := (external l ++ own_args has out a) ++ last_one c a;
                pending := negb (is_nil (last_one c a)) |} sv (d ++ finished_args has out a))
    /\ snd (events_args out a) = true.

  Definition Q_callee (c : callee) : Prop :=
    no_fail_callee c -> returns (sites_callee c) -> keywords_differ (sites_callee c) -> forall l sv d,
    run has (events_callee out c) (st l sv d) = Ok (st l sv (d ++ finished_callee has out c)).

  Definition Q_block (b : block) : Prop :=
    no_fail_block b -> returns (sites_block b) -> keywords_differ (sites_block b) -> forall l sv d,
    pending l = false -> external l = [] ->
    exists L, run has (fst (events_block out b)) (st l sv d)
              = Ok (st {| lexical := L; external := []; pending := false |} sv (d ++ finished_block has out b)).

  Lemma plus_nil l : pending l = false -> plus l [] = l.
  Proof. intros P. unfold plus. rewrite app_nil_r, <- P. destruct l; reflexivity. Qed.

  Lemma q_call r i a c : Q_expr r -> Q_args a -> Q_callee c -> Q_expr (Call r i a c).
  Proof.
    intros IHr IHa IHc (Nr & Na & Nc) R K l sv d P. cbn [sites] in R, K.
    pose proof (ret_app_l _ _ R) as Rr. pose proof (ret_app_r _ _ R) as R1.
    pose proof (ret_app_l _ _ R1) as Ra. pose proof (ret_app_r _ _ R1) as R2.
    pose proof (ret_app_l _ _ R2) as Rc.
    pose proof (kd_app_l _ _ K) as Kr. pose proof (kd_app_r _ _ K) as K1.
    pose proof (kd_app_l _ _ K1) as Ka. pose proof (kd_app_r _ _ K1) as K2.
    pose proof (kd_app_l _ _ K2) as Kc.
    assert (Hin : In (i, a) (sites r ++ sites_args a ++ sites_callee c ++ [(i, a)])).
    { apply in_or_app. right. apply in_or_app. right. apply in_or_app. right. left. reflexivity. }
    pose proof (R i a Hin) as Oi. pose proof (K i a Hin) as Ki.
    destruct (IHr Nr Rr Kr l sv d P) as [E1 E1'].
    cbn [events]. destruct (events out r) as [x okx]. cbn [fst snd] in *. subst okx.
    set (l1 := plus l (own has out r)) in *.
    set (h0 := if has i then Some (new_handler i) else None).
    assert (E2 : run has (BeforeCall i (a_nil a) :: fst (events_args out a)) (st l1 sv (d ++ finished has out r))
        = Ok (st {| lexical := option_map (absorb a) h0 :: lexical l;
                    external := (external l1 ++ own_args has out a)
                                ++ (if has i then [absorb a (new_handler i)] else []);
                    pending := has i |} sv ((d ++ finished has out r) ++ finished_args has out a))
        /\ snd (events_args out a) = true).
    { destruct (a_nil a) eqn:Z.
      - destruct a; [|discriminate]. cbn. unfold before_call, to_external, h0. rewrite !app_nil_r.
        split; [|reflexivity]. destruct (has i); cbn; rewrite ?app_nil_r; reflexivity.
      - set (l2 := before_call has i false l1).
        destruct (IHa Na Ra Ka l2 sv (d ++ finished has out r) h0 (lexical l) eq_refl eq_refl) as [E2 E2'].
        split; [|exact E2']. erewrite run_cons; [|reflexivity].
        change {| cur := before_call has i false (cur (st l1 sv (d ++ finished has out r)));
                  saved := saved (st l1 sv (d ++ finished has out r));
                  done := done (st l1 sv (d ++ finished has out r)) |} with (st l2 sv (d ++ finished has out r)).
        rewrite E2. unfold last_one, h0. rewrite Z. destruct (has i); reflexivity. }
    destruct E2 as [E2 E2']. destruct (events_args out a) as [y oky]. cbn [fst snd] in *. subst oky.
    match type of E2 with _ = Ok (st ?a2 _ ?b2) => set (l2 := a2) in *; set (d2 := b2) in * end.
    pose proof (IHc Nc Rc Kc l2 sv d2) as E3.
    destruct (out i) as [v|] eqn:O; [|congruence]. cbn [fst snd]. split; [|reflexivity].
    rewrite (run_app _ _ _ _ _ E1).
    change (BeforeCall i (a_nil a) :: y ++ events_callee out c ++ [AfterCall v])
      with ((BeforeCall i (a_nil a) :: y) ++ events_callee out c ++ [AfterCall v]).
    rewrite (run_app _ _ _ _ _ E2). rewrite (run_app _ _ _ _ _ E3).
    cbn [run rfold step rbind]. unfold after_call, l2. cbn [lexical external pending cur st].
    cbn [own finished]. rewrite O. unfold d2, plus. cbn [external lexical].
    destruct (has i) eqn:Hi.
    - rewrite on_last_app. cbn. unfold st. do 2 f_equal; [|rewrite <- !app_assoc; reflexivity].
      f_equal. rewrite <- !app_assoc. do 4 f_equal. unfold process_return, completed.
      rewrite absorb_call, absorb_args, absorb_kwargs; [reflexivity|exact Ki].
    - cbn. unfold st. do 2 f_equal; [|rewrite <- !app_assoc; reflexivity].
      f_equal. rewrite !app_nil_r, <- !app_assoc. reflexivity.
  Qed.

  Lemma q_args k v e r : Q_expr e -> Q_args r -> Q_args (ACons k v e r).
  Proof.
    intros IHe IHr (Ne & Nr) R K l sv d c L P HL. cbn [sites_args] in R, K.
    destruct (IHe Ne (ret_app_l _ _ R) (kd_app_l _ _ K) l sv d P) as [E1 E1'].
    cbn [events_args]. destruct (events out e) as [x okx]. cbn [fst snd] in *. subst okx.
    destruct r as [|k' v' e' r'].
    - cbn [events_args fst snd a_nil own_args finished_args]. split; [|reflexivity].
      rewrite (run_app _ _ _ _ _ E1). cbn. unfold on_argument, plus. cbn. rewrite HL.
      destruct c as [h|]; cbn; unfold to_external; cbn; rewrite ?app_nil_r; reflexivity.
    - set (r := ACons k' v' e' r') in *. change (a_nil r) with false.
      set (l1 := on_argument k v false (plus l (own has out e))).
      assert (E1p : pending l1 = false /\ external l1 = external l ++ own has out e
                    /\ lexical l1 = option_map (process k v) c :: L).
      { unfold l1, on_argument, plus. cbn. rewrite HL. destruct c; cbn; auto. }
      destruct E1p as (E1p & E1x & E1l).
      destruct (IHr Nr (ret_app_r _ _ R) (kd_app_r _ _ K) l1 sv (d ++ finished has out e) _ _ E1p E1l) as [E2 E2'].
      destruct (events_args out r) as [y oky]. cbn [fst snd] in *. subst oky. split; [|reflexivity].
      rewrite (run_app _ _ _ _ _ E1). erewrite run_cons; [|reflexivity].
      change (run has y (st l1 sv (d ++ finished has out e)) = Ok
        (st {| lexical := option_map (absorb (ACons k v e r)) c :: L;
               external := (external l ++ own has out e ++ own_args has out r) ++ last_one c (ACons k v e r);
               pending := negb (is_nil (last_one c (ACons k v e r))) |} sv
            (d ++ finished has out e ++ finished_args has out r))).
      rewrite E2, E1x. unfold last_one. change (a_nil r) with false. change (a_nil (ACons k v e r)) with false.
      rewrite <- !app_assoc. destruct c; reflexivity.
  Qed.

  Lemma quiet_ok :
    (forall e, Q_expr e) /\ (forall a, Q_args a) /\ (forall c, Q_callee c) /\ (forall b, Q_block b).
  Proof.
    apply program_ind.
    - intros _ _ _ l sv d P. cbn. rewrite app_nil_r, plus_nil by exact P. split; reflexivity.
    - intros [].
    - intros a Ha b Hb (Na & Nb) R K l sv d P. cbn [sites] in R, K.
      destruct (Ha Na (ret_app_l _ _ R) (kd_app_l _ _ K) l sv d P) as [E1 E1'].
      destruct (Hb Nb (ret_app_r _ _ R) (kd_app_r _ _ K) (plus l (own has out a)) sv (d ++ finished has out a) eq_refl)
        as [E2 E2'].
      cbn [events]. destruct (events out a) as [x okx]. cbn [fst snd] in *. subst okx.
      destruct (events out b) as [y oky]. cbn [fst snd] in *. split; [|exact E2'].
      rewrite (run_app _ _ _ _ _ E1), E2. unfold plus, st. cbn. rewrite <- !app_assoc. reflexivity.
    - intros r Hr i a Ha c Hc. apply q_call; auto.
    - intros _ _ _ l sv d c L P HL. split; [|reflexivity].
      assert (Z : last_one c ANil = []) by (unfold last_one; destruct c; reflexivity).
      rewrite Z. cbn. unfold st. rewrite !app_nil_r, <- P. do 2 f_equal.
      destruct l as [a b p]. cbn in HL. subst a. destruct c; reflexivity.
    - intros k v e He r Hr. apply q_args; auto.
    - intros _ _ _ l sv d. cbn. rewrite app_nil_r. reflexivity.
    - intros b Hb r Hr (Nb & Nr) R K l sv d. cbn [sites_callee] in R, K.
      destruct (Hb Nb (ret_app_l _ _ R) (kd_app_l _ _ K) level0 (l :: sv) d eq_refl eq_refl) as (L & E1).
      cbn [events_callee]. erewrite run_cons; [|reflexivity].
      change {| cur := level0; saved := cur (st l sv d) :: saved (st l sv d); done := done (st l sv d) |}
        with (st level0 (l :: sv) d).
      rewrite (run_app _ _ _ _ _ E1). erewrite run_cons; [|reflexivity].
      cbn [cur saved done st finished_callee].
      change {| cur := l; saved := sv; done := d ++ finished_block has out b |}
        with (st l sv (d ++ finished_block has out b)).
      rewrite (Hr Nr (ret_app_r _ _ R) (kd_app_r _ _ K)). rewrite app_assoc. reflexivity.
    - intros _ _ _ l sv d P X. exists (lexical l). cbn. rewrite app_nil_r. unfold st. rewrite <- P, <- X.
      destruct l; reflexivity.
    - intros c e He r Hr (Ne & Nr) R K l sv d P X. cbn [sites_block] in R, K.
      destruct (He Ne (ret_app_l _ _ R) (kd_app_l _ _ K) l sv d P) as [E1 E1'].
      cbn [events_block]. destruct (events out e) as [x okx]. cbn [fst snd] in *. subst okx.
      set (l1 := {| lexical := lexical l; external := []; pending := false |}).
      destruct (Hr Nr (ret_app_r _ _ R) (kd_app_r _ _ K) l1 sv ((d ++ finished has out e) ++ [own has out e])
                  eq_refl eq_refl) as (L & E2).
      destruct (events_block out r) as [y oky]. cbn [fst snd] in *. exists L.
      rewrite (run_app _ _ _ _ _ E1). erewrite run_cons; [|reflexivity].
      cbn [cur saved done st]. unfold plus at 2. cbn [external]. rewrite X. cbn [app].
      cbn [finished_block].
      match goal with |- run has y ?s = _ =>
        change s with (st l1 sv ((d ++ finished has out e) ++ [own has out e])) end.
      rewrite E2. rewrite <- !app_assoc. reflexivity.
  Qed.
End Quiet.

(** * What handlers mark *)

Lemma In_fold_supd ls : forall a y, In y (fold_left supd ls a) <-> In y a \/ exists l, In l ls /\ In y l.
Proof.
  induction ls as [|l ls IH]; intros a y; cbn.
  - split; [auto|]. intros [H|(l & [] & _)]; exact H.
  - rewrite IH, In_supd. split.
    + intros [[H|H]|(x & X & Y)]; [auto|right; exists l; auto|right; exists x; auto].
    + intros [H|(x & [<-|X] & Y)]; [auto|auto|right; exists x; auto].
Qed.

Lemma In_union_args args kwargs s :
  In s (union_args args kwargs) <-> (exists a, In a args /\ In s (snd a)) \/ (exists a, In a kwargs /\ In s (snd a)).
Proof.
  unfold union_args. rewrite In_fold_supd. split.
  - intros [[]|(l & L & S)]. apply in_map_iff in L. destruct L as (a & <- & A). apply in_app_iff in A.
    destruct A; [left|right]; exists a; auto.
  - intros [(a & A & S)|(a & A & S)]; right; exists (snd a); (split; [|exact S]); apply in_map;
      apply in_or_app; auto.
Qed.

Lemma In_kwargs (K : dict argument) (P : argument -> Prop) :
  (exists a, In a (map snd K) /\ P a) <-> (exists k a, In (k, a) K /\ P a).
Proof.
  split.
  - intros (a & A & S). apply in_map_iff in A. destruct A as ((k & a') & E & A). cbn in E. subst.
    exists k, a. auto.
  - intros (k & a & A & S). exists a. split; [|exact S]. exact (in_map snd _ _ A).
Qed.

Lemma In_arg_syms h s : In s (arg_syms h) <-> arg_symbol h s.
Proof. unfold arg_syms, arg_symbol. rewrite In_union_args, In_kwargs. tauto. Qed.

Lemma mutate_caller_spec E base o deps u :
  In u (mutate_caller E base (Some o) deps) <-> exists s, stands_for E base o s /\ u = mutate deps s.
Proof.
  unfold mutate_caller, stands_for. cbn zeta.
  destruct base as [n|].
  - destruct (is_nil (filter (fun s => sym_name E s =? n) (aliases E o))) eqn:Z.
    + apply is_nil_true in Z.
      assert (N : forall s', In s' (aliases E o) -> sym_name E s' <> n).
      { intros s' I Q. assert (X : In s' (filter (fun s => sym_name E s =? n) (aliases E o))).
        { apply filter_In. split; [exact I|]. apply Nat.eqb_eq. exact Q. }
        rewrite Z in X. destruct X. }
      rewrite in_map_iff. split.
      * intros (s & <- & I). exists s. auto.
      * intros (s & (I & _) & ->). exists s. auto.
    + apply is_nil_false in Z.
      rewrite in_map_iff. split.
      * intros (s & <- & I). apply filter_In in I. destruct I as [I Q]. apply Nat.eqb_eq in Q. exists s. auto.
      * intros (s & (I & Q) & ->). exists s. split; [reflexivity|]. apply filter_In. split; [exact I|].
        apply Nat.eqb_eq. destruct Q as [Q|Q]; [exact Q|]. exfalso.
        destruct (filter (fun s => sym_name E s =? n) (aliases E o)) as [|x xs] eqn:F; [congruence|].
        assert (X : In x (filter (fun s => sym_name E s =? n) (aliases E o))) by (rewrite F; left; reflexivity).
        apply filter_In in X. destruct X as [X1 X2]. apply Nat.eqb_eq in X2. exact (Q x X1 X2).
  - cbn [is_nil]. rewrite in_map_iff. split.
    + intros (s & <- & I). exists s. auto.
    + intros (s & (I & _) & ->). exists s. auto.
Qed.

Lemma mutate_module_spec E m deps u :
  In u (mutate_module E (Some m) deps) <-> exists s, In s (aliases E m) /\ u = mutate deps s.
Proof. cbn. rewrite in_map_iff. split; intros (s & A & B); exists s; auto. Qed.

Definition arg_update (s : nat) : update :=
  {| u_sym := s; u_deps := []; u_overwrite := false; u_mutated := true; u_descend := false |}.

Lemma mutate_args_spec E syms u :
  In u (mutate_args E syms) <-> exists s, In s syms /\ is_anonymous E s = false /\ u = arg_update s.
Proof.
  unfold mutate_args. rewrite in_map_iff. split.
  - intros (s & <- & I). apply filter_In in I. destruct I as [I J]. exists s. split; [exact I|].
    split; [|reflexivity]. destruct (is_anonymous E s); [discriminate|reflexivity].
  - intros (s & I & J & ->). exists s. split; [reflexivity|]. apply filter_In. rewrite J. auto.
Qed.

Lemma depending_spec E first a s :
  (exists x, In x (depending E first a) /\ In s (snd x))
  <-> In s (snd a) /\ exists f, In f first /\ In f (parents E s).
Proof.
  unfold depending.
  destruct (filter (fun s => existsb (fun f => memb f (parents E s)) first) (snd a)) as [|y ys] eqn:F.
  - split; [intros (x & [] & _)|]. intros (I & f & F1 & F2).
    assert (X : In s (filter (fun s => existsb (fun f => memb f (parents E s)) first) (snd a))).
    { apply filter_In. split; [exact I|]. apply existsb_exists. exists f. split; [exact F1|].
      apply memb_In. exact F2. }
    rewrite F in X. destruct X.
  - rewrite <- F. split.
    + intros (x & [<-|[]] & I). cbn in I. apply filter_In in I. destruct I as [I J]. split; [exact I|].
      apply existsb_exists in J. destruct J as (f & F1 & F2). exists f. split; [exact F1|]. apply memb_In. exact F2.
    + intros (I & f & F1 & F2). eexists. split; [left; reflexivity|]. cbn. apply filter_In. split; [exact I|].
      apply existsb_exists. exists f. split; [exact F1|]. apply memb_In. exact F2.
Qed.

Lemma returned_spec h v : returned h v = true <-> h_ret h = Some v.
Proof.
  unfold returned. destruct (h_ret h) as [r|].
  - rewrite Nat.eqb_eq. split; intros H; congruence.
  - split; intros H; discriminate.
Qed.

Lemma standard_method E base t h o u : t_caller t = Some o ->
  In u (handle_standard E base t h) <->
  (h_ret h = Some none \/ h_ret h = Some o) /\ exists s, stands_for E base o s /\ u = mutate (arg_syms h) s.
Proof.
  intros C. unfold handle_standard. rewrite C.
  destruct (returned h none || returned h o) eqn:R.
  - rewrite mutate_caller_spec. apply orb_true_iff in R. rewrite !returned_spec in R. tauto.
  - apply orb_false_iff in R. split; [intros []|]. intros [[H|H] _]; apply returned_spec in H; destruct R; congruence.
Qed.

Lemma standard_function E base t h m u : t_caller t = None -> t_module t = Some m ->
  In u (handle_standard E base t h) <->
  h_ret h = Some none /\ ((exists s, In s (aliases E m) /\ u = mutate (arg_syms h) s)
                          \/ exists s, may_change_argument E m h s /\ u = arg_update s).
Proof.
  intros C M. unfold handle_standard. rewrite C, M.
  destruct (returned h none) eqn:R.
  2:{ split; [intros []|]. intros [H _]. apply returned_spec in H. congruence. }
  apply returned_spec in R. rewrite in_app_iff, mutate_module_spec.
  assert (X : In u match h_args h with
            | [] => []
            | (v, syms) :: rest =>
                if is_excepted E m || is_plain E v then []
                else mutate_args E (union_args ((v, syms) :: flat_map (depending E syms) rest) (map snd (h_kwargs h)))
            end <-> exists s, may_change_argument E m h s /\ u = arg_update s).
  { unfold may_change_argument. destruct (h_args h) as [|(v, syms) rest] eqn:A.
    - split; [intros []|]. intros (s & (v & syms & rest & K & _) & _). discriminate.
    - destruct (is_excepted E m || is_plain E v) eqn:Z.
      + split; [intros []|]. intros (s & (v' & syms' & rest' & K & P & Q & _) & _). injection K as <- <- <-.
        rewrite P, Q in Z. discriminate.
      + apply orb_false_iff in Z. destruct Z as [Z1 Z2]. rewrite mutate_args_spec. split.
        * intros (s & I & J & ->). exists s. split; [|reflexivity]. exists v, syms, rest.
          split; [reflexivity|]. split; [exact Z2|]. split; [exact Z1|]. split; [exact J|].
          rewrite In_union_args, In_kwargs in I. destruct I as [(a & [<-|I] & I2)|I]; [auto| |auto].
          apply in_flat_map in I. destruct I as (b & B1 & B2).
          destruct (proj1 (depending_spec E syms b s) (ex_intro _ a (conj B2 I2))) as (D1 & f & D2 & D3).
          right. left. exists b, f. auto.
        * intros (s & (v' & syms' & rest' & K & P & Q & J & I) & ->). injection K as <- <- <-. exists s.
          split; [|auto]. rewrite In_union_args, In_kwargs. destruct I as [I|[(a & f & I1 & I2 & I3 & I4)|I]]; [|left|auto].
          -- left. exists (v, syms). split; [left; reflexivity|exact I].
          -- destruct (proj2 (depending_spec E syms a s) (conj I2 (ex_intro _ f (conj I3 I4)))) as (x & X1 & X2).
             exists x. split; [|exact X2]. right. apply in_flat_map. exists a. auto. }
  rewrite X. tauto.
Qed.

(** * Which handler *)

Lemma find_method_nearest E m cs : nearest (by_method E) m cs (find_method E m cs).
Proof.
  induction cs as [|c cs IH]; cbn; [constructor|].
  destruct (by_method E c m) eqn:B; [constructor; exact B|constructor; assumption].
Qed.

Lemma nearest_fun ann m cs o o' : nearest ann m cs o -> nearest ann m cs o' -> o = o'.
Proof.
  intros H. revert o'. induction H; intros o' K; inversion K; subst; auto; congruence.
Qed.

Lemma register_functions fs : forall r,
  (forall c m, snd (fold_left register_function fs r) c m = snd r c m)
  /\ forall f, (forall k, ~ In (f, k) fs) -> fst (fold_left register_function fs r) f = fst r f.
Proof.
  induction fs as [|(g, k) fs IH]; intros r; cbn; [auto|].
  destruct (IH (register_function r (g, k))) as [A B]. split.
  - intros c m. rewrite A. reflexivity.
  - intros f N. rewrite B; [|intros k' I; apply (N k'); right; exact I]. cbn.
    destruct (f =? g) eqn:Q; [|reflexivity]. apply Nat.eqb_eq in Q. subst. exfalso. apply (N k). left. reflexivity.
Qed.

Lemma register_functions_found fs : forall r f k, In (f, k) fs -> (forall k', In (f, k') fs -> k' = k) ->
  fst (fold_left register_function fs r) f = Some k.
Proof.
  induction fs as [|(g, k0) fs IH]; intros r f k I U; [destruct I|]. cbn.
  destruct (in_dec Nat.eq_dec f (map fst fs)) as [J|J].
  - apply in_map_iff in J. destruct J as ((f' & k1) & Q & J). cbn in Q. subst f'.
    assert (k1 = k) as -> by (apply U; right; exact J).
    apply IH; [exact J|]. intros k' K. apply U. right. exact K.
  - destruct I as [Q|I]; [|exfalso; apply J; exact (in_map fst _ _ I)]. injection Q as -> ->.
    destruct (register_functions fs (register_function r (f, k))) as [_ B]. rewrite B.
    + cbn. rewrite Nat.eqb_refl. reflexivity.
    + intros k' K. apply J. exact (in_map fst _ _ K).
Qed.

Lemma register_methods att cs : forall r c m k,
  (forall k', In (c, m, k') cs -> k' = k) ->
  (In (c, m, k) cs \/ snd r c m = Some k) -> snd (fold_left (register_method att) cs r) c m = Some k.
Proof.
  induction cs as [|((c0, m0), k0) cs IH]; intros r c m k U I; cbn.
  - destruct I as [[]|I]; exact I.
  - apply IH; [intros k' K; apply U; right; exact K|]. cbn.
    destruct ((c =? c0) && (m =? m0)) eqn:Q.
    + apply andb_true_iff in Q. destruct Q as [Q1 Q2]. apply Nat.eqb_eq in Q1. apply Nat.eqb_eq in Q2. subst.
      right. f_equal. apply U. left. reflexivity.
    + destruct I as [[I|I]|I]; [|auto|auto]. injection I as -> -> ->. rewrite !Nat.eqb_refl in Q. discriminate.
Qed.

Lemma register_methods_none att cs : forall r c m,
  (forall k, ~ In (c, m, k) cs) -> snd (fold_left (register_method att) cs r) c m = snd r c m.
Proof.
  induction cs as [|((c0, m0), k0) cs IH]; intros r c m N; cbn; [reflexivity|].
  rewrite IH; [|intros k K; apply (N k); right; exact K]. cbn.
  destruct ((c =? c0) && (m =? m0)) eqn:Q; [|reflexivity].
  apply andb_true_iff in Q. destruct Q as [Q1 Q2]. apply Nat.eqb_eq in Q1. apply Nat.eqb_eq in Q2. subst.
  exfalso. apply (N k0). left. reflexivity.
Qed.

Lemma register_methods_function att cs : forall r f k,
  (forall c m k', In (c, m, k') cs -> att c m = Some f -> k' = k) ->
  ((exists c m, In (c, m, k) cs /\ att c m = Some f) \/ fst r f = Some k) ->
  fst (fold_left (register_method att) cs r) f = Some k.
Proof.
  induction cs as [|((c0, m0), k0) cs IH]; intros r f k U I; cbn.
  - destruct I as [(c & m & [] & _)|I]; exact I.
  - apply IH; [intros c m k' K; apply (U c m); right; exact K|].
    destruct (att c0 m0) as [g|] eqn:A; cbn.
    + destruct (f =? g) eqn:Q.
      * apply Nat.eqb_eq in Q. subst. right. f_equal. apply (U c0 m0); [left; reflexivity|exact A].
      * destruct I as [(c & m & [I|I] & J)|I]; [|left; exists c, m; auto|auto].
        injection I as -> -> ->. rewrite A in J. injection J as ->. rewrite Nat.eqb_refl in Q. discriminate.
    + destruct I as [(c & m & [I|I] & J)|I]; [|left; exists c, m; auto|auto].
      injection I as -> -> ->. congruence.
Qed.

Lemma register_methods_no_function att cs : forall r f,
  (forall c m k', In (c, m, k') cs -> att c m <> Some f) -> fst (fold_left (register_method att) cs r) f = fst r f.
Proof.
  induction cs as [|((c0, m0), k0) cs IH]; intros r f N; cbn; [reflexivity|].
  rewrite IH; [|intros c m k' K; apply (N c m k'); right; exact K].
  destruct (att c0 m0) as [g|] eqn:A; cbn; [|reflexivity].
  destruct (f =? g) eqn:Q; [|reflexivity]. apply Nat.eqb_eq in Q. subst. exfalso.
  apply (N c0 m0 k0); [left; reflexivity|exact A].
Qed.
