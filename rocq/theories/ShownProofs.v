From Coq Require Import List Arith Bool String Lia.
From Verif Require Import Base Loops ShownModel ShownSpec.
Import ListNotations.
Local Open Scope nat_scope.
Local Open Scope list_scope.

(** ** Tracebacks *)

Lemma chain_fun h tb l : chain h tb l -> forall l', chain h tb l' -> l = l'.
Proof.
  induction 1 as [|r f next l D C IH]; intros l' C'; inversion C' as [|r' f' next' m D' C'']; subst; [reflexivity|].
  rewrite D in D'. injection D' as <- <-. f_equal. now apply IH.
Qed.

(** The rest of a traceback does not contain what comes before. *)
Lemma chain_nodup h tb l : chain h tb l -> NoDup (map fst l).
Proof.
  intros C. assert (G : forall n tb l, List.length l <= n -> chain h tb l -> NoDup (map fst l)).
  { clear. induction n as [|n IH]; intros tb l N C; destruct C as [|r f next l D C]; try (constructor; fail);
      cbn [List.length] in N; try lia. cbn [map fst]. apply NoDup_cons.
    - assert (S : forall l1 x l2, l = l1 ++ x :: l2 -> chain h (Some (fst x)) (x :: l2)).
      { clear - C. revert next C. induction l as [|y l IH]; intros next C l1 x l2 E; [destruct l1; discriminate|].
        inversion C as [|r f next' m D C']; subst. destruct l1 as [|z l1]; cbn in E.
        - injection E as <- <-. econstructor; eassumption.
        - injection E as <- E. eapply IH; eassumption. }
      rewrite in_map_iff. intros ([x fx] & E & I). cbn in E. subst x.
      apply in_split in I as (l1 & l2 & E). specialize (S _ _ _ E). cbn in S.
      assert (F : chain h (Some r) ((r, f) :: l)) by (econstructor; eassumption).
      pose proof (chain_fun _ _ _ S _ F) as Q. apply (f_equal (@List.length _)) in Q. rewrite E in Q.
      cbn in Q. rewrite app_length in Q. cbn in Q. lia.
    - apply (IH next); [lia|assumption]. }
  exact (G _ _ _ (le_n _) C).
Qed.

Lemma chain_keep h p v tb l : chain h tb l -> ~ In p (map fst l) -> chain (dset h p v) tb l.
Proof.
  induction 1 as [|r f next l D C IH]; intros N; [constructor|]. cbn in N.
  econstructor; [|apply IH; tauto]. rewrite dget_dset_other; [exact D|tauto].
Qed.

(** From an object [p] that stays on. *)
Lemma loop_spec k fuel : forall h p g tb l,
  List.length l < fuel -> dget h p = Some (g, tb) -> chain h tb l -> ~ In p (map fst l) ->
  exists h', filter_loop k fuel h (Some p) tb = Ok h' /\
    chain h' (Some p) ((p, g) :: filter (fun x => negb (hidden k (snd x))) l) /\
    (forall x, x <> p -> ~ In x (map fst l) -> dget h' x = dget h x) /\
    (forall x f, In (x, f) ((p, g) :: l) -> exists n, dget h' x = Some (f, n)).
Proof.
  induction fuel as [|fuel IH]; intros h p g tb l F D C N; [lia|].
  destruct C as [|r f next l Dr C]; cbn [filter_loop].
  - exists h. refine (conj eq_refl (conj _ (conj (fun _ _ _ => eq_refl) _))).
    + econstructor; [exact D|constructor].
    + intros x f [[= <- <-]|[]]. eauto.
  - cbn [List.length map fst In] in *. rewrite Dr.
    assert (P : p <> r) by (intros ->; tauto). assert (P' : r <> p) by congruence.
    pose proof (chain_nodup h (Some r) ((r, f) :: l) ltac:(econstructor; eassumption)) as ND.
    cbn in ND. apply NoDup_cons_iff in ND as [ND1 ND2].
    cbn [filter snd]. destruct (hidden k f) eqn:H; cbn [negb].
    + rewrite D. destruct (IH (dset h p (g, next)) p g next l) as (h' & E & C' & O & Q).
      * lia.
      * apply dget_dset_same.
      * apply chain_keep; [assumption|tauto].
      * tauto.
      * exists h'. refine (conj E (conj C' (conj _ _))).
        -- intros x X Y. rewrite O by tauto. now rewrite dget_dset_other.
        -- intros x fx [I|[[= <- <-]|I]].
           ++ apply Q. left. exact I.
           ++ rewrite O by auto. rewrite dget_dset_other by auto. eauto.
           ++ apply Q. right. exact I.
    + destruct (IH h r f next l) as (h' & E & C' & O & Q); auto; [lia|].
      exists h'. refine (conj E (conj _ (conj _ _))).
      * econstructor; [|exact C']. rewrite O; [exact D|auto|tauto].
      * intros x X Y. apply O; [intros ->|]; tauto.
      * intros x fx [[= <- <-]|I].
        -- rewrite O; [eauto|auto|tauto].
        -- apply Q. exact I.
Qed.

Lemma chain_length h tb l : chain h tb l -> List.length l <= List.length h.
Proof.
  intros C. pose proof (chain_nodup _ _ _ C) as N.
  rewrite <- (map_length fst l), <- (map_length fst h). apply NoDup_incl_length; [exact N|].
  clear N. induction C as [|r f next l D C IH]; intros x; cbn; [tauto|].
  intros [<-|I]; [|now apply IH]. apply dget_Some_key in D. exact D.
Qed.

Lemma filter_spec k h tb l : chain h tb l ->
  exists h', filter_hidden_frames k h tb = Ok h' /\ chain h' tb (visible k l) /\
    (forall x, ~ In x (map fst l) -> dget h' x = dget h x) /\
    (forall x f, In (x, f) l -> exists n, dget h' x = Some (f, n)).
Proof.
  intros C. pose proof (chain_length _ _ _ C) as L. unfold filter_hidden_frames.
  pose proof (chain_nodup _ _ _ C) as N.
  destruct C as [|r f next l D C]; cbn [filter_loop visible].
  - exists h. refine (conj eq_refl (conj _ (conj (fun _ _ => eq_refl) _))); [constructor|]. intros x f [].
  - rewrite D. cbn [List.length] in L. cbn in N. apply NoDup_cons_iff in N as [N _].
    destruct (loop_spec k (List.length h) h r f next l) as (h' & E & C' & O & Q); auto.
    exists h'. refine (conj E (conj C' (conj _ Q))).
    intros x X. cbn in X. apply O; [intros ->|]; tauto.
Qed.

Lemma visible_idem k l : visible k (visible k l) = visible k l.
Proof.
  destruct l as [|x l]; [reflexivity|]. cbn. f_equal.
  induction l as [|y l IH]; [reflexivity|]. cbn. destruct (hidden k (snd y)) eqn:H; cbn; [exact IH|].
  rewrite H. cbn. now rewrite IH.
Qed.

Lemma occurs_spec p s : occurs p s = true <-> exists a b, s = (a ++ p ++ b)%string.
Proof.
  assert (P : forall p s, prefix p s = true <-> exists b, s = (p ++ b)%string).
  { clear. induction p as [|c p IH]; intros s; cbn.
    - split; [eauto|destruct s; reflexivity].
    - destruct s as [|d s]; cbn; [split; [discriminate|intros (b & E); discriminate]|].
      destruct (Ascii.ascii_dec c d) as [->|N].
      + rewrite IH. split; intros (b & E); exists b; [now subst|congruence].
      + split; [discriminate|]. intros (b & E). congruence. }
  induction s as [|c s IH]; cbn [occurs]; rewrite orb_true_iff, P.
  - split.
    + intros [(b & E)|E]; [|discriminate]. exists EmptyString, b. exact E.
    + intros (a & b & E). left. destruct a; [|discriminate]. exists b. exact E.
  - rewrite IH. split.
    + intros [(b & E)|(a & b & E)]; [exists EmptyString, b; exact E|]. exists (String c a), b. cbn. now rewrite E.
    + intros ([|d a] & b & E); [left; exists b; exact E|]. right. exists a, b. cbn in E. congruence.
Qed.

(** ** Outputs *)

Lemma sum_len_ok l : forall acc,
  rfold (fun acc d => rmap (fun n => acc + n) (of_option TypeError d)) l acc =
  if existsb (fun d => match d with None => true | _ => false end) l then Err TypeError else Ok (acc + total l).
Proof.
  induction l as [|[n|] l IH]; intros acc; cbn; [now rewrite Nat.add_0_r| |reflexivity].
  rewrite IH. destruct (existsb _ l); [reflexivity|]. now rewrite Nat.add_assoc.
Qed.

Lemma total_app a b : total (a ++ b) = total a + total b.
Proof. induction a as [|[n|] a IH]; cbn; lia. Qed.

Lemma size_gen l : forall acc,
  rfold (fun acc l => rmap (fun n => acc + n) (sum_len l)) l acc =
  if existsb (fun d => match d with None => true | _ => false end) (List.concat l) then Err TypeError
  else Ok (acc + total (List.concat l)).
Proof.
  induction l as [|a l IH]; intros acc; cbn; [now rewrite Nat.add_0_r|].
  unfold sum_len at 1. rewrite sum_len_ok, existsb_app, total_app. cbn.
  destruct (existsb _ a); [reflexivity|]. cbn. rewrite IH. destruct (existsb _ (List.concat l)); [reflexivity|].
  now rewrite Nat.add_assoc.
Qed.

Lemma size_ok o : measurable o -> size o = Ok (total (lengths o)).
Proof.
  intros M. unfold size. rewrite size_gen. unfold measurable, lengths in *.
  apply Forall_app in M as [M _].
  replace (existsb _ (List.concat (data o))) with false.
  - cbn. rewrite total_app. cbn. f_equal. lia.
  - symmetry. rewrite <- not_true_iff_false. rewrite existsb_exists. intros (x & I & E).
    rewrite Forall_forall in M. apply M in I. destruct x; [discriminate|congruence].
Qed.

Lemma last_of_app i l c :
  last_of i (l ++ [c]) = if c_id c =? i then Some (List.length l) else last_of i l.
Proof.
  induction l as [|a l IH]; cbn; [now destruct (c_id c =? i)|].
  rewrite IH. destruct (c_id c =? i); reflexivity.
Qed.

Lemma last_of_spec i l p : last_of i l = Some p ->
  (exists c, nth_error l p = Some c /\ c_id c = i) /\
  (forall j c, p < j -> nth_error l j = Some c -> c_id c <> i).
Proof.
  revert p. induction l as [|a l IH]; intros p; cbn; [discriminate|].
  destruct (last_of i l) as [n|] eqn:E.
  - intros [= <-]. destruct (IH n eq_refl) as [(c & A & B) C]. split; [eauto|].
    intros [|j] c' J N; [lia|]. apply (C j); [lia|exact N].
  - destruct (Nat.eqb_spec (c_id a) i) as [Q|Q]; [|discriminate]. intros [= <-]. split; [exists a; auto|].
    intros [|j] c' J N; [lia|]. cbn in N. clear - E N.
    revert j N. induction l as [|b l IH]; intros j N; [destruct j; discriminate|].
    cbn in E. destruct (last_of i l) eqn:L; [discriminate|].
    destruct (Nat.eqb_spec (c_id b) i); [discriminate|].
    destruct j; cbn in N; [congruence|]. now apply (IH eq_refl j).
Qed.

Lemma last_of_none i l : last_of i l = None -> forall j c, nth_error l j = Some c -> c_id c <> i.
Proof.
  induction l as [|b l IH]; cbn; intros E j c N; [destruct j; discriminate|].
  destruct (last_of i l) eqn:L; [discriminate|].
  destruct (Nat.eqb_spec (c_id b) i); [discriminate|].
  destruct j; cbn in N; [congruence|]. now apply (IH eq_refl j).
Qed.

Lemma lset_same_id l p j o c0 :
  nth_error l p = Some (mkCell j o) ->
  forall n c, nth_error (lset l p (mkCell j c0)) n = Some c -> 
  exists d, nth_error l n = Some d /\ c_id d = c_id c /\ (n <> p -> d = c).
Proof.
  intros E n c. rewrite nth_error_lset. destruct (Nat.eqb_spec n p) as [->|N].
  - destruct (p <? List.length l); [|discriminate]. intros [= <-]. exists (mkCell j o). repeat split; auto. congruence.
  - intros F. exists c. auto.
Qed.

(** One run: it comes last, and only the previous run of the cell may be changed. *)
Lemma step_shape limit l r :
  exists l', step limit l r = l' ++ [mkCell (r_id r) (if r_on r then match handle_output limit l (r_id r) (r_out r) with Ok _ => Some (r_out r) | Err _ => None end else None)] /\
    (l' = l \/
     exists p b, last_of (r_id r) l = Some p /\ nth_error l p = Some (mkCell (r_id r) (Some b)) /\
       r_on r = true /\ size b = Ok (match size b with Ok n => n | _ => 0 end) /\
       limit < match size b with Ok n => n | _ => 0 end /\ l' = lset l p (mkCell (r_id r) None)).
Proof.
  unfold step. destruct (r_on r); [|exists l; auto].
  unfold handle_output. destruct (last_of (r_id r) l) as [p|] eqn:L; [|exists l; auto].
  destruct (last_of_spec _ _ _ L) as [(c & E & I) _]. rewrite E. destruct c as [j [b|]]; cbn in I; subst j; [|exists l; auto].
  destruct (size b) as [n|e] eqn:Z; [|exists l; auto].
  destruct (Nat.ltb_spec limit n) as [Q|Q]; [|exists l; auto].
  eexists. split; [reflexivity|]. right. exists p, b. rewrite Z. repeat split; auto.
Qed.

Lemma runs_snoc limit rs r : runs limit (rs ++ [r]) = step limit (runs limit rs) r.
Proof. unfold runs. now rewrite fold_left_app. Qed.

Lemma step_length limit l r : List.length (step limit l r) = S (List.length l).
Proof.
  destruct (step_shape limit l r) as (l' & -> & [-> | (p & b & _ & _ & _ & _ & _ & ->)]);
    rewrite app_length, ?lset_length; cbn; lia.
Qed.

Lemma runs_length limit rs : List.length (runs limit rs) = List.length rs.
Proof.
  induction rs as [|r rs IH] using rev_ind; [reflexivity|].
  rewrite runs_snoc, step_length, IH, app_length. cbn. lia.
Qed.

Lemma nth_error_snoc {A} (l : list A) x i :
  nth_error (l ++ [x]) i = if i =? List.length l then Some x else nth_error l i.
Proof.
  destruct (Nat.eqb_spec i (List.length l)) as [->|N].
  - now rewrite nth_error_app2, Nat.sub_diag.
  - destruct (Nat.lt_ge_cases i (List.length l)).
    + now apply nth_error_app1.
    + rewrite nth_error_app2 by lia. destruct (i - List.length l) as [|[|n]] eqn:Q; [lia| |];
        cbn; symmetry; apply nth_error_None; lia.
Qed.

(** Every run has its cell, which keeps its own output or nothing. *)
Lemma runs_own limit rs : forall i r, nth_error rs i = Some r ->
  exists c, nth_error (runs limit rs) i = Some c /\ c_id c = r_id r /\
    (kept c = None \/ kept c = Some (r_out r)).
Proof.
  induction rs as [|x rs IH] using rev_ind; intros i r N; [destruct i; discriminate|].
  rewrite runs_snoc. destruct (step_shape limit (runs limit rs) x) as (l' & -> & H).
  assert (L : List.length l' = List.length rs).
  { destruct H as [-> | (p & b & _ & _ & _ & _ & _ & ->)]; rewrite ?lset_length; apply runs_length. }
  rewrite nth_error_snoc in N. rewrite nth_error_snoc, L.
  destruct (Nat.eqb_spec i (List.length rs)) as [->|Q].
  - injection N as <-. eexists. split; [reflexivity|]. cbn. split; [reflexivity|].
    destruct (r_on x); [|auto]. destruct (handle_output _ _ _ _); auto.
  - destruct (IH _ _ N) as (c & E & I & K). destruct H as [-> | (p & b & _ & P & _ & _ & _ & ->)]; [eauto|].
    rewrite nth_error_lset. destruct (Nat.eqb_spec i p) as [->|Q2]; [|eauto].
    rewrite P in E. injection E as <-. cbn in I.
    rewrite (proj2 (Nat.ltb_lt _ _)).
    + eexists. split; [reflexivity|]. cbn. auto.
    + apply nth_error_Some. congruence.
Qed.

Lemma runs_kept limit rs : Forall (fun r => r_on r = true /\ measurable (r_out r)) rs ->
  forall i r c, nth_error rs i = Some r -> nth_error (runs limit rs) i = Some c ->
  (kept c = None <-> superseded rs i r /\ limit < total (lengths (r_out r))).
Proof.
  induction rs as [|x rs IH] using rev_ind; intros A i r c N M; [destruct i; discriminate|].
  apply Forall_app in A as [A B]. specialize (IH A). inversion B as [|? ? [On Mx] _]; subst.
  rewrite runs_snoc in M. destruct (step_shape limit (runs limit rs) x) as (l' & S & H). rewrite S in M.
  assert (L : List.length l' = List.length rs).
  { destruct H as [-> | (p & b & _ & _ & _ & _ & _ & ->)]; rewrite ?lset_length; apply runs_length. }
  assert (OK : exists l2, handle_output limit (runs limit rs) (r_id x) (r_out x) = Ok l2).
  { unfold handle_output. destruct (last_of (r_id x) (runs limit rs)) as [p|] eqn:P; [|eauto].
    destruct (nth_error (runs limit rs) p) as [[j [b|]]|] eqn:E; eauto.
    assert (Z : exists n, size b = Ok n).
    { assert (I : p < List.length rs) by (rewrite <- (runs_length limit rs); apply nth_error_Some; congruence).
      apply nth_error_Some in I. destruct (nth_error rs p) as [y|] eqn:Y; [|congruence].
      destruct (runs_own limit rs p y Y) as (d & D & _ & K). rewrite E in D. injection D as <-.
      cbn in K. destruct K as [K|K]; [discriminate|]. injection K as ->.
      rewrite size_ok; [eauto|]. rewrite Forall_forall in A. apply A. eapply nth_error_In, Y. }
    destruct Z as (n & ->). eauto. }
  destruct OK as (l2 & OK). rewrite On, OK in M.
  rewrite nth_error_snoc in N. rewrite nth_error_snoc in M. rewrite L in M.
  assert (SUP : forall i r, i < List.length rs -> nth_error rs i = Some r ->
            (superseded (rs ++ [x]) i r <-> superseded rs i r \/ r_id x = r_id r)).
  { clear. intros i r I N. unfold superseded. split.
    - intros (j & r' & J & E & Q). rewrite nth_error_snoc in E.
      destruct (Nat.eqb_spec j (List.length rs)); [injection E as <-; auto|]. left. eauto.
    - intros [(j & r' & J & E & Q)|Q].
      + exists j, r'. rewrite nth_error_snoc. destruct (Nat.eqb_spec j (List.length rs)) as [->|]; [|auto].
        assert (nth_error rs (List.length rs) = None) by (apply nth_error_None; lia). congruence.
      + exists (List.length rs), x. rewrite nth_error_snoc, Nat.eqb_refl. auto. }
  destruct (Nat.eqb_spec i (List.length rs)) as [->|Q].
  - injection N as <-. injection M as <-. cbn. split; [discriminate|].
    intros [(j & r' & J & E & _) _]. rewrite nth_error_snoc in E.
    destruct (Nat.eqb_spec j (List.length rs)); [lia|].
    assert (nth_error rs j = None) by (apply nth_error_None; lia). congruence.
  - assert (I : i < List.length rs) by (apply nth_error_Some; congruence).
    rewrite (SUP i r I N).
    destruct (runs_own limit rs i r N) as (d & D & Id & K). pose proof (IH i r d N D) as H0.
    assert (MZ : measurable (r_out r)).
    { rewrite Forall_forall in A. apply A. eapply nth_error_In, N. }
    (* whether it is the one that is looked at *)
    destruct (last_of (r_id x) (runs limit rs)) as [p|] eqn:P.
    + destruct (last_of_spec _ _ _ P) as [(e & Ep & Ie) Later].
      destruct (Nat.eq_dec i p) as [->|NP].
      * (* the previous run of the cell *)
        rewrite D in Ep. injection Ep as <-.
        assert (NS : ~ superseded rs p r).
        { intros (j & r' & J & E & Q'). destruct (runs_own limit rs j r' E) as (e & E1 & E2 & _).
          apply (Later j e J E1). congruence. }
        assert (KD : kept d = Some (r_out r)) by (destruct K; [tauto|assumption]).
        assert (RX : r_id x = r_id r) by congruence.
        destruct H as [-> | (p' & b & P' & Eb & _ & Z1 & Z2 & ->)].
        -- assert (c = d) by congruence. subst c. rewrite KD. split; [discriminate|]. intros [_ T]. exfalso.
           (* it would have been dropped *)
           unfold step in S. rewrite On, OK in S. unfold handle_output in OK. rewrite P, D in OK.
           destruct d as [j o]. cbn in KD. subst o. rewrite size_ok in OK by assumption.
           rewrite (proj2 (Nat.ltb_lt _ _) T) in OK. injection OK as <-.
           apply app_inj_tail in S as [S _].
           apply (f_equal (fun z => nth_error z p)) in S. rewrite nth_error_lset, Nat.eqb_refl, D in S.
           destruct (p <? List.length (runs limit rs)); discriminate.
        -- injection P' as <-. rewrite nth_error_lset, Nat.eqb_refl in M.
           destruct (p <? List.length (runs limit rs)); [|discriminate]. injection M as <-. cbn.
           rewrite D in Eb. injection Eb as ->. cbn in KD. injection KD as ->.
           rewrite size_ok in Z2 by assumption. tauto.
      * (* another cell, or an older run *)
        assert (c = d).
        { destruct H as [-> | (p' & b & P' & Eb & _ & Z1 & Z2 & ->)]; [congruence|].
          injection P' as <-. rewrite nth_error_lset in M.
          destruct (Nat.eqb_spec i p); [congruence|]. congruence. }
        subst c. rewrite H0. split; [tauto|]. intros [[Y|Y] T]; [auto|]. split; [|exact T].
        assert (i < p).
        { destruct (Nat.lt_ge_cases i p); [assumption|]. exfalso. apply (Later i d); [lia|exact D|congruence]. }
        assert (Ip : p < List.length rs) by (rewrite <- (runs_length limit rs); apply nth_error_Some; congruence).
        apply nth_error_Some in Ip. destruct (nth_error rs p) as [y|] eqn:Yp; [|congruence].
        exists p, y. repeat split; auto. destruct (runs_own limit rs p y Yp) as (e' & E1 & E2 & _). congruence.
    + assert (c = d).
      { destruct H as [-> | (p' & b & P' & _)]; [congruence|discriminate]. }
      subst c. rewrite H0. split; [tauto|]. intros [[Y|Y] T]; [auto|]. exfalso.
      apply (last_of_none _ _ P i d D). congruence.
Qed.
