From Coq Require Import List Arith Bool Lia.
From Verif Require Import Base LoadModel LoadSpec.
Import ListNotations.

Lemma steps_app s a b : steps s (a ++ b) = steps (steps s a) b.
Proof. unfold steps. apply fold_left_app. Qed.

Lemma asked_snoc evs e :
  asked (evs ++ [e]) = match e with Load => true | Unload => false | _ => asked evs end.
Proof. unfold asked. rewrite fold_left_app. reflexivity. Qed.

Lemma asked_app evs l :
  asked (evs ++ l) =
  fold_left (fun b e => match e with Load => true | Unload => false | _ => b end) l (asked evs).
Proof. unfold asked. now rewrite fold_left_app. Qed.

Ltac brk :=
  repeat match goal with
  | |- context [if ?b then _ else _] => destruct b eqn:?
  | |- context [match ?x with Plain => _ | Native => _ | Ours _ => _ end] => destruct x eqn:?
  | |- context [match ?x with Some _ => _ | None => _ end] => destruct x eqn:?
  | |- context [match ?x with [] => _ | _ :: _ => _ end] => destruct x eqn:?
  end.

(** ** The class and what was asked for *)

Definition agrees (on : bool) (c : cls) : Prop :=
  match c with Native => False | Plain => on = false | Ours p => p = negb on end.

Lemma agrees_eject on c c' : agrees on c -> eject c = Some c' -> agrees on c' /\ c' = if on then Ours false else Plain.
Proof.
  destruct c as [| |[|]]; cbn; try discriminate; try tauto.
  - intros A [= <-]. destruct on; [discriminate|]. split; reflexivity.
  - intros A [= <-]. destruct on; [|discriminate]. split; reflexivity.
Qed.
Lemma agrees_stuck on c : agrees on c -> eject c = None -> c = if on then Ours false else Plain.
Proof. destruct c as [| |[|]]; cbn; try discriminate. intros -> _. reflexivity. Qed.

Definition kagrees (on : bool) (k : option cls) : Prop :=
  match k with None => True | Some c => agrees on c end.

Lemma step_agrees on s e :
  agrees on (shell s) -> kagrees on (kernel s) ->
  let on' := match e with Load => true | Unload => false | _ => on end in
  agrees on' (shell (step s e)) /\ kagrees on' (kernel (step s e)).
Proof.
  intros A K. destruct e; cbn [step].
  - unfold load, inject. destruct (shell s) as [| |p] eqn:S; [| destruct A |].
    + cbn; destruct (shown s); cbn; destruct (kernel s) as [[| |b]|] eqn:Ks; cbn in *; rewrite ?Ks; cbn; auto; contradiction.
    + cbn. destruct (kernel s) as [[| |b]|] eqn:Ks; cbn in *; rewrite ?Ks; cbn; auto; contradiction.
  - unfold unload. destruct (shell s) as [| |p] eqn:S; [| destruct A |]; cbn in *.
    + rewrite S. split; [reflexivity|]. subst on. exact K.
    + destruct (kernel s) as [[| |b]|] eqn:Ks; cbn; rewrite ?Ks; cbn; auto.
  - unfold begin, create. destruct (ours (shell s) && negb (b_silent q)); cbn; auto.
  - unfold end_. destruct (stack s) as [|f rest]; [auto|].
    set (s1 := set_stack (set_shown s false) rest).
    set (s2 := if f_hist f && negb (f_silent f) then set_ec s1 (S (ec s1)) else s1).
    assert (S2 : shell s2 = shell s /\ kernel s2 = kernel s).
    { unfold s2. destruct (f_hist f && negb (f_silent f)); auto. }
    clearbody s2. destruct S2 as [S2 K2].
    set (s3 := if f_shell f && negb fs then match eject (shell s2) with Some c => set_shell s2 c | None => break s2 end else s2).
    assert (S3 : agrees on (shell s3) /\ kernel s3 = kernel s).
    { unfold s3. destruct (f_shell f && negb fs); [|rewrite S2; auto].
      destruct (eject (shell s2)) eqn:E; cbn; rewrite ?S2; auto.
      split; [|assumption]. rewrite S2 in E. now apply (agrees_eject on) in E. }
    clearbody s3. destruct S3 as [S3 K3]. cbn.
    destruct (f_kernel f && negb fk); [|rewrite K3; auto].
    destruct (kernel s3) as [k|] eqn:Q; [|cbn; rewrite ?Q; cbn; auto].
    rewrite <- K3 in K. cbn in K.
    destruct (eject k) eqn:E; cbn; [|rewrite Q; auto].
    split; [assumption|]. now apply (agrees_eject on) in E.
  - unfold blank. destruct (ours (shell s)); [|auto].
    destruct (eject (shell s)) eqn:E; cbn; auto. split; [|assumption].
    now apply (agrees_eject on) in E.
Qed.

Lemma steps_agrees k evs :
  k = None \/ k = Some Plain ->
  agrees (asked evs) (shell (steps (init Plain k) evs)) /\
  kagrees (asked evs) (kernel (steps (init Plain k) evs)).
Proof.
  intros H. induction evs as [|e evs [IH1 IH2]] using rev_ind.
  - cbn. destruct H as [-> | ->]; cbn; auto.
  - rewrite steps_app, asked_snoc. cbn [steps fold_left]. now apply step_agrees.
Qed.

(** ** Open runs *)

Lemma step_stack s e :
  stack (step s e) =
  match e with
  | Begin q => mkFrame (ours (shell s))
                 (b_via q && match kernel s with Some k => ours k | None => false end)
                 (b_hist q) (b_silent q) :: stack s
  | End _ _ => tl (stack s)
  | _ => stack s
  end.
Proof.
  destruct e; cbn [step].
  - unfold load, inject. destruct (shell s); cbn; destruct (shown s); cbn; destruct (kernel s) as [[| |]|]; reflexivity.
  - unfold unload. destruct (shell s); cbn; try reflexivity; destruct (kernel s) as [[| |]|]; reflexivity.
  - unfold begin, create. destruct (ours (shell s) && negb (b_silent q)); reflexivity.
  - unfold end_. destruct (stack s) as [|f rest] eqn:E; [now rewrite E|].
    destruct (f_hist f && negb (f_silent f)), (f_shell f && negb fs), (f_kernel f && negb fk); cbn;
      destruct (eject (shell s)); cbn; destruct (kernel s) as [k|]; cbn; try reflexivity;
      destruct (eject k); reflexivity.
  - unfold blank. destruct (ours (shell s)); [|reflexivity]. destruct (eject (shell s)); reflexivity.
Qed.

Lemma complete_stack evs : forall pre rest s,
  stack s = pre ++ rest -> complete (length pre) evs -> stack (steps s evs) = rest.
Proof.
  induction evs as [|e evs IH]; intros pre rest s E C.
  - cbn in *. destruct pre; [exact E|discriminate].
  - cbn [steps fold_left]. change (fold_left step evs (step s e)) with (steps (step s e) evs).
    pose proof (step_stack s e) as T.
    destruct e; cbn [complete] in C; rewrite E in T.
    + now apply (IH pre).
    + now apply (IH pre).
    + apply (IH (mkFrame (ours (shell s))
                 (b_via q && match kernel s with Some k => ours k | None => false end)
                 (b_hist q) (b_silent q) :: pre)); assumption.
    + destruct pre as [|f pre]; [destruct C|]. now apply (IH pre).
    + now apply (IH pre).
Qed.

Lemma end_class on s f rest fk :
  agrees on (shell s) -> stack s = f :: rest -> f_shell f = true ->
  shell (end_ s false fk) = if on then Ours false else Plain.
Proof.
  intros A E F. unfold end_. rewrite E, F. cbn [andb negb].
  set (s2 := if f_hist f && negb (f_silent f) then set_ec _ _ else _).
  assert (S2 : shell s2 = shell s).
  { unfold s2. destruct (f_hist f && negb (f_silent f)); auto. }
  clearbody s2. rewrite S2.
  set (s3 := match eject (shell s) with Some c => set_shell s2 c | None => break s2 end).
  assert (S3 : shell s3 = if on then Ours false else Plain).
  { unfold s3. destruct (eject (shell s)) eqn:Q; cbn.
    - now apply (agrees_eject on) in Q.
    - rewrite S2. now apply agrees_stuck. }
  clearbody s3. destruct (f_kernel f && negb fk); [|exact S3].
  destruct (kernel s3); [|exact S3]. destruct (eject c); exact S3.
Qed.

Lemma end_kernel on s f rest fs k :
  agrees on k -> kernel s = Some k -> stack s = f :: rest -> f_kernel f = true ->
  kernel (end_ s fs false) = Some (if on then Ours false else Plain).
Proof.
  intros A K E F. unfold end_. rewrite E, F. cbn [andb negb].
  set (s2 := if f_hist f && negb (f_silent f) then set_ec _ _ else _).
  assert (S2 : kernel s2 = kernel s).
  { unfold s2. destruct (f_hist f && negb (f_silent f)); auto. }
  clearbody s2.
  set (s3 := if f_shell f && negb fs then match eject (shell s2) with Some c => set_shell s2 c | None => break s2 end else s2).
  assert (S3 : kernel s3 = Some k).
  { unfold s3. destruct (f_shell f && negb fs); [|congruence]. destruct (eject (shell s2)); cbn; congruence. }
  clearbody s3. rewrite S3. destruct (eject k) eqn:Q; cbn.
  - apply (agrees_eject on) in Q; [|assumption]. now destruct Q as [_ ->].
  - rewrite S3. f_equal. now apply agrees_stuck.
Qed.

(** ** Numbers of runs with history *)

Lemma step_cells s e :
  cells (step s e) = cells s \/
  exists q, e = Begin q /\ cells (step s e) = cells (create s q).
Proof.
  destruct e; cbn [step].
  - left. unfold load, inject. destruct (shell s); cbn; destruct (shown s); cbn; destruct (kernel s) as [[| |]|]; reflexivity.
  - left. unfold unload. destruct (shell s); cbn; try reflexivity; destruct (kernel s) as [[| |]|]; reflexivity.
  - unfold begin. destruct (ours (shell s) && negb (b_silent q)); [right|left; reflexivity].
    exists q. split; reflexivity.
  - left. unfold end_. destruct (stack s) as [|f rest] eqn:E; [reflexivity|].
    destruct (f_hist f && negb (f_silent f)), (f_shell f && negb fs), (f_kernel f && negb fk); cbn;
      destruct (eject (shell s)); cbn; destruct (kernel s) as [k|]; cbn; try reflexivity;
      destruct (eject k); reflexivity.
  - left. unfold blank. destruct (ours (shell s)); [|reflexivity]. destruct (eject (shell s)); reflexivity.
Qed.

Lemma steps_hist sh k evs c :
  In c (cells (steps (init sh k) evs)) -> c_hist c = true -> c_num c = c_in c.
Proof.
  induction evs as [|e evs IH] using rev_ind; [intros []|].
  rewrite steps_app. cbn [steps fold_left]. change (fold_left step evs (init sh k)) with (steps (init sh k) evs).
  set (s := steps (init sh k) evs) in *. intros I H.
  destruct (step_cells s e) as [E|(q & -> & E)]; rewrite E in I; [now apply IH|].
  unfold create in I. cbn [cells] in I. apply in_app_or in I as [I|[<-|[]]]; [now apply IH|].
  cbn [c_num c_in c_hist] in *. rewrite H. cbn [andb].
  destruct (Nat.eqb_spec (S (ctr s)) (ec s)); cbn; congruence.
Qed.

(** ** Orderly sessions *)

Lemma key_inj i j : key i = key j -> i = j.
Proof. destruct i, j; unfold key; intros; try (exfalso; lia); f_equal; lia. Qed.

(** Lookups find the last cell of the kind. *)
Definition finds (s : st) : Prop :=
  (forall m, at_counter s m = find (fun c => c_num c =? m) (rev (cells s))) /\
  (forall i, from_id s i = find (fun c => key (c_id c) =? key i) (rev (cells s))) /\
  (forall m r, dget (by_ctr s) m = Some r -> r < length (cells s)) /\
  (forall m r, dget (cur s) m = Some r -> r < length (cells s)).

Definition frames (run : option bool) (counts : bool) (l : list frame) : Prop :=
  match run with
  | None => l = [] /\ counts = false
  | Some b => exists k h q, l = [mkFrame b k h q] /\ counts = negb q /\ (q || h = true)
  end.

Record sim (on : bool) (run : option bool) (n : nat) (counts : bool) (id : option nat) (s : st) : Prop := {
  sim_shell : shell s = if on then Ours false else match run with Some true => Ours true | _ => Plain end;
  sim_ec : ec s = n;
  sim_act : active s = id;
  sim_stack : frames run counts (stack s);
  sim_nums : forall c, In c (cells s) -> c_num c < n + (if counts then 1 else 0);
  sim_finds : finds s;
  sim_kernel : forall f, In f (stack s) -> f_kernel f = true -> exists c, kernel s = Some c /\ ours c = true;
  sim_broken : broken s = 0 }.

Lemma finds_same s s' :
  cells s' = cells s -> cur s' = cur s -> by_ctr s' = by_ctr s -> finds s -> finds s'.
Proof.
  intros A B C (F1 & F2 & F3 & F4). unfold finds, at_counter, from_id in *. rewrite A, B, C. auto.
Qed.

Lemma create_finds s q :
  finds s -> b_hist q = true -> (forall c, In c (cells s) -> c_num c < ec s) -> finds (create s q).
Proof.
  intros (F1 & F2 & F3 & F4) H L. unfold create. rewrite H. cbn [andb].
  replace (if negb (S (ctr s) =? ec s) then ec s else S (ctr s)) with (ec s)
    by (destruct (Nat.eqb_spec (S (ctr s)) (ec s)); cbn; congruence).
  set (act := match b_id q with Some i => Some i | None => active s end).
  set (i := match act with Some i => Given i | None => Auto (S (ctr s)) end).
  replace (match dget (cur s) (key i) with
           | Some p => match nth_error (cells s) p with Some c => c_num c <? ec s | None => true end
           | None => true end) with true.
  2:{ destruct (dget (cur s) (key i)) as [p|]; [|reflexivity].
      destruct (nth_error (cells s) p) eqn:E; [|reflexivity].
      symmetry. apply Nat.ltb_lt. apply L. eapply nth_error_In, E. }
  set (c := mkCell i (ec s) (b_text q) (ec s) true).
  unfold finds, at_counter, from_id. cbn [cells cur by_ctr]. rewrite rev_app_distr. cbn [rev app find c_num c_id c].
  refine (conj _ (conj _ (conj _ _))).
  - intros m. rewrite dget_dset, (Nat.eqb_sym (ec s) m). destruct (Nat.eqb_spec m (ec s)) as [E|N].
    + rewrite nth_error_app2, Nat.sub_diag by lia. reflexivity.
    + rewrite <- F1. unfold at_counter. destruct (dget (by_ctr s) m) eqn:D; [|reflexivity].
      apply nth_error_app1. eapply F3, D.
  - intros j. rewrite dget_dset, (Nat.eqb_sym (key i) (key j)). destruct (Nat.eqb_spec (key j) (key i)) as [E|N].
    + rewrite nth_error_app2, Nat.sub_diag by lia. reflexivity.
    + rewrite <- F2. unfold from_id. destruct (dget (cur s) (key j)) eqn:D; [|reflexivity].
      apply nth_error_app1. eapply F4, D.
  - intros m r. rewrite dget_dset, app_length. cbn. destruct (Nat.eqb_spec m (ec s)).
    + intros [= <-]. lia.
    + intros D. apply F3 in D. lia.
  - intros m r. rewrite dget_dset, app_length. cbn. destruct (Nat.eqb_spec m (key i)).
    + intros [= <-]. lia.
    + intros D. apply F4 in D. lia.
Qed.

(** One event of an orderly session. *)
Definition next_on (on : bool) (e : ev) : bool := match e with Load => true | Unload => false | _ => on end.
Definition next_run (on : bool) (run : option bool) (e : ev) : option bool :=
  match e with Begin _ => Some on | End _ _ => None | _ => run end.
Definition next_n (n : nat) (counts : bool) (e : ev) : nat :=
  match e with End _ _ => if counts then S n else n | _ => n end.
Definition next_counts (counts : bool) (e : ev) : bool :=
  match e with Begin q => negb (b_silent q) | End _ _ => false | _ => counts end.
Definition next_id (on : bool) (id : option nat) (e : ev) : option nat :=
  match e with
  | Begin q => if on && negb (b_silent q) then match b_id q with Some i => Some i | None => id end else id
  | _ => id
  end.
Definition next_entries (on : bool) (n : nat) (id : option nat) (e : ev) : list entry :=
  match e with
  | Begin q => if on && negb (b_silent q)
               then [mkEntry (b_text q) n match b_id q with Some i => Some i | None => id end] else []
  | _ => []
  end.
Definition allowed (run : option bool) (e : ev) : Prop :=
  match e with
  | Load => True
  | Unload => run = Some true
  | Blank => run = None
  | Begin q => run = None /\ b_silent q || b_hist q = true
  | End fs _ => run <> None /\ fs = false
  end.

Lemma orderly_cons on run e r :
  orderly on run (e :: r) -> allowed run e /\ orderly (next_on on e) (next_run on run e) r.
Proof. destruct e; cbn; tauto. Qed.

Lemma expected_cons on n counts id e r :
  expected on n counts id (e :: r) =
  next_entries on n id e ++
  expected (next_on on e) (next_n n counts e) (next_counts counts e) (next_id on id e) r.
Proof.
  destruct e; cbn; try reflexivity.
  destruct (b_silent q), on; reflexivity.
Qed.

Lemma load_rest s :
  ec (load s) = ec s /\ active (load s) = active s /\ cells (load s) = cells s /\
  cur (load s) = cur s /\ by_ctr (load s) = by_ctr s /\ broken (load s) = broken s.
Proof.
  unfold load, inject. destruct (shell s); cbn; destruct (shown s); cbn;
    destruct (kernel s) as [[| |]|]; cbn; repeat split.
Qed.

Lemma sim_step on run n counts id s e :
  sim on run n counts id s -> allowed run e ->
  sim (next_on on e) (next_run on run e) (next_n n counts e) (next_counts counts e) (next_id on id e) (step s e) /\
  map seen (cells (step s e)) = map seen (cells s) ++ next_entries on n id e.
Proof.
  intros [Sh Ec Ac St Nu Fi Ke Br] A. pose proof (step_stack s e) as T.
  destruct e; cbn [step next_on next_run next_n next_counts next_id next_entries allowed] in *;
    rewrite ?app_nil_r.
  - (* Load *)
    destruct (load_rest s) as (L1 & L2 & L3 & L4 & L5 & L6).
    split; [|congruence]. split; rewrite ?L1, ?L2, ?L3, ?L6; auto.
    + unfold load, inject. rewrite Sh. destruct on; [|destruct run as [[|]|]]; cbn;
        destruct (shown s); cbn; destruct (kernel s) as [[| |]|]; cbn; try reflexivity.
    + now rewrite T.
    + now apply (finds_same s).
    + rewrite T. intros f I F. destruct (Ke f I F) as (c & K & O).
      unfold load, inject. destruct (shell s); cbn; destruct (shown s); cbn; rewrite K; cbn;
        destruct c; try discriminate; cbn; rewrite ?K; eauto.
  - (* Unload *)
    subst run. assert (E : unload s = set_shell s (Ours true) \/ unload s = set_kernel (set_shell s (Ours true)) (Some (Ours true)) \/ unload s = refuse (set_shell s (Ours true))).
    { unfold unload. rewrite Sh. destruct on; destruct (kernel (set_shell s (Ours true))) as [[| |]|]; auto. }
    destruct E as [E|[E|E]]; rewrite E in *; (split; [|reflexivity]); split; auto.
    cbn. intros f I F. destruct (Ke f I F) as (c & K & O). eauto.
  - (* Begin *)
    destruct A as [-> A]. cbn [frames] in St. destruct St as [St ->].
    cbn [next_run next_on] in *. rewrite Nat.add_0_r in Nu.
    assert (O : ours (shell s) = on) by (rewrite Sh; destruct on; reflexivity).
    unfold begin in *. rewrite O in *.
    destruct (on && negb (b_silent q)) eqn:B.
    + apply andb_true_iff in B as [-> B]. rewrite negb_true_iff in B. rewrite B in *. cbn [orb negb] in *.
      assert (N : (if b_hist q && negb (S (ctr s) =? ec s) then ec s else S (ctr s)) = n).
      { rewrite A. cbn [andb]. destruct (Nat.eqb_spec (S (ctr s)) (ec s)); cbn [negb]; congruence. }
      unfold create. rewrite N.
      split.
      * split; cbn; auto.
        -- now rewrite Ac.
        -- rewrite St. exists (b_via q && match kernel s with Some k => ours k | None => false end), (b_hist q), false.
           auto.
        -- intros c I. apply in_app_or in I as [I|[<-|[]]].
           ++ apply Nu in I. lia.
           ++ cbn [c_num]. lia.
        -- apply (finds_same (create s q)); try (unfold create; rewrite N; reflexivity).
           apply create_finds; auto. now rewrite Ec.
        -- rewrite St. intros f [<-|[]]. cbn. destruct (kernel s) as [c|]; [|now rewrite andb_false_r].
           rewrite andb_true_iff. intros [_ F]. eauto.
      * cbn. rewrite map_app. cbn. f_equal. unfold seen. cbn. f_equal. f_equal.
        -- rewrite Ac. destruct (b_id q); [reflexivity|]. destruct id; reflexivity.
    + split; [|cbn; now rewrite ?app_nil_r].
      split; cbn; auto.
      * rewrite Sh. destruct on; reflexivity.
      * rewrite St. exists (b_via q && match kernel s with Some k => ours k | None => false end), (b_hist q), (b_silent q). auto.
      * intros c I. apply Nu in I. destruct (negb (b_silent q)); lia.
      * rewrite St. intros f [<-|[]]. cbn. destruct (kernel s) as [c|]; [|now rewrite andb_false_r].
        rewrite andb_true_iff. intros [_ F]. eauto.
  - (* End *)
    destruct A as [R ->]. destruct run as [b|]; [|congruence]. cbn [frames] in St.
    destruct St as (k & h & q & St & -> & Q).
    assert (HS : h && negb q = negb q) by (destruct q, h; cbn in *; congruence).
    unfold end_ in *. rewrite St in *. cbn [f_hist f_silent f_shell f_kernel] in *. rewrite HS in *.
    set (s2 := if negb q then set_ec _ _ else _) in *.
    assert (S2 : shell s2 = shell s /\ ec s2 = (if negb q then S n else n) /\ active s2 = active s /\
                 stack s2 = [] /\ cells s2 = cells s /\ cur s2 = cur s /\ by_ctr s2 = by_ctr s /\ broken s2 = 0 /\ kernel s2 = kernel s).
    { unfold s2. destruct q; cbn; rewrite ?Ec; repeat split; auto. }
    clearbody s2. destruct S2 as (V1 & V2 & V3 & V4 & V5 & V6 & V7 & V8 & V9).
    set (s3 := if b && negb false then _ else s2) in *.
    assert (S3 : shell s3 = (if on then Ours false else Plain) /\ ec s3 = (if negb q then S n else n) /\ active s3 = active s /\
                 stack s3 = [] /\ cells s3 = cells s /\ cur s3 = cur s /\ by_ctr s3 = by_ctr s /\ broken s3 = 0 /\ kernel s3 = kernel s).
    { unfold s3. destruct b; cbn [andb negb].
      - rewrite V1, Sh. destruct on; cbn; repeat split; auto.
      - rewrite V1, Sh. destruct on; repeat split; auto. }
    clearbody s3. clear V1 V2 V3 V4 V5 V6 V7 V8 V9. destruct S3 as (V1 & V2 & V3 & V4 & V5 & V6 & V7 & V8 & V9).
    match goal with |- sim _ _ _ _ _ ?x /\ _ => set (s4 := x) in * end.
    assert (S4 : (exists k, s4 = set_kernel s3 k) \/ s4 = s3 \/ s4 = break s3).
    { unfold s4. destruct (k && negb fk); [|auto]. destruct (kernel s3); [|auto]. destruct (eject c); eauto. }
    assert (Bs : broken s4 = 0).
    { unfold s4. destruct k; cbn [andb]; [|exact V8].
      destruct (Ke (mkFrame b true h q)) as (c & K & O); [left; reflexivity|reflexivity|].
      destruct fk; cbn [negb]; [exact V8|]. rewrite V9, K.
      destruct c as [| |[|]]; [discriminate|exact V8|exact V8|exact V8]. }
    clearbody s4.
    assert (G : shell s4 = shell s3 /\ ec s4 = ec s3 /\ active s4 = active s3 /\ stack s4 = stack s3 /\
                cells s4 = cells s3 /\ cur s4 = cur s3 /\ by_ctr s4 = by_ctr s3).
    { destruct S4 as [(k' & ->)|[-> | ->]]; repeat split. }
    destruct G as (G1 & G2 & G3 & G4 & G5 & G6 & G7).
    split; [|congruence]. split; try congruence.
    + cbn. rewrite G4, V4. auto.
    + intros c I. rewrite G5, V5 in I. apply Nu in I. destruct (negb q); lia.
    + apply (finds_same s); congruence.
    + rewrite G4, V4. intros f [].
  - (* Blank *)
    subst run. cbn [frames] in St. destruct St as [St ->].
    assert (E : blank s = s \/ blank s = set_shell s (shell s)).
    { unfold blank. rewrite Sh. destruct on; cbn; auto. }
    destruct E as [-> | ->]; (split; [|reflexivity]); split; cbn; auto.
Qed.

Lemma sim_steps evs : forall on run n counts id s,
  sim on run n counts id s -> orderly on run evs ->
  exists on' run' n' counts' id',
    sim on' run' n' counts' id' (steps s evs) /\
    map seen (cells (steps s evs)) = map seen (cells s) ++ expected on n counts id evs.
Proof.
  induction evs as [|e evs IH]; intros on run n counts id s M O.
  - exists on, run, n, counts, id. cbn. now rewrite app_nil_r.
  - apply orderly_cons in O as [A O]. destruct (sim_step _ _ _ _ _ _ _ M A) as [M' E].
    destruct (IH _ _ _ _ _ _ M' O) as (on' & run' & n' & counts' & id' & M2 & E2).
    exists on', run', n', counts', id'. split; [exact M2|].
    change (steps s (e :: evs)) with (steps (step s e) evs).
    rewrite E2, E, expected_cons, app_assoc. reflexivity.
Qed.

Lemma sim_init k : sim false None 1 false None (init Plain k).
Proof.
  split; try reflexivity; cbn; auto.
  - intros c [].
  - refine (conj _ (conj _ (conj _ _))); cbn; try discriminate; reflexivity.
  - intros f [].
Qed.

Lemma orderly_steps k evs : orderly false None evs ->
  map seen (cells (steps (init Plain k) evs)) = expected false 1 false None evs /\
  finds (steps (init Plain k) evs) /\ broken (steps (init Plain k) evs) = 0.
Proof.
  intros O. destruct (sim_steps evs _ _ _ _ _ _ (sim_init k) O) as (on & run & n & c & id & M & E).
  split; [exact E|]. split; apply M.
Qed.

Lemma find_map {A B} (f : A -> B) p l : find p (map f l) = option_map f (find (fun x => p (f x)) l).
Proof. induction l as [|a l IH]; [reflexivity|]. cbn. destruct (p (f a)); [reflexivity|exact IH]. Qed.

Lemma find_ext {A} (p q : A -> bool) l : (forall x, p x = q x) -> find p l = find q l.
Proof. intros H. induction l as [|a l IH]; [reflexivity|]. cbn. now rewrite H, IH. Qed.

(** ** Ids that are not given *)

Record sync (run : option bool) (n : nat) (counts : bool) (s : st) : Prop := {
  sync_shown : shown s = match run with None => false | Some _ => true end;
  sync_n : 1 <= n;
  sync_ctr : ours (shell s) = true -> S (ctr s) = n + (if counts then 1 else 0);
  sync_ids : forall c, In c (cells s) -> c_id c = Auto (c_num c) }.

Lemma sync_step on run n counts s e :
  sim on run n counts None s -> sync run n counts s -> allowed run e ->
  (e = Load -> run <> None -> counts = true) ->
  match e with Begin q => b_id q = None | _ => True end ->
  sync (next_run on run e) (next_n n counts e) (next_counts counts e) (step s e).
Proof.
  intros [Sh Ec Ac St Nu Fi Ke Br] [Y1 Y2 Y3 Y4] A L B.
  destruct e; cbn [step next_run next_n next_counts allowed] in *.
  - assert (C : counts = match run with Some _ => true | None => false end).
    { destruct run; [apply L; congruence|]. cbn in St. apply St. }
    destruct (load_rest s) as (L1 & L2 & L3 & L4 & L5 & L6).
    split; auto.
    + unfold load, inject. destruct (shell s); cbn; rewrite ?Y1; destruct run; cbn;
        destruct (kernel s) as [[| |]|]; cbn; rewrite ?Y1; reflexivity.
    + intros _. unfold load, inject. destruct (shell s) eqn:Q; cbn; rewrite ?Y1.
      * destruct run; subst counts; cbn; destruct (kernel s) as [[| |]|]; cbn; lia.
      * destruct (kernel s) as [[| |]|]; cbn; auto.
      * destruct (kernel s) as [[| |]|]; cbn; auto.
    + rewrite L3. exact Y4.
  - subst run. unfold unload. rewrite Sh. destruct on; cbn; destruct (kernel s) as [[| |]|]; split; cbn; auto;
      intros _; apply Y3; rewrite Sh; reflexivity.
  - destruct A as [-> A]. cbn in St. destruct St as [St ->]. rewrite Nat.add_0_r in Y3.
    unfold begin. destruct (ours (shell s)) eqn:O; cbn [andb].
    + destruct (b_silent q) eqn:Q; cbn [negb andb orb] in *.
      * split; cbn; auto. intros _. rewrite Y3 by reflexivity. lia.
      * unfold create. rewrite B, Ac, A. cbn [andb].
        rewrite Y3, Ec, Nat.eqb_refl by reflexivity. cbn [negb].
        split; cbn; auto; [intros; lia|].
        intros c I. apply in_app_or in I as [I|[<-|[]]]; auto.
    + split; cbn; auto. rewrite O. discriminate.
  - destruct A as [R ->]. destruct run as [b|]; [|congruence]. cbn in St.
    destruct St as (k & h & q & St & -> & Q).
    assert (HS : h && negb q = negb q) by (destruct q, h; cbn in *; congruence).
    unfold end_. rewrite St. cbn [f_hist f_silent f_shell f_kernel]. rewrite HS.
    set (s2 := if negb q then set_ec _ _ else _).
    assert (S2 : shell s2 = shell s /\ ctr s2 = ctr s /\ cells s2 = cells s /\ shown s2 = false).
    { unfold s2. destruct q; cbn; repeat split. }
    clearbody s2. destruct S2 as (V1 & V2 & V3 & V4).
    set (s3 := if b && negb false then _ else s2).
    assert (S3 : (ours (shell s3) = true -> ours (shell s) = true) /\ ctr s3 = ctr s /\ cells s3 = cells s /\ shown s3 = false).
    { unfold s3. destruct b; cbn [andb negb].
      - rewrite V1, Sh. destruct on; cbn; repeat split; auto.
      - rewrite V1. repeat split; auto. }
    clearbody s3. clear V1 V2 V3 V4. destruct S3 as (V1 & V2 & V3 & V4).
    match goal with |- sync _ _ _ ?x => set (s4 := x) end.
    assert (S4 : shell s4 = shell s3 /\ ctr s4 = ctr s3 /\ cells s4 = cells s3 /\ shown s4 = shown s3).
    { unfold s4. destruct (k && negb fk); [|auto]. destruct (kernel s3); [|auto]. destruct (eject c); repeat split. }
    clearbody s4. destruct S4 as (G1 & G2 & G3 & G4). split.
    + congruence.
    + destruct (negb q); lia.
    + rewrite G1, G2, V2. intros H. apply V1, Y3 in H. destruct (negb q); lia.
    + rewrite G3, V3. exact Y4.
  - subst run. cbn in St. destruct St as [St ->].
    unfold blank. rewrite Sh. destruct on; cbn; split; cbn; auto.
    intros _. apply Y3. rewrite Sh. reflexivity.
Qed.

Lemma next_id_none on e : match e with Begin q => b_id q = None | _ => True end -> next_id on None e = None.
Proof. destruct e; try reflexivity. cbn. intros ->. destruct (on && negb (b_silent q)); reflexivity. Qed.

Lemma sync_steps evs : forall on run n counts s silent,
  sim on run n counts None s -> sync run n counts s -> orderly on run evs -> unnamed evs ->
  (run <> None -> silent = negb counts) -> loads_shown silent evs ->
  forall c, In c (cells (steps s evs)) -> c_id c = Auto (c_num c).
Proof.
  induction evs as [|e evs IH]; intros on run n counts s silent M Y O U R L c I.
  - now apply Y.
  - apply orderly_cons in O as [A O].
    assert (B : match e with Begin q => b_id q = None | _ => True end).
    { destruct e; auto. apply (U q). left. reflexivity. }
    pose proof (next_id_none on e B) as N.
    destruct (sim_step _ _ _ _ _ _ _ M A) as [M' _]. rewrite N in M'.
    assert (Y' : sync (next_run on run e) (next_n n counts e) (next_counts counts e) (step s e)).
    { apply (sync_step on); auto. intros -> Q. cbn in L. destruct L as [L _].
      rewrite (R Q) in L. now destruct counts. }
    refine (IH _ _ _ _ _ (match e with Begin q => b_silent q | End _ _ => false | _ => silent end) M' Y' O _ _ _ c I).
    + intros q J. apply U. now right.
    + destruct e; cbn; auto; intros _; try (now rewrite negb_involutive). 
    + destruct e; cbn in L; tauto.
Qed.

Lemma expected_prompts evs : forall on run n counts id,
  orderly on run evs -> (run = None -> counts = false) ->
  (forall e, In e (expected on n counts id evs) -> n + (if counts then 1 else 0) <= e_prompt e) /\
  NoDup (map e_prompt (expected on n counts id evs)).
Proof.
  induction evs as [|e evs IH]; intros on run n counts id O C; [split; [intros e []|constructor]|].
  apply orderly_cons in O as [A O].
  assert (C' : next_run on run e = None -> next_counts counts e = false).
  { destruct e; cbn; auto; discriminate. }
  destruct (IH _ _ (next_n n counts e) (next_counts counts e) (next_id on id e) O C') as [H1 H2].
  rewrite expected_cons. destruct e; cbn [next_entries next_n next_counts app] in *; auto.
  - destruct A as [-> _]. rewrite (C eq_refl).
    destruct (b_silent q); cbn [negb andb] in *.
    + rewrite andb_false_r in *. cbn [app]. auto.
    + destruct on; cbn [andb app] in *.
      * split.
        -- intros e [<-|J]; [cbn; lia|]. apply H1 in J. lia.
        -- cbn. apply NoDup_cons; [|exact H2]. rewrite in_map_iff. intros (x & E & J).
           apply H1 in J. cbn in *. lia.
      * split; [|exact H2]. intros x J. apply H1 in J. lia.
  - split; [|exact H2]. intros x J. apply H1 in J. destruct counts; lia.
Qed.

Lemma step_kernel s e : kernel (step s e) = None <-> kernel s = None.
Proof.
  destruct e; cbn [step].
  - unfold load, inject. destruct (shell s); cbn; destruct (shown s); cbn;
      destruct (kernel s) as [[| |]|] eqn:K; cbn; rewrite ?K; split; congruence.
  - unfold unload. destruct (shell s); cbn; try tauto; destruct (kernel s) as [[| |]|] eqn:K; cbn; rewrite ?K; split; congruence.
  - unfold begin, create. destruct (ours (shell s) && negb (b_silent q)); reflexivity.
  - unfold end_. destruct (stack s) as [|f rest]; [tauto|].
    destruct (f_hist f && negb (f_silent f)), (f_shell f && negb fs), (f_kernel f && negb fk); cbn;
      destruct (eject (shell s)); cbn; destruct (kernel s) as [k|] eqn:K; cbn; rewrite ?K; try tauto;
      try destruct (eject k); cbn; rewrite ?K; split; congruence.
  - unfold blank. destruct (ours (shell s)); [|reflexivity]. destruct (eject (shell s)); reflexivity.
Qed.

Lemma steps_kernel evs : forall s, kernel (steps s evs) = None <-> kernel s = None.
Proof.
  induction evs as [|e evs IH]; intros s; [reflexivity|].
  change (steps s (e :: evs)) with (steps (step s e) evs). rewrite IH. apply step_kernel.
Qed.

Lemma kernel_there k a b :
  kernel (steps (init Plain k) a) = None -> kernel (steps (init Plain k) b) = None.
Proof. rewrite !steps_kernel. auto. Qed.
