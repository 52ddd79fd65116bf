(** Properties C87-C90. *)
From Coq Require Import List Arith Bool Lia.
From Verif Require Import Base LoadModel LoadSpec LoadProofs.
Import ListNotations.

(** ** C87: loading and unloading *)

(** In every history - with runs inside of runs and runs that raise - the shell is ipyflow's with no
    replacement pending exactly if the last command was to load; otherwise it is the plain one or is to
    be replaced by it. The same for the kernel, if there is one. *)
Theorem C87_asked : forall k evs, k = None \/ k = Some Plain ->
  let s := steps (init Plain k) evs in
  (shell s = Ours false <-> asked evs = true) /\
  (asked evs = false -> shell s = Plain \/ shell s = Ours true) /\
  (forall c, kernel s = Some c ->
     (c = Ours false <-> asked evs = true) /\ (asked evs = false -> c = Plain \/ c = Ours true)).
Proof.
  intros k evs H s. destruct (steps_agrees k evs H) as [A K]. fold s in A, K.
  assert (G : forall c, agrees (asked evs) c ->
            (c = Ours false <-> asked evs = true) /\ (asked evs = false -> c = Plain \/ c = Ours true)).
  { intros c. destruct c as [| |[|]]; cbn; [intros -> | intros [] | | ].
    - split; [|auto]. split; discriminate.
    - destruct (asked evs); [discriminate|]. intros _. split; [|auto]. split; discriminate.
    - destruct (asked evs); [|discriminate]. intros _. split; [|discriminate]. tauto. }
  destruct (G _ A) as [G1 G2]. split; [exact G1|]. split; [exact G2|].
  intros c E. rewrite E in K. apply G, K.
Qed.
Print Assumptions C87_asked.

(** When a run that began in ipyflow's shell ends and does not raise, whatever was run inside of it, the
    shell has the class that was asked for. Likewise the kernel, if the run came through it. *)
Theorem C87_end : forall k evs q body fs fk, k = None \/ k = Some Plain ->
  complete 0 body ->
  let s := steps (init Plain k) evs in
  let evs' := evs ++ Begin q :: body ++ [End fs fk] in
  (ours (shell s) = true -> fs = false -> shell (steps (init Plain k) evs') = wanted evs') /\
  (forall c, kernel s = Some c -> ours c = true -> b_via q = true -> fk = false ->
     kernel (steps (init Plain k) evs') = Some (wanted evs')).
Proof.
  intros k evs q body fs fk H B s evs'.
  set (f := mkFrame (ours (shell s)) (b_via q && match kernel s with Some k => ours k | None => false end)
              (b_hist q) (b_silent q)).
  set (t := steps (step s (Begin q)) body).
  assert (E : steps (init Plain k) evs' = end_ t fs fk).
  { unfold evs', t, s. rewrite steps_app. cbn [steps fold_left].
    rewrite fold_left_app. reflexivity. }
  assert (St : stack t = f :: stack s).
  { unfold t. apply (complete_stack body []); [|exact B]. rewrite step_stack. reflexivity. }
  set (mid := evs ++ Begin q :: body).
  assert (M : t = steps (init Plain k) mid).
  { unfold mid. rewrite steps_app. reflexivity. }
  assert (W : wanted evs' = if asked mid then Ours false else Plain).
  { unfold wanted, evs', mid.
    change (evs ++ Begin q :: body ++ [End fs fk]) with (evs ++ (Begin q :: body) ++ [End fs fk]).
    now rewrite app_assoc, asked_snoc. }
  destruct (steps_agrees k mid H) as [A K]. rewrite <- M in A, K. rewrite E, W. split.
  - intros O ->. apply (end_class _ t f (stack s)); auto.
  - intros c Kc O V ->. destruct (kernel t) as [kt|] eqn:Kt.
    + apply (end_kernel _ t f (stack s) fs kt); auto. unfold f. cbn. rewrite Kc, V. exact O.
    + exfalso. rewrite M in Kt. unfold s in Kc.
      apply (kernel_there k mid evs) in Kt. congruence.
Qed.
Print Assumptions C87_end.

(** After any history, one run that does nothing about it and does not raise is enough. *)
Theorem C87_settled : forall k evs q, k = None \/ k = Some Plain ->
  let s := steps (init Plain k) (evs ++ [Begin q; End false false]) in
  shell s = wanted evs /\ (forall c, kernel s = Some c -> b_via q = true -> c = wanted evs).
Proof.
  intros k evs q H s. set (s0 := steps (init Plain k) evs).
  assert (W : wanted (evs ++ Begin q :: [] ++ [End false false]) = wanted evs).
  { unfold wanted. rewrite asked_app. reflexivity. }
  destruct (C87_end k evs q [] false false H eq_refl) as [E1 E2]. fold s0 in E1, E2.
  rewrite W in E1, E2. change (evs ++ Begin q :: [] ++ [End false false]) with (evs ++ [Begin q; End false false]) in E1, E2.
  fold s in E1, E2.
  destruct (C87_asked k evs H) as (A1 & A2 & A3). fold s0 in A1, A2, A3.
  destruct (C87_asked k (evs ++ [Begin q; End false false]) H) as (B1 & B2 & B3). fold s in B1, B2, B3.
  replace (asked (evs ++ [Begin q; End false false])) with (asked evs) in * by (rewrite asked_app; reflexivity).
  assert (S : s = step (step s0 (Begin q)) (End false false)) by (unfold s; rewrite steps_app; reflexivity).
  split.
  - destruct (ours (shell s0)) eqn:O; [now apply E1|].
    unfold wanted. destruct (asked evs); [now apply B1|].
    rewrite S. cbn [step]. unfold end_, begin. rewrite O. cbn.
    destruct (b_hist q && negb (b_silent q)); cbn;
      destruct (b_via q && match kernel s0 with Some k0 => ours k0 | None => false end); cbn;
      destruct (kernel s0) as [k0|]; cbn; try destruct (eject k0); cbn; destruct (shell s0); auto; discriminate.
  - intros c Kc V. destruct (kernel s0) as [k0|] eqn:K0.
    + destruct (ours k0) eqn:O0; [specialize (E2 _ eq_refl O0 V eq_refl); congruence|].
      destruct k0; try discriminate. destruct (A3 _ eq_refl) as [A4 _].
      assert (Z : asked evs = false) by (destruct (asked evs); [exfalso; assert (Plain = Ours false) by (now apply A4); discriminate|reflexivity]).
      unfold wanted. rewrite Z. rewrite S in Kc. cbn [step] in Kc. unfold end_, begin in Kc. rewrite K0, V in Kc. cbn in Kc.
      destruct (ours (shell s0)); cbn in Kc; destruct (b_silent q); cbn in Kc;
        destruct (b_hist q); cbn in Kc; try destruct (eject (shell s0)); cbn in Kc; congruence.
    + exfalso. rewrite S in Kc. cbn [step] in Kc. unfold end_, begin in Kc. rewrite K0, andb_false_r in Kc. cbn in Kc.
      destruct (ours (shell s0)); cbn in Kc; destruct (b_silent q); cbn in Kc;
        destruct (b_hist q); cbn in Kc; try destruct (eject (shell s0)); cbn in Kc; congruence.
Qed.
Print Assumptions C87_settled.

(** In an orderly session exactly those runs are tracked, in this order, that are not silent and begin when
    the extension is loaded; and no run fails because of a switch. *)
Theorem C87_partial : forall k evs, orderly false None evs ->
  let s := steps (init Plain k) evs in
  map c_text (cells s) = map e_text (expected false 1 false None evs) /\ broken s = 0.
Proof.
  intros k evs O s. destruct (orderly_steps k evs O) as (E & _ & B). split; [|exact B].
  rewrite <- E, map_map. reflexivity.
Qed.
Print Assumptions C87_partial.

(** A cell of a notebook, and one of a terminal. *)
Definition nb (i t : nat) := Begin (mkReq true false true (Some i) t).
Definition tm (t : nat) := Begin (mkReq false false true None t).
Definition done := End false false.

(** Text 1 is run before the extension is loaded, 2 loads it, 3 is tracked, 4 unloads it and loads it
    again, 5 unloads it, 6 is not tracked, 7 loads it, 8 and the second run of 3 are tracked. *)
Definition session : list ev :=
  [nb 1 1; done; nb 2 2; Load; done; nb 3 3; done; nb 4 4; Unload; Load; done; nb 5 5; Unload; done;
   nb 6 6; done; Blank; nb 7 7; Load; done; nb 8 8; done; nb 3 9; done].

Example C87_ex :
  orderly false None session /\
  map c_text (cells (steps (init Plain (Some Plain)) session)) = [3; 4; 5; 8; 9] /\
  shell (steps (init Plain (Some Plain)) session) = Ours false /\
  kernel (steps (init Plain (Some Plain)) session) = Some (Ours false) /\
  shell (steps (init Plain (Some Plain)) (firstn 14 session)) = Plain /\
  kernel (steps (init Plain (Some Plain)) (firstn 14 session)) = Some Plain.
Proof. split; [cbn; intuition congruence|]. vm_compute. repeat split. Qed.

(** One cell loads the extension and unloads it again: the next one is tracked all the same. *)
Theorem C87_refuted : exists evs,
  let s := steps (init Plain (Some Plain)) evs in
  stack s = [] /\ asked evs = false /\ shell s = Ours true /\
  map c_text (cells (step s (nb 2 2))) = [2].
Proof. exists [nb 1 1; Load; Unload; done]. vm_compute. repeat split. Qed.
Print Assumptions C87_refuted.

(** A cell unloads the extension and then runs another text with [run_cell]: the cell itself ends with an
    AttributeError. *)
Theorem C87_nested_refuted : exists evs,
  let s := steps (init Plain None) evs in
  complete 0 evs /\ shell s = Plain /\ broken s = 1 /\ refused s = 0.
Proof.
  exists [tm 1; Load; done; tm 2; Unload; Begin (mkReq false false false None 3); done; done].
  vm_compute. repeat split.
Qed.
Print Assumptions C87_nested_refuted.

(** An ipyflow kernel that was started as such cannot be unloaded, whatever happens. *)
Theorem C87_native : forall k evs, k = None \/ k = Some Native ->
  let s := steps (init Native k) evs in
  shell s = Native /\ kernel s = k /\
  refused s = length (filter (fun e => match e with Unload => true | _ => false end) evs).
Proof.
  intros k evs H. cbn zeta. induction evs as [|e evs (I1 & I2 & I3)] using rev_ind; [auto|].
  rewrite steps_app, filter_app, app_length. cbn [steps fold_left].
  change (fold_left step evs (init Native k)) with (steps (init Native k) evs).
  set (s := steps (init Native k) evs) in *. clearbody s.
  destruct e; cbn [step].
  - unfold load. rewrite I1, I2. destruct H as [-> | ->]; cbn; repeat split; try assumption; lia.
  - unfold unload. rewrite I1. cbn. repeat split; try assumption; lia.
  - unfold begin, create. destruct (ours (shell s) && negb (b_silent q)); cbn; repeat split; try assumption; lia.
  - unfold end_. destruct (stack s) as [|f rest]; [cbn; repeat split; try assumption; lia|].
    destruct (f_hist f && negb (f_silent f)), (f_shell f && negb fs), (f_kernel f && negb fk);
      destruct H as [-> | ->]; repeat (cbn; rewrite ?I1, ?I2); repeat split; lia.
  - unfold blank. rewrite I1. cbn. repeat split; try assumption; lia.
Qed.
Print Assumptions C87_native.

Example C87_native_ex :
  refused (steps (init Native (Some Native)) [nb 1 1; Unload; done; nb 2 2; Load; Unload; done]) = 2 /\
  length (cells (steps (init Native (Some Native)) [nb 1 1; Unload; done; nb 2 2; Load; Unload; done])) = 2.
Proof. vm_compute. repeat split. Qed.

(** ** C88: the number of a cell is that of its prompt *)

(** In every history, a run that keeps its history has the number that IPython shows for it. *)
Theorem C88_number : forall sh k evs c,
  In c (cells (steps (init sh k) evs)) -> c_hist c = true -> c_num c = c_in c.
Proof. intros sh k evs c. apply steps_hist. Qed.
Print Assumptions C88_number.

(** In an orderly session [cells(n)] is the run that was shown as In[n], if it was to be tracked, and
    otherwise there is none. *)
Theorem C88_partial : forall k evs n, orderly false None evs ->
  option_map seen (at_counter (steps (init Plain k) evs) n) =
  find (fun e => e_prompt e =? n) (expected false 1 false None evs).
Proof.
  intros k evs n O. destruct (orderly_steps k evs O) as (E & (F & _) & _).
  rewrite F, <- E.
  destruct (expected_prompts evs false None 1 false None O (fun _ => eq_refl)) as [_ N]. rewrite <- E, map_map in N.
  rewrite find_map. f_equal. cbn [seen e_prompt]. cbn in N. clear - N.
  set (l := cells (steps (init Plain k) evs)) in *. clearbody l.
  induction l as [|a l IH]; [reflexivity|]. cbn [map] in N. apply NoDup_cons_iff in N as [N1 N2].
  cbn [rev find]. rewrite <- (IH N2). clear IH.
  assert (G : forall m, find (fun c => c_num c =? n) (m ++ [a]) =
              match find (fun c => c_num c =? n) m with Some c => Some c | None => if c_num a =? n then Some a else None end).
  { induction m as [|b m IHm]; [reflexivity|]. cbn. destruct (c_num b =? n); [reflexivity|exact IHm]. }
  rewrite G. destruct (find (fun c => c_num c =? n) (rev l)) as [c|] eqn:Q; [|reflexivity].
  destruct (Nat.eqb_spec (c_num a) n) as [A|A]; [|reflexivity].
  exfalso. apply find_some in Q as [Q1 Q2]. apply Nat.eqb_eq in Q2. apply N1. rewrite A, <- Q2.
  apply in_map. now apply in_rev.
Qed.
Print Assumptions C88_partial.

Example C88_ex :
  orderly false None session /\
  map (fun n => option_map c_text (at_counter (steps (init Plain None) session) n)) (seq 0 11) =
  [None; None; None; Some 3; Some 4; Some 5; None; None; Some 8; Some 9; None].
Proof. split; [cbn; intuition congruence|]. vm_compute. reflexivity. Qed.

(** A run inside of In[2] that keeps no history has the number 3, and so has In[3]: the symbols of both
    have the same time, and the first cannot be found any more. *)
Theorem C88_nested_refuted : exists evs,
  let s := steps (init Plain None) evs in
  complete 0 evs /\ map c_num (cells s) = [2; 3; 3] /\ map c_text (cells s) = [2; 5; 3] /\
  option_map c_text (at_counter s 3) = Some 3.
Proof.
  exists [tm 1; Load; done; tm 2; Begin (mkReq false false false None 5); done; done; tm 3; done].
  vm_compute. repeat split.
Qed.
Print Assumptions C88_nested_refuted.

(** ** C89: the current cell of an id is its last run *)

Theorem C89_partial : forall k evs i, orderly false None evs ->
  option_map seen (from_id (steps (init Plain k) evs) (Given i)) =
  find (fun e => match e_id e with Some j => j =? i | None => false end)
       (rev (expected false 1 false None evs)).
Proof.
  intros k evs i O. destruct (orderly_steps k evs O) as (E & (_ & F & _) & _).
  rewrite F, <- E, <- map_rev, find_map. f_equal. apply find_ext.
  intros c. unfold seen. cbn [e_id]. destruct (c_id c) as [j|j]; unfold key.
  - destruct (Nat.eqb_spec j i), (Nat.eqb_spec (2 * j) (2 * i)); try reflexivity; lia.
  - apply Nat.eqb_neq. lia.
Qed.
Print Assumptions C89_partial.

Example C89_ex :
  orderly false None session /\
  map (fun i => option_map c_text (from_id (steps (init Plain (Some Plain)) session) (Given i))) (seq 0 10) =
  [None; None; None; Some 9; Some 4; Some 5; None; None; Some 8; None].
Proof. split; [cbn; intuition congruence|]. vm_compute. reflexivity. Qed.

(** A text that is run inside of cell 2 is taken to be a new version of cell 2. *)
Theorem C89_refuted : exists evs,
  let s := steps (init Plain (Some Plain)) evs in
  complete 0 evs /\ map c_text (cells s) = [7; 5] /\
  option_map c_text (from_id s (Given 2)) = Some 5.
Proof.
  exists [nb 1 1; Load; done; nb 2 7; Begin (mkReq false false false None 5); done; done].
  vm_compute. repeat split.
Qed.
Print Assumptions C89_refuted.

(** ** C90: cells without ids are different cells *)

(** If ids are never given, and the extension is not loaded by a silent run, then in an orderly session
    every run is a cell of its own, whose id is the number of its prompt. *)
Theorem C90_partial : forall k evs, orderly false None evs -> unnamed evs -> loads_shown false evs ->
  let s := steps (init Plain k) evs in
  map c_id (cells s) = map (fun e => Auto (e_prompt e)) (expected false 1 false None evs) /\
  NoDup (map c_id (cells s)).
Proof.
  intros k evs O U L s. destruct (orderly_steps k evs O) as (E & _ & _). fold s in E.
  assert (I : forall c, In c (cells s) -> c_id c = Auto (c_num c)).
  { refine (sync_steps evs false None 1 false (init Plain k) false (sim_init k) _ O U _ L).
    - split; cbn; auto; intros c [].
    - congruence. }
  assert (M : map c_id (cells s) = map (fun e => Auto (e_prompt e)) (expected false 1 false None evs)).
  { rewrite <- E, map_map. cbn. apply map_ext_in. exact I. }
  split; [exact M|]. rewrite M.
  destruct (expected_prompts evs false None 1 false None O (fun _ => eq_refl)) as [_ N].
  rewrite <- (map_map e_prompt Auto). apply FinFun.Injective_map_NoDup; [|exact N].
  intros a b [= ->]. reflexivity.
Qed.
Print Assumptions C90_partial.

Definition terminal : list ev := [Load; tm 1; done; tm 2; Unload; done; tm 3; done; tm 4; Load; done; tm 2; done].
Example C90_ex :
  orderly false None terminal /\ unnamed terminal /\ loads_shown false terminal /\
  map c_id (cells (steps (init Plain None) terminal)) = [Auto 1; Auto 2; Auto 5].
Proof.
  split; [cbn; intuition congruence|]. split; [|split; [cbn; tauto|vm_compute; reflexivity]].
  intros q H. cbn in H. unfold tm, done in H.
  decompose [or] H; try discriminate; try contradiction;
    match goal with E : Begin _ = Begin _ |- _ => injection E as <-; reflexivity end.
Qed.

(** The extension is loaded by a line of the configuration, which is run without history: the first two
    cells of the session are taken to be the same cell. *)
Theorem C90_refuted : exists evs,
  let s := steps (init Plain None) evs in
  complete 0 evs /\ unnamed evs /\
  map c_text (cells s) = [1; 2] /\ map c_num (cells s) = [1; 2] /\ map c_id (cells s) = [Auto 2; Auto 2].
Proof.
  exists [Begin (mkReq false false false None 9); Load; done; tm 1; done; tm 2; done].
  split; [vm_compute; reflexivity|]. split; [|vm_compute; repeat split].
  intros q H. cbn in H. unfold tm, done in H.
  decompose [or] H; try discriminate; try contradiction;
    match goal with E : Begin _ = Begin _ |- _ => injection E as <-; reflexivity end.
Qed.
Print Assumptions C90_refuted.
