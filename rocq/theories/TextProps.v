(** C84-C86: what a cell is taken to contain, and runs in which something else is executed. *)
Require Import List Bool Arith Lia.
Import ListNotations.
Require Import Verif.Base Verif.TextModel Verif.TextSpec Verif.TextProofs.

(** ** Histories for the examples *)

Definition P0 : parser := fun b =>
  match b with 0 => None | 1 => Some [10; 11] | 2 => Some [20] | 3 => Some [30; 31; 32] | _ => Some [b] end.

(** A run of cell [i] with text [b] that shows [v]. *)
Definition plain (i : nat) (m : option level) (b v : nat) : req :=
  mkReq (Some i) (mkText m b) true true true false (fun _ => true) false 0 (Some v) true
    (fun n => [100 * b + n]) [b].
(** The same, and the checker finds a use out of order. *)
Definition unsafe (i : nat) (b v : nat) : req :=
  mkReq (Some i) (mkText None b) true true true true (fun _ => true) false 0 (Some v) true
    (fun n => [100 * b + n]) [b].
Definition unnamed (b : nat) : req :=
  mkReq None (mkText None b) true true true true (fun _ => true) false 0 (Some 5) true
    (fun n => []) [].

(** ** C84 *)

(** After any history of runs, notifications of contents and checks, the statements that a cell is taken
    to consist of are those of the text that it contains, unless something else was executed for it when
    it was last run. *)
Theorem C84_partial : forall parse evs i t,
  ~ In i (spoiled parse init [] evs) -> contents (steps parse evs) i = Some t ->
  analysed parse (steps parse evs) i = parsed parse (t_body t).
Proof.
  intros parse evs i t NB C.
  destruct (steps_good parse evs init [] (W_init parse) (init_good parse)) as [_ G].
  eapply analysed_sound; eauto.
Qed.
Print Assumptions C84_partial.

(** Runs, an edit, an edit that does not parse, a reused run, a run that is held back in another cell. *)
Definition busy : list ev :=
  [Run (plain 0 (Some Normal) 1 7); Notify true [(0, mkText None 2); (1, mkText None 3)];
   Notify false [(0, mkText None 0)]; Run (unsafe 1 3 8); Check (Given 0);
   Notify true [(0, mkText (Some Normal) 1)]; Run (plain 0 (Some Normal) 1 9)].
Example C84_ex :
  map (fun p => p_code p) (logs P0 init busy) =
    [Body; HeldBack [SOut None]; Reused 1 [SOut (Some 1)]] /\
  spoiled P0 init [] busy = [Given 1] /\
  contents (steps P0 busy) (Given 0) = Some (mkText (Some Normal) 1) /\
  analysed P0 (steps P0 busy) (Given 0) = Some [SText 10; SText 11] /\
  contents (steps P0 (firstn 3 busy)) (Given 0) = Some (mkText None 2) /\
  analysed P0 (steps P0 (firstn 3 busy)) (Given 0) = Some [SText 20].
Proof. vm_compute. auto 10. Qed.

(** After a run that was held back the cell is taken to be the placeholder that was executed instead.
    Telling the contents again and checking again do not change that. *)
Theorem C84_held_refuted :
  let s := steps P0 [Run (unsafe 0 1 7); Notify true [(0, mkText None 1)]; Check (Given 0)] in
  contents s (Given 0) = Some (mkText None 1) /\
  parsed P0 1 = Some [SText 10; SText 11] /\ analysed P0 s (Given 0) = Some [SPass].
Proof. vm_compute. auto. Qed.
Print Assumptions C84_held_refuted.

(** After a run that reused the last but one the cell is taken to be what it contained in the last one. *)
Theorem C84_reuse_refuted :
  let s := steps P0 [Run (plain 0 (Some Normal) 1 7); Run (plain 0 None 2 8);
                     Run (plain 0 (Some Normal) 1 9)] in
  contents s (Given 0) = Some (mkText (Some Normal) 1) /\
  parsed P0 1 = Some [SText 10; SText 11] /\ analysed P0 s (Given 0) = Some [SText 20].
Proof. vm_compute. auto. Qed.
Print Assumptions C84_reuse_refuted.

(** ** C85 *)

(** A run that reuses run [k] takes over the dependencies of the cell, and of each of its statements, if
    both the cell and that of run [k] contain the same text as they did. *)
Theorem C85_partial : forall parse evs q k a t tk,
  let s := steps parse evs in
  let s' := step parse s (Run q) in
  executed parse s q = Reused k a ->
  ~ In (id_of s q) (spoiled parse init [] evs) ->
  contents s (id_of s q) = Some t -> t_body t = t_body (q_text q) ->
  contents_of_run s k = Some tk -> t_body tk = t_body (q_text q) ->
  (forall ps, dget (sts s) k = Some ps -> dget (sts s') (counter s') = Some ps) /\
  (forall ps, dget (cps s) k = Some ps -> dget (cps s') (counter s') = Some ps).
Proof.
  intros parse evs q k a t tk s s' X NB CT BT CK BK.
  destruct (steps_good parse evs init [] (W_init parse) (init_good parse)) as [HW G].
  assert (GR := steps_recorded parse evs init (W_init parse) (init_recorded parse)).
  unfold s' in *. simpl. unfold executed in X. destruct (run parse s q) as [s1 p] eqn:E. simpl in *.
  eapply reused_run; eauto.
Qed.
Print Assumptions C85_partial.

Example C85_ex :
  let evs := firstn 6 busy in
  let s := steps P0 evs in
  let q := plain 0 (Some Normal) 1 9 in
  executed P0 s q = Reused 1 [SOut (Some 1)] /\ spoiled P0 init [] evs = [Given 1] /\
  id_of s q = Given 0 /\ contents s (Given 0) = Some (mkText (Some Normal) 1) /\
  contents_of_run s 1 = Some (mkText (Some Normal) 1) /\
  dget (sts s) 1 = Some [[100]; [101]] /\
  dget (sts (step P0 s (Run q))) 3 = Some [[100]; [101]] /\ dget (cps (step P0 s (Run q))) 3 = Some [1].
Proof. vm_compute. auto 10. Qed.

(** If the cell contained a shorter text in between, the dependencies of its last statements are lost;
    if it contained a longer one, those of all are. *)
Theorem C85_refuted :
  let s b := steps P0 [Run (plain 0 (Some Normal) 1 7); Run (plain 0 None b 8);
                       Run (plain 0 (Some Normal) 1 9)] in
  map p_code (logs P0 init [Run (plain 0 (Some Normal) 1 7); Run (plain 0 None 2 8);
                            Run (plain 0 (Some Normal) 1 9)]) = [Body; Body; Reused 1 [SOut (Some 1)]] /\
  map p_code (logs P0 init [Run (plain 0 (Some Normal) 1 7); Run (plain 0 None 3 8);
                            Run (plain 0 (Some Normal) 1 9)]) = [Body; Body; Reused 1 [SOut (Some 1)]] /\
  dget (sts (s 2)) 1 = Some [[100]; [101]] /\ dget (sts (s 2)) 3 = Some [[100]; []] /\
  dget (sts (s 3)) 1 = Some [[100]; [101]] /\ dget (sts (s 3)) 3 = Some [[]; []].
Proof. vm_compute. auto 10. Qed.
Print Assumptions C85_refuted.

(** Runs are shared by all cells. The same happens if the cell that the run is taken from has been edited
    since. *)
Theorem C85_edited_refuted :
  let evs := [Run (plain 1 (Some Normal) 1 7); Run (plain 0 None 1 8); Notify true [(1, mkText None 2)];
              Run (plain 0 (Some Normal) 1 9)] in
  map p_code (logs P0 init evs) = [Body; Body; Reused 1 [SOut (Some 1)]] /\
  dget (sts (steps P0 evs)) 1 = Some [[100]; [101]] /\ dget (sts (steps P0 evs)) 3 = Some [[100]; []].
Proof. vm_compute. auto 10. Qed.
Print Assumptions C85_edited_refuted.

(** ** C86 *)

(** A run is held back only if that is asked for and the checker finds a use out of order, and not if it
    repeats the last run. *)
Theorem C86_cause : forall parse evs q a,
  executed parse (steps parse evs) q = HeldBack a ->
  q_enabled q = true /\ q_warn q = true /\ q_unsafe q = true.
Proof.
  intros parse evs q a X.
  destruct (held_cause parse (steps parse evs) q a (steps_W _ _ _ (W_init parse)) X) as (A & B & C & _).
  auto.
Qed.
Print Assumptions C86_cause.

(** A cell that is run twice in succession, with the same text and nothing run in between, is not held
    back the second time. *)
Theorem C86_again : forall parse evs q between q' n,
  Forall (fun e => is_run e = false) between ->
  q_id q = Some n -> q_id q' = Some n -> t_body (q_text q) = t_body (q_text q') ->
  forall a, executed parse (steps parse (evs ++ Run q :: between)) q' <> HeldBack a.
Proof.
  intros parse evs q between q' n F Q Q' T a X.
  assert (HW := steps_W parse (evs ++ Run q :: between) init (W_init parse)).
  destruct (held_cause _ _ _ _ HW X) as (_ & _ & _ & L). apply L. clear L X HW.
  assert (HW := steps_W parse evs init (W_init parse)).
  rewrite fold_left_app. simpl.
  destruct (run parse (fold_left (step parse) evs init) q) as [s1 p] eqn:E. simpl.
  assert (R := run_ok _ _ _ _ _ (w_refs _ _ HW) E).
  assert (LB : forall l s, Forall (fun e => is_run e = false) l ->
             lastrun (fold_left (step parse) l s) = lastrun s).
  { clear. induction l as [|e l IH]; intros s F; simpl; auto. inversion F; subst.
    rewrite IH by auto. now apply lastrun_step. }
  rewrite LB by auto. rewrite (r_last _ _ _ _ _ R). unfold id_of. rewrite Q, Q', T. reflexivity.
Qed.
Print Assumptions C86_again.

Example C86_again_ex :
  map p_code (logs P0 init [Run (unsafe 0 1 7); Notify true [(0, mkText None 1)]; Run (unsafe 0 1 8);
                            Run (unsafe 0 1 9); Run (unsafe 0 2 9)]) =
  [HeldBack [SPass]; Body; Body; HeldBack [SOut (Some 3)]].
Proof. vm_compute. auto. Qed.

(** Without ids from the frontend, a run never counts as a repetition, and a cell can be held back
    forever. *)
Theorem C86_unnamed_refuted : forall n, Forall held (logs P0 init (repeat (Run (unnamed 1)) n)).
Proof.
  assert (G : forall n s, W P0 s -> (forall m b, lastrun s = Some (Auto m, b) -> m <= counter s) ->
            Forall held (logs P0 s (repeat (Run (unnamed 1)) n))).
  { induction n as [|n IH]; intros s HW L; [apply Forall_nil|].
    destruct (auto_held P0 s (unnamed 1) [SText 10; SText 11]) as (a & H); auto; try reflexivity.
    cbn [repeat logs]. apply Forall_cons.
    - exists a. exact H.
    - cbn [step]. destruct (run P0 s (unnamed 1)) as [s' p] eqn:E. simpl fst. apply IH.
      + eapply run_W; eauto.
      + apply run_ok in E; [|apply HW]. rewrite (r_last _ _ _ _ _ E), (r_ctr _ _ _ _ _ E).
        intros m b X. simpl in X. injection X as <- _. lia. }
  intros n. apply G; [apply W_init|discriminate].
Qed.
Print Assumptions C86_unnamed_refuted.

(** A run that is held back shows the result that the cell had when its text was last executed, however
    often it has been held back since, if no runs are reused. *)
Theorem C86_partial : forall parse evs pre e post,
  Forall (fun p => ~ reused p) (logs parse init evs) ->
  logs parse init evs = pre ++ e :: post -> held e ->
  p_shown e = last_result pre (p_id e) None.
Proof.
  intros parse evs pre e post F E H.
  exact (held_shown parse evs init [] (W_init parse) J_init F pre e post E H).
Qed.
Print Assumptions C86_partial.

Example C86_ex :
  map (fun p => (p_id p, p_code p, p_shown p))
    (logs P0 init [Run (plain 0 None 1 7); Run (plain 1 None 2 8); Run (unsafe 0 2 9);
                   Run (plain 1 None 2 8); Run (unsafe 0 1 9)]) =
  [(Given 0, Body, Some 7); (Given 1, Body, Some 8); (Given 0, HeldBack [SOut (Some 1)], Some 7);
   (Given 1, Body, Some 8); (Given 0, HeldBack [SOut (Some 3)], Some 7)].
Proof. vm_compute. auto. Qed.

(** A quietly reused run in between loses the result. *)
Theorem C86_quiet_refuted :
  let log := logs P0 init [Run (plain 0 (Some Quiet) 1 7); Run (plain 0 (Some Quiet) 1 7);
                           Run (plain 1 None 2 8); Run (unsafe 0 1 9)] in
  map p_code log = [Body; Reused 1 [SPass]; Body; HeldBack [SOut (Some 2)]] /\
  map p_shown log = [Some 7; None; Some 8; None] /\ last_result log (Given 0) None = Some 7.
Proof. vm_compute. auto. Qed.
Print Assumptions C86_quiet_refuted.
