(** C41: what a cell prints and displays is shown and recorded. *)
Require Import List Arith Bool Lia.
Import ListNotations.
Require Import Verif.Base Verif.Loops Verif.OutModel Verif.OutSpec Verif.OutProofs.

(** The state when ipyflow is loaded. *)
Definition fresh : st :=
  mkSt (fun n : bool => if n then Real 1 else Real 2) (fun n : bool => if n then Real 1 else Real 2) (fun _ => None) Shows Shows false false None [] [] [].
Example fresh_at_rest : at_rest 1 2 fresh.
Proof. repeat split. left. split; reflexivity. Qed.

(** Output of a cell: all of it is shown in order; what the main thread wrote to each stream is recorded in order, and
    what was displayed since the display was last cleared; leaving the capture (once or more) brings back the original
    streams and publisher; records made earlier are not changed.
    Missing from the full statement: output of other threads is not recorded (C41_thread_refuted), entering a capture
    within another (C41_nested_refuted), streams that the user replaced (C41_replaced_refuted, C41_endless_refuted). *)
Theorem C41_cell_partial : forall fuel o e body extra s,
  1 < fuel -> Forall output body -> at_rest o e s ->
  exists s', run fuel (cell body extra) s = Ok s' /\ at_rest o e s' /\
    shown s' = shown s ++ shows o e body /\
    recorded s' = recorded s ++ [mkCap (written true body) (written false body) (displayed body [])].
Proof.
  intros fuel o e body extra s F B A. destruct (rest_cell fuel o e body extra s F B A) as (s' & E & A' & H & R & _).
  exists s'. auto.
Qed.
Print Assumptions C41_cell_partial.
Definition talk : list op :=
  [Write true true 10; Display 20; Write true false 30; Write false true 40; Clear; Display 50; Write true true 60; After 7].
Example C41_cell_case : Forall output talk /\ at_rest 1 2 fresh /\
  shows 1 2 talk = [OnStream 1 10; OnDisplay 20; OnStream 2 30; OnStream 1 40; Cleared; OnDisplay 50; OnStream 1 60] /\
  record_of talk = mkCap [10; 60] [30] [50].
Proof. split; [repeat constructor|]. split; [apply fresh_at_rest|]. split; reflexivity. Qed.

(** Any history of cells, with output between them. *)
Theorem C41_history_partial : forall fuel o e ps s,
  1 < fuel -> (forall p, In p ps -> Forall output (body_of p)) -> at_rest o e s ->
  exists s', run fuel (flat_map ops_of ps) s = Ok s' /\ at_rest o e s' /\
    shown s' = shown s ++ flat_map (fun p => shows o e (body_of p)) ps /\
    recorded s' = recorded s ++ flat_map records_of ps.
Proof.
  intros fuel o e ps. induction ps as [|p ps IH]; intros s F B A.
  - exists s. cbn. rewrite !app_nil_r. auto.
  - assert (Q : exists s1, run fuel (ops_of p) s = Ok s1 /\ at_rest o e s1 /\
        shown s1 = shown s ++ shows o e (body_of p) /\ recorded s1 = recorded s ++ records_of p).
    { specialize (B p (or_introl eq_refl)). destruct p as [body|body k]; cbn [ops_of body_of records_of] in *.
      - destruct (rest_body fuel o e body s F B A) as (s1 & E & A1 & H & R). exists s1. rewrite app_nil_r. auto.
      - destruct (rest_cell fuel o e body k s F B A) as (s1 & E & A1 & H & R & _). exists s1. auto. }
    destruct Q as (s1 & E1 & A1 & H1 & R1). destruct (IH s1 F (fun q I => B q (or_intror I)) A1) as (s2 & E2 & A2 & H2 & R2).
    exists s2. cbn [flat_map]. rewrite run_app, E1. cbn [rbind]. split; auto. split; auto.
    rewrite H2, H1, R2, R1, <- !app_assoc. auto.
Qed.
Print Assumptions C41_history_partial.
Definition day : list part := [Between [Write true true 1]; Cell talk 1; Between [Display 2]; Cell [Write true false 3] 0].
Example C41_history_case : (forall p, In p day -> Forall output (body_of p)) /\
  flat_map records_of day = [mkCap [10; 60] [30] [50]; mkCap [] [3] []].
Proof. split; [|reflexivity]. intros p [<-|[<-|[<-|[<-|[]]]]]; repeat constructor. Qed.

(** Leaving a second time does nothing, in whatever state. *)
Theorem C41_leave_twice : forall s, done_capturing (done_capturing s) = done_capturing s /\ leave (leave s) = leave s.
Proof.
  intros s. unfold done_capturing, leave. destruct (capturing s) eqn:C, (in_context s) eqn:I; cbn; rewrite ?C, ?I; cbn; rewrite ?C, ?I; auto.
Qed.
Print Assumptions C41_leave_twice.
Example C41_leave_twice_case : exists s, run 9 [Init; Write true true 5] fresh = Ok s /\ in_context s = true /\
  in_context (done_capturing s) = false /\ pub (done_capturing s) = Shows.
Proof. eexists. split; [vm_compute; reflexivity|]. repeat split. Qed.

(** The output that a cell is given is the record made while it ran. *)
Theorem C41_captured_partial : forall fuel o e body k s,
  1 < fuel -> Forall output body -> at_rest o e s -> In (After k) body -> dget (captured s) k = None ->
  forall extra s', run fuel (cell body extra) s = Ok s' ->
  exists c, dget (captured s') k = Some c /\ nth_error (recorded s') c = Some (record_of body).
Proof.
  intros fuel o e body k s F B A I N extra s' E. exists (length (recorded s)). split.
  - unfold cell in E. rewrite run_cons in E. destruct (rest_init fuel o e s A) as (s1 & E1 & A1 & _ & K). rewrite E1 in E. cbn [rbind] in E.
    rewrite run_app in E. destruct (active_body fuel o e body _ _ _ F B A1) as (s2 & E2 & A2 & _).
    assert (C : dget (captured s2) k = Some (length (recorded s))) by (apply (after_body fuel o e body _ _ s1 k F B A1 I); auto; rewrite K; auto).
    rewrite E2 in E. cbn [rbind repeat] in E. rewrite run_cons in E.
    destruct (active_done fuel o e _ _ _ A2) as (s3 & E3 & A3 & _ & _ & _ & K3). rewrite E3 in E. cbn [rbind] in E.
    rewrite (rest_done fuel extra o e) in E by auto. injection E as <-. rewrite K3. auto.
  - destruct (rest_cell fuel o e body extra s F B A) as (s1 & E1 & _ & _ & R & _). rewrite E1 in E. injection E as <-.
    rewrite R. apply nth_last.
Qed.
Print Assumptions C41_captured_partial.
Example C41_captured_case : In (After 7) talk /\ exists s, run 9 (cell talk 0) fresh = Ok s /\ captured s = [(7, 0)].
Proof. split; [simpl; tauto|]. eexists. split; [vm_compute; reflexivity|]. reflexivity. Qed.

(** What is false. *)

(** What another thread writes while the cell runs is shown and not recorded. *)
Theorem C41_thread_refuted : forall fuel o e s d, 1 < fuel -> at_rest o e s ->
  exists s', run fuel (cell [Write false true d] 0) s = Ok s' /\ shown s' = shown s ++ [OnStream o d] /\
    recorded s' = recorded s ++ [mkCap [] [] []].
Proof.
  intros fuel o e s d F A. destruct (rest_cell fuel o e [Write false true d] 0 s F) as (s' & E & _ & H & R & _); auto.
  - constructor; [exact Logic.I|constructor].
  - exists s'. split; [exact E|]. split; [exact H|exact R].
Qed.
Print Assumptions C41_thread_refuted.

(** Entering twice and leaving twice (a cell runs another one; or a cell ran through [run_cell_async], which never
    leaves, and then another one): what is displayed is recorded as part of the first one's output forever. *)
Theorem C41_nested_refuted : forall fuel o e s d, 1 < fuel -> at_rest o e s ->
  exists s', run fuel [Init; Init; Done; Done; Display d] s = Ok s' /\ in_context s' = false /\ capturing s' = false /\
    pub s' = TeePub Shows (length (recorded s)) /\
    nth_error (recorded s') (length (recorded s)) = Some (mkCap [] [] [d]).
Proof.
  intros fuel o e s d F A. rewrite run_cons.
  destruct (rest_init fuel o e s A) as (s1 & E1 & A1 & _). rewrite E1. cbn [rbind]. rewrite run_cons.
  destruct A1 as (S1 & _ & _ & _ & _ & P & _ & _ & _ & _ & R).
  assert (Q : exists s2, do fuel Init s1 = Ok s2 /\ save_pub s2 = TeePub Shows (length (recorded s)) /\ in_context s2 = true /\
              capturing s2 = true /\ recorded s2 = (recorded s ++ [mkCap [] [] []]) ++ [mkCap [] [] []]).
  { eexists. split; [reflexivity|]. unfold init_module. rewrite S1. cbn. rewrite P, R. auto. }
  destruct Q as (s2 & E2 & V2 & I2 & C2 & R2). rewrite E2. cbn [rbind]. rewrite run_cons.
  assert (Q : exists s3, do fuel Done s2 = Ok s3 /\ pub s3 = TeePub Shows (length (recorded s)) /\ in_context s3 = false /\
              capturing s3 = false /\ recorded s3 = (recorded s ++ [mkCap [] [] []]) ++ [mkCap [] [] []]).
  { eexists. split; [reflexivity|]. unfold done_capturing. rewrite C2. cbn [negb]. unfold leave. cbn [in_context]. rewrite I2. cbn. auto. }
  destruct Q as (s3 & E3 & P3 & I3 & C3 & R3). rewrite E3. cbn [rbind]. rewrite run_cons. cbn [do]. unfold done_capturing.
  rewrite C3. cbn [negb rbind]. rewrite run_cons. cbn [do rbind]. rewrite P3. cbn [publish].
  exists (on_capture (put_disp d) (length (recorded s)) (with_shown (shown s3 ++ [OnDisplay d]) s3)). split; [reflexivity|].
  unfold on_capture. cbn [with_shown recorded]. rewrite R3.
  rewrite nth_error_app1 by (rewrite app_length; simpl; lia). rewrite nth_last. cbn. rewrite nth_error_lset, Nat.eqb_refl, !app_length.
  replace (length (recorded s) <? _) with true by (symmetry; apply Nat.ltb_lt; simpl; lia). auto.
Qed.
Print Assumptions C41_nested_refuted.
(** And what is printed after the inner capture was left is not recorded. *)
Theorem C41_nested_lost_refuted : exists s, run 9 [Init; Write true true 1; Init; Write true true 2; Done; Write true true 3; Done] fresh = Ok s /\
  shown s = [OnStream 1 1; OnStream 1 2; OnStream 1 3] /\ recorded s = [mkCap [1] [] []; mkCap [2] [] []].
Proof. eexists. split; [vm_compute; reflexivity|]. split; reflexivity. Qed.
Print Assumptions C41_nested_lost_refuted.

(** A user who assigns to [sys.stderr] gets no more records of it. *)
Theorem C41_replaced_refuted : forall fuel o e s n d, 1 < fuel -> at_rest o e s ->
  (sys s true = Proxy true) ->
  exists s', run fuel (Replace false n :: cell [Write true false d] 0) s = Ok s' /\
    shown s' = shown s ++ [OnStream n d] /\ recorded s' = recorded s ++ [mkCap [] [] []].
Proof.
  intros fuel o e s n d F (S1 & T & P & I & C) X. destruct fuel as [|[|f]]; [lia|lia|].
  unfold run, cell. cbn [rfold do rbind app repeat]. unfold init_module. cbn. rewrite X. cbn. eexists. split; [reflexivity|].
  unfold done_capturing, leave. cbn. split; reflexivity.
Qed.
Print Assumptions C41_replaced_refuted.
Example C41_replaced_case : exists s, run 9 (cell talk 0) fresh = Ok s /\ at_rest 1 2 s /\ sys s true = Proxy true.
Proof. eexists. split; [vm_compute; reflexivity|]. split; [|reflexivity]. repeat split. right. repeat split. Qed.

(** A user who assigns to [sys.stdout] alone cannot write to [sys.stderr] any more: neither in the next cell nor
    afterwards, whatever the recursion limit is. *)
Theorem C41_endless_refuted : forall fuel o e s n d main, at_rest o e s -> sys s false = Proxy false ->
  exists s1, run fuel [Replace true n; Init] s = Ok s1 /\ do fuel (Write main false d) s1 = Err OutOfFuel /\
    do fuel (Write main false d) (done_capturing s1) = Err OutOfFuel.
Proof.
  intros fuel o e s n d main (S1 & T & P & I & C) X. eexists. split; [reflexivity|].
  set (s1 := init_module _).
  assert (A : sys s1 false = Proxy false /\ saved s1 false = Proxy false /\ tees s1 false = Some (Proxy false, length (recorded s)) /\ in_context s1 = true /\ capturing s1 = true).
  { unfold s1, init_module, enter. cbn. rewrite X. auto. }
  clearbody s1. destruct A as (A1 & A2 & A3 & A4 & A5).
  assert (W : forall fuel main d s1, saved s1 false = Proxy false ->
              (forall y c, tees s1 false = Some (y, c) -> y = Proxy false) -> write fuel main d (Proxy false) s1 = Err OutOfFuel).
  { clear. intros fuel main d. induction fuel as [|f IH]; intros s1 A B; cbn [write]; auto. destruct main; cbn.
    - destruct (tees s1 false) as [[y c]|] eqn:Y; [rewrite (B y c eq_refl), IH; auto; intros y' c' Z; apply (B y' c'); congruence|]. rewrite A, IH; auto. intros y c Z. congruence.
    - rewrite A. apply IH; auto. }
  split; cbn [do].
  - rewrite A1. apply W; auto. intros y c Y. congruence.
  - unfold done_capturing. rewrite A5. cbn. unfold leave. cbn. rewrite A4. cbn. rewrite A1. apply W; auto. cbn. discriminate.
Qed.
Print Assumptions C41_endless_refuted.
Example C41_endless_case : exists s, run 9 (cell talk 0) fresh = Ok s /\ at_rest 1 2 s /\ sys s false = Proxy false.
Proof. eexists. split; [vm_compute; reflexivity|]. split; [|reflexivity]. repeat split. right. repeat split. Qed.

(** A cell whose module does not start (a syntax error, or %%capture) is given the output of the one before it. *)
Theorem C41_captured_refuted : exists s, run 9 (cell [Write true true 5; After 1] 0 ++ [After 2; Done]) fresh = Ok s /\
  dget (captured s) 2 = Some 0 /\ nth_error (recorded s) 0 = Some (mkCap [5] [] []).
Proof. eexists. split; [vm_compute; reflexivity|]. split; reflexivity. Qed.
Print Assumptions C41_captured_refuted.
