(** C58: assignments are recorded in the scope of the frame that makes them. *)
From Coq Require Import List Arith Bool Lia.
From Verif Require Import Base TraceModel TraceSpec TraceProofs.
Import ListNotations.

(** Programs for the examples. Statements below 10 lie outside any function; 1 and 3 are
    [if] / [with] / [for] statements. *)
Definition demo (base : nat) (headers : list nat) : prog :=
  {| p_base := base; p_max := 3; p_initial := fun s => s <? 10; p_header := fun s => memb s headers |}.

(** While tracing is on, the scopes on the tracer's stack are those of the running frames, in
    order, and its depth counter is their number. This holds after every history of calls, returns,
    exceptions and switching tracing off, within the restrictions of [tame] and if no foreign frame
    counts as the user's. *)
Theorem C58_scope_partial :
  forall p es,
    p_base p = 0 -> legal p world0 false es ->
    on (run p world0 es) ->
    believed (run p world0 es) = scopes (run p world0 es) /\
    t_depth (w_tracer (run p world0 es)) =
      length (filter (fun f => sees (f_kind f)) (w_frames (run p world0 es))).
Proof.
  intros p es B L O. destruct (run_inv p B es _ _ (inv0 p B) L) as (u & I).
  destruct I as (_ & _ & X). unfold on in O. rewrite O in X. split.
  - apply (exact_scopes p). exact X.
  - destruct X as [(Q & _ & D & _)|(_ & D & _)]; [rewrite Q, D; reflexivity|exact D].
Qed.
Print Assumptions C58_scope_partial.

(** A run: [x = f()] where [f] calls [k] twice from one place inside [try]; tracing goes off at
    the second call of [k], which raises; the handler in [f] runs and [f] goes on. *)
Definition caught : list event :=
  [ECall Cell 0 false; EBefore 2; ECall Cell 10 false; EBefore 11; EBefore 12;
   ECall Cell 20 false; EBefore 21; EAfter 21; EReturn 21 false;
   ECall Library 0 false; ECall Cell 20 true; EBefore 22; EReturn 22 false; EReturn 0 false;
   EBefore 13].

Example C58_scope_case :
  legal (demo 0 [1; 3]) world0 false caught /\
  on (run (demo 0 [1; 3]) world0 caught) /\
  scopes (run (demo 0 [1; 3]) world0 caught) = [2; 0] /\
  off (run (demo 0 [1; 3]) world0 (firstn 13 caught)).
Proof. split; [|vm_compute; auto]. apply legal_ok. vm_compute. reflexivity. Qed.

(** So a statement's effects are recorded in the scope of the frame that ran it, or not at all. *)
Theorem C58_recorded_partial :
  forall p es s,
    p_base p = 0 -> legal p world0 false (es ++ [EAfter s]) ->
    let w := run p world0 es in
    let w' := run p world0 (es ++ [EAfter s]) in
    t_log (w_tracer w') = t_log (w_tracer w) \/
    exists sc rest, scopes w = sc :: rest /\ t_log (w_tracer w') = t_log (w_tracer w) ++ [(s, sc)].
Proof.
  intros p es s B L w w'.
  assert (A : forall es w u, inv p w u -> legal p w u (es ++ [EAfter s]) ->
            exists u', inv p (run p w es) u' /\ possible p (run p w es) (EAfter s)).
  { clear - B. intros es. induction es as [|e es IH]; intros w u I L; simpl in *.
    - exists u. split; auto. apply L.
    - destruct L as (P & Q & L). apply (IH _ _ (step_inv p B _ _ _ I P Q) L). }
  destruct (A es _ _ (inv0 p B) L) as (u & I & (f & r & E & S) & IT).
  unfold w', run. rewrite fold_left_app. fold (run p world0 es). fold w. fold w in I, E, IT.
  clearbody w. destruct w as [R n t]. simpl in *.
  destruct (after_stmt_log p R n t u s B I) as [H|(f' & r' & E' & H)]; eauto.
  { intros Q. apply IT in Q. destruct Q as (g & Q). simpl in Q. eauto. }
  right. rewrite E in E'. injection E' as <- <-. exists (f_scope f).
  exists (map f_scope (filter (fun f => sees (f_kind f)) r)). split; auto.
  unfold scopes. simpl. rewrite E. simpl. rewrite S. reflexivity.
Qed.
Print Assumptions C58_recorded_partial.

Example C58_recorded_case :
  legal (demo 0 [1; 3]) world0 false (caught ++ [EAfter 13]) /\
  recorded (run (demo 0 [1; 3]) world0 (caught ++ [EAfter 13])) 13 2.
Proof. split; [|vm_compute; auto 10]. apply legal_ok. vm_compute. reflexivity. Qed.

(** Tracing resumes as soon as a call returns to a frame that the tracer has on its stack, unless
    the top level statement is already finished. *)
Theorem C58_resume_partial :
  forall p es,
    p_base p = 0 -> legal p world0 false es ->
    let w := run p world0 es in
    off w -> instrumented w -> unfinished_top w ->
    (exists sc rest, scopes w = sc :: rest /\ In sc (believed w)) ->
    on (step p w EAfterCall) /\ believed (step p w EAfterCall) = scopes w.
Proof.
  intros p es B L w O S U K. destruct (run_inv p B es _ _ (inv0 p B) L) as (u & I).
  apply (resumes p B w u I O S U K).
Qed.
Print Assumptions C58_resume_partial.

Example C58_resume_case :
  let es := firstn 14 caught in
  let w := run (demo 0 [1; 3]) world0 es in
  legal (demo 0 [1; 3]) world0 false es /\ off w /\ instrumented w /\ unfinished_top w /\
  (exists sc rest, scopes w = sc :: rest /\ In sc (believed w)).
Proof.
  cbv zeta. split; [|split; [|split; [|split]]].
  - apply legal_ok. vm_compute. reflexivity.
  - reflexivity.
  - vm_compute. eexists. eexists. split; reflexivity.
  - vm_compute. eexists. split; [reflexivity|]. intros [H|[]]; discriminate H.
  - vm_compute. eexists. eexists. split; [reflexivity|]. auto.
Qed.

(** Whatever happened before, and in whatever environment, the end of an unfinished top level
    statement puts the tracer right: tracing is on, nothing is on the stack, the scope is the
    global one, and that is where the statement's effects are recorded. *)
Theorem C58_resync :
  forall p d x s0 es s,
    let w := run p world0 (ECall Cell d x :: EBefore s0 :: es) in
    p_initial p s = true -> ~ finished w s ->
    on (step p w (EAfter s)) /\ believed (step p w (EAfter s)) = [0] /\
    t_log (w_tracer (step p w (EAfter s))) = t_log (w_tracer w) ++ [(s, 0)].
Proof.
  intros p d x s0 es s w I N.
  assert (R : rooted (w_tracer w)).
  { unfold w. change (ECall Cell d x :: EBefore s0 :: es) with ([ECall Cell d x; EBefore s0] ++ es).
    unfold run. rewrite fold_left_app. apply rooted_run. apply rooted_start. }
  clearbody w. destruct w as [F n t]. unfold on, believed. simpl in *.
  destruct (after_initial p F s t R I N) as (O & L & G). split; [exact O|split; [|exact G]].
  change (map l_scope (levels (after_stmt p F s t)) = [0]). rewrite L. simpl.
  destruct R as (R & _). rewrite R. reflexivity.
Qed.
Print Assumptions C58_resync.

Example C58_resync_case :
  let w := run (demo 8 [1; 3]) world0 (firstn 14 caught) in
  ~ finished w 2 /\ believed w <> [0] /\ off w.
Proof. vm_compute. split; [|split; [discriminate|reflexivity]]. intros H. repeat destruct H as [H|H]; discriminate H || exact H. Qed.

(** An exception that leaves [g] while tracing is off, and a [with] block whose [__exit__] is
    defined in the notebook: the assignment in [__exit__] is recorded in the scope of [g].
    1: [with CM(): ]  2: [g()]  11 (in g): [list(map(k, [0, 1]))]  20: k  31 (in __exit__): [y = 1] *)
Definition with_exit : list event :=
  [ECall Cell 0 false; EBefore 1; EBefore 2; ECall Cell 10 false; EBefore 11;
   ECall Cell 20 false; EReturn 20 false; ECall Cell 20 true; EReturn 20 false; EReturn 10 false;
   ECall Cell 30 false; EBefore 31].

Theorem C58_exit_refuted :
  exists p es s sc,
    p_base p = 0 /\ real p world0 (es ++ [EAfter s]) /\
    scopes (run p world0 es) = [5; 0] /\ believed (run p world0 es) = [2; 0] /\
    recorded (run p world0 (es ++ [EAfter s])) s sc /\ sc = 2.
Proof.
  exists (demo 0 [1; 3]), with_exit, 31, 2.
  split; [reflexivity|split; [|split; [reflexivity|split; [reflexivity|split; [|reflexivity]]]]].
  - apply real_ok. vm_compute. reflexivity.
  - vm_compute. auto.
Qed.
Print Assumptions C58_exit_refuted.

(** [if a: ...] twice, where [a.__bool__] is defined in the notebook: the second call switches
    tracing off, and the first statement of [__bool__] that did not run before switches it on with
    the global scope. Its assignment is recorded as one to a global variable.
    1, 3: [if a:]  2: body of the first  11 (in __bool__): [y = 1] *)
Definition twice_if : list event :=
  [ECall Cell 0 false; EBefore 1; ECall Cell 10 false; EReturn 10 false; EBefore 2; EAfter 2;
   EAfter 1; EReturn 1 false; ECall Cell 0 false; EBefore 3; ECall Cell 10 true; EBefore 11].

Theorem C58_header_refuted :
  exists p es s,
    p_base p = 0 /\ real p world0 (es ++ [EAfter s]) /\
    scopes (run p world0 es) = [4; 0] /\ believed (run p world0 es) = [0] /\
    recorded (run p world0 (es ++ [EAfter s])) s 0 /\ p_initial p s = false.
Proof.
  exists (demo 0 [1; 3]), twice_if, 11.
  split; [reflexivity|split; [|split; [reflexivity|split; [reflexivity|split; [|reflexivity]]]]].
  - apply real_ok. vm_compute. reflexivity.
  - vm_compute. auto.
Qed.
Print Assumptions C58_header_refuted.

(** [try: list(map(k, [0, 1]))] / [except: z = h(1)], where the second call of [k] raises: the
    handler switches tracing on with depth 0, so the call of [h] counts as that of a top level
    statement and the assignment inside [h] is recorded as one to a global variable.
    4: [try]  5: [list(...)]  6: [z = h(1)]  21 (in h): [y = 1] *)
Definition handler : list event :=
  [ECall Cell 0 false; EBefore 4; EBefore 5; ECall Cell 10 false; EReturn 10 false;
   ECall Cell 10 true; EReturn 10 false; EBefore 6; ECall Cell 20 false; EBefore 21].

Theorem C58_handler_refuted :
  exists p es s,
    p_base p = 0 /\ real p world0 (es ++ [EAfter s]) /\
    scopes (run p world0 es) = [4; 0] /\ believed (run p world0 es) = [0] /\
    recorded (run p world0 (es ++ [EAfter s])) s 0 /\ p_initial p s = false.
Proof.
  exists (demo 0 [1; 3]), handler, 21.
  split; [reflexivity|split; [|split; [reflexivity|split; [reflexivity|split; [|reflexivity]]]]].
  - apply real_ok. vm_compute. reflexivity.
  - vm_compute. auto.
Qed.
Print Assumptions C58_handler_refuted.

(** If frames below the notebook's count as the user's (asyncio, tornado, runpy: as in a Jupyter
    kernel), then [try: g()] / [except: ...] with an exception that leaves [g] while tracing is off
    gives the handler the scope of [g].
    4: [try]  5: [g()]  6: the handler's statement  11 (in g): [list(map(k, [0, 1]))] *)
Definition unwound : list event :=
  [ECall Cell 0 false; EBefore 4; EBefore 5; ECall Cell 10 false; EBefore 11;
   ECall Cell 20 false; EReturn 20 false; ECall Cell 20 true; EReturn 20 false; EReturn 10 false;
   EBefore 6].

Theorem C58_base_refuted :
  forall base, 0 < base ->
  exists p es,
    p_base p = base /\ real p world0 es /\ on (run p world0 es) /\
    scopes (run p world0 es) = [0] /\ believed (run p world0 es) = [2; 0].
Proof.
  intros base H. exists (demo base [1; 3]), unwound. destruct base as [|b]; [lia|].
  assert (R : run (demo (S b) [1; 3]) world0 unwound = step (demo (S b) [1; 3]) (run (demo (S b) [1; 3]) world0 (firstn 10 unwound)) (EBefore 6)).
  { unfold run. change unwound with (firstn 10 unwound ++ [EBefore 6]) at 1. rewrite fold_left_app. reflexivity. }
  assert (O : on (run (demo (S b) [1; 3]) world0 unwound) /\
              scopes (run (demo (S b) [1; 3]) world0 unwound) = [0] /\
              believed (run (demo (S b) [1; 3]) world0 unwound) = [2; 0]).
  { rewrite R.
    assert (W : exists d l1 l0, run (demo (S b) [1; 3]) world0 (firstn 10 unwound) =
       {| w_frames := [{| f_scope := 0; f_kind := Cell |}]; w_next := 5; w_tracer := l1 |} /\
       t_on l1 = false /\ t_off l1 = Some d /\ S (S b) <= d /\ t_stack l1 = [l0] /\
       l_prev l0 = Some 5 /\ l_udepth l0 = 1 /\ l_scope l0 = 0 /\ memb 5 (t_done l1) = false /\
       memb 6 (t_done l1) = false /\
       S (S b) <= l_udepth (t_cur l1) /\ l_scope (t_cur l1) = 2 /\ l_prev (t_cur l1) = Some 11).
    { let v := eval vm_compute in (run (demo (S b) [1; 3]) world0 (firstn 10 unwound)) in
      assert (E : run (demo (S b) [1; 3]) world0 (firstn 10 unwound) = v)
        by (vm_compute; reflexivity).
      rewrite E. eexists. eexists. eexists. split; [reflexivity|].
      cbn [t_on t_off t_stack t_cur t_done].
      repeat apply conj; try reflexivity; cbn; lia. }
    destruct W as (d & t & l0 & -> & O & D & DB & ST & P & U & S0 & M & M6 & C & SC & CP).
    unfold on, scopes, believed. cbn [step w_frames w_tracer].
    unfold before_stmt. rewrite M6, CP. cbn [demo p_header memb Nat.eqb orb].
    change (memb 11 [1; 3]) with false. cbn iota.
    change (t_on (set_levels (with_prev 6 (t_cur t)) (t_stack t) t)) with (t_on t). rewrite O.
    unfold reenable, length_for. cbn [set_levels t_off t_stack t_cur t_done]. rewrite D, ST.
    change (depth (demo (S b) [1; 3]) [{| f_scope := 0; f_kind := Cell |}]) with (S (S b)).
    assert (Q1 : d <? S (S b) = false) by (apply Nat.ltb_ge; lia). rewrite Q1.
    cbn [rev app]. rewrite P, M. cbn [lowest]. rewrite U.
    change (S (S b) <=? 1) with false. cbn iota.
    assert (Q2 : S (S b) <=? l_udepth (with_prev 6 (t_cur t)) = true) by (apply Nat.leb_le; exact C).
    rewrite Q2. cbn. rewrite SC, S0. auto. }
  split; [reflexivity|split; [|exact O]].
  apply real_ok. vm_compute. reflexivity.
Qed.
Print Assumptions C58_base_refuted.

(** And then tracing does not resume in the running top level statement after a call has switched
    it off, although the tracer knows the frame: the statement's further calls are not traced.
    5: [g(list(map(k, [0, 1])))] *)
Definition no_resume : list event :=
  [ECall Cell 0 false; EBefore 5; ECall Cell 10 false; EReturn 10 false; ECall Cell 10 true;
   EReturn 10 false].

Theorem C58_resume_refuted :
  forall base, 0 < base ->
  exists p es,
    p_base p = base /\ legal p world0 false es /\
    let w := run p world0 es in
    off w /\ instrumented w /\ unfinished_top w /\ scopes w = [0] /\ believed w = [0] /\
    off (step p w EAfterCall).
Proof.
  intros base H. exists (demo base [1; 3]), no_resume. destruct base as [|b]; [lia|].
  split; [reflexivity|split].
  - apply legal_ok. vm_compute. reflexivity.
  - cbv zeta. split; [reflexivity|split; [|split; [|split; [reflexivity|split; [reflexivity|]]]]].
    + vm_compute. eexists. eexists. split; reflexivity.
    + vm_compute. eexists. split; [reflexivity|]. intros [].
    + let v := eval vm_compute in (run (demo (S b) [1; 3]) world0 no_resume) in
      assert (E : run (demo (S b) [1; 3]) world0 no_resume = v) by (vm_compute; reflexivity).
      rewrite E. unfold off, step. cbn [w_tracer w_frames].
      unfold after_call, reenable, length_for. cbn [t_on t_off t_stack t_cur t_done rev l_prev].
      change (depth (demo (S b) [1; 3]) [{| f_scope := 0; f_kind := Cell |}]) with (S (S b)).
      match goal with |- context [?a <? ?c] => destruct (a <? c) end; reflexivity.
Qed.
Print Assumptions C58_resume_refuted.
