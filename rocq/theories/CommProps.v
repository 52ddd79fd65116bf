(** Properties of the requests of the frontend. *)
Require Import List ZArith Bool Arith Lia Permutation Sorted.
Import ListNotations.
Require Import Verif.Base Verif.Loops Verif.CommModel Verif.CommSpec Verif.CommProofs.

(** ** C31: requests are answered *)

(** A request of a registered type that is not held back gets exactly one response, on its comm,
    with what the handler did. Missing: the requests in the refutations below. *)
Theorem C31_answered_partial W run compile m q c t h m1 o :
  q_type q = Some t -> dget (m_handlers m) t = Some h -> call W run compile m h q = (m1, o) ->
  sendable o -> (m_pending m = true -> t <> t_schedule) ->
  exists m' r, responder W run compile m c q = (m', Returned) /\ m_sent m' = m_sent m ++ [(c, r)] /\ answers t o r /\
    m_handlers m' = m_handlers m1 /\ m_world m' = m_world m1.
Proof.
  intros Q G C S P. destruct (answered W run compile _ _ c _ _ _ _ Q G C S) as (r & H & A & E).
  exists (with_sent m1 c r), r. unfold responder. rewrite Q.
  destruct (Nat.eqb_spec t t_schedule) as [T|T]; destruct (m_pending m); simpl;
    try (exfalso; apply P; auto; fail); rewrite H; simpl; rewrite E; auto.
Qed.
Print Assumptions C31_answered_partial.

(** The response without a comm goes to the comm that was opened last, if there is any. *)
Theorem C31_default_comm W run compile m q : (forall c, m_comm m = Some c -> handle W run compile m q None = handle W run compile m q (Some c)) /\
  (m_comm m = None -> m_sent (fst (handle W run compile m q None)) = m_sent m).
Proof.
  assert (K : forall h m1 o, call W run compile m h q = (m1, o) -> m_comm m1 = m_comm m /\ m_sent m1 = m_sent m).
  { intros h m1 o C. destruct (call_sent _ _ _ _ _ _ _ _ C) as (A & B & _). auto. }
  unfold handle, respond. split; intros; destruct (q_type q) as [t|]; auto;
    destruct (dget (m_handlers m) t) as [h|]; auto;
    destruct (call W run compile m h q) as [m1 o] eqn:C; destruct (K _ _ _ C) as [K1 K2]; rewrite K1, H; destruct o; auto.
Qed.
Print Assumptions C31_default_comm.

(** A type that nobody registered: no response; the request is remembered and nothing else
    changes. *)
Theorem C31_unknown W run compile m q c t : q_type q = Some t -> dget (m_handlers m) t = None ->
  (m_pending m = true -> t <> t_schedule) ->
  exists m', responder W run compile m c q = (m', Returned) /\ m_sent m' = m_sent m /\ m_debug m' = Some q /\
    m_handlers m' = m_handlers m /\ m_world m' = m_world m.
Proof.
  intros Q G P. exists (with_debug m q). unfold responder, handle. rewrite Q, G.
  destruct (Nat.eqb_spec t t_schedule) as [T|T]; destruct (m_pending m); simpl;
    try (exfalso; apply P; auto; fail); auto.
Qed.
Print Assumptions C31_unknown.

(** A handler that returns [NO_RESPONSE]: nothing is sent. *)
Theorem C31_no_response W run compile m q c t h m1 : q_type q = Some t -> dget (m_handlers m) t = Some h ->
  call W run compile m h q = (m1, ONoResponse) ->
  handle W run compile m q c = (m1, Returned) /\ m_sent m1 = m_sent m.
Proof.
  intros Q G C. destruct (call_sent _ _ _ _ _ _ _ _ C) as (A & _). unfold handle.
  rewrite Q, G, C. auto.
Qed.
Print Assumptions C31_no_response.

(** Registering is refused exactly if there is a handler and it may not be overwritten. *)
Theorem C31_register W (m : mgr W) t h ow :
  (register m t h ow = Err ValueError <-> (exists g, dget (m_handlers m) t = Some g) /\ ow = false) /\
  (forall e, register m t h ow = Err e -> e = ValueError) /\
  (forall m', register m t h ow = Ok m' -> dget (m_handlers m') t = Some h /\
     (forall t', t' <> t -> dget (m_handlers m') t' = dget (m_handlers m) t') /\
     m_sent m' = m_sent m /\ m_world m' = m_world m).
Proof.
  assert (K : forall m', Ok (with_handlers m (dset (m_handlers m) t h)) = Ok m' ->
    dget (m_handlers m') t = Some h /\
    (forall t', t' <> t -> dget (m_handlers m') t' = dget (m_handlers m) t') /\
    m_sent m' = m_sent m /\ m_world m' = m_world m).
  { intros m' E. injection E as <-. simpl. rewrite dget_dset_same. split; [auto|]. split; [|auto].
    intros t' N. apply dget_dset_other. auto. }
  unfold register, dhas. destruct (dget (m_handlers m) t) as [g|] eqn:G; destruct ow; simpl;
    (split; [split; [intros E|intros [[g' E] E']]|split; [intros e E|]]); try discriminate; eauto; try congruence.
Qed.
Print Assumptions C31_register.

(** The same through a request: it is answered with a failure, and the handlers are as before. *)
Theorem C31_register_request W run compile m q c t text g h : q_type q = Some t_register -> dget (m_handlers m) t_register = Some dynamic ->
  q_msg_type q = Some t -> q_handler q = Some text -> compile text = Some h ->
  dget (m_handlers m) t = Some g -> q_overwrite q = false ->
  exists m' r, responder W run compile m c q = (m', Returned) /\ m_sent m' = m_sent m ++ [(c, r)] /\
    p_type r = Some t_register /\ p_success r = Some false /\ p_error r = Some msg_registered /\
    m_handlers m' = m_handlers m.
Proof.
  intros Q G T X C Gt O.
  assert (K : call W run compile m dynamic q = (m, ORaise msg_registered)).
  { simpl. unfold register_dynamic, register, dhas. rewrite T, X, C, Gt, O. auto. }
  destruct (C31_answered_partial W run compile m q c _ _ _ _ Q G K) as (m' & r & A & B & (D1 & D2 & D3) & E & _).
  - exact Logic.I.
  - intros _. discriminate.
  - exists m', r. do 5 (split; [assumption|]). exact E.
Qed.
Print Assumptions C31_register_request.

(** Over any sequence of requests and registrations, a handler stays in place as long as nobody
    asks to overwrite it. *)
Theorem C31_handler_stays W run compile ops m t g : (forall o, In o ops -> ~ overwrites o t) ->
  dget (m_handlers m) t = Some g -> dget (m_handlers (steps W run compile ops m)) t = Some g.
Proof. apply steps_kept. Qed.
Print Assumptions C31_handler_stays.

(** Each message is answered at most once, and answers are never taken back: over any sequence,
    the number of responses is at most the number of messages, plus one for each opened comm. *)
Theorem C31_at_most_once W run compile ops m :
  exists l, m_sent (steps W run compile ops m) = m_sent m ++ l /\
    length l <= length (filter (fun o => match o with Open _ | Message _ _ | Handle _ => true | _ => false end) ops).
Proof.
  revert m. induction ops as [|o ops IH]; intros m; cbn [filter]; [exists []; rewrite app_nil_r; auto|].
  destruct (IH (step W run compile m o)) as (l & E & L). change (steps W run compile (o :: ops) m) with (steps W run compile ops (step W run compile m o)). rewrite E.
  assert (Z : (exists x, m_sent (step W run compile m o) = m_sent m ++ x /\
     length x <= length (if match o with Open _ | Message _ _ | Handle _ => true | _ => false end then [o] else []))).
  { destruct o as [c|c q|q|t h ow|b]; simpl.
    - eexists. split; [reflexivity|]. auto.
    - unfold responder. destruct (_ && _)%bool; [exists []; rewrite app_nil_r; auto|].
      apply handle_one.
    - apply handle_one.
    - exists []. rewrite app_nil_r. unfold register. destruct (_ && _)%bool; auto.
    - exists []. rewrite app_nil_r. auto. }
  destruct Z as (x & -> & Lx). exists (x ++ l). rewrite app_assoc. split; auto.
  rewrite app_length. destruct (match o with Open _ => _ | _ => _ end); simpl in *; lia.
Qed.
Print Assumptions C31_at_most_once.

(** The handlers of the examples. *)
Definition handlers (h : nat) (w : nat) (q : request) : nat * outcome :=
  match h with
  | 0 => (w + 1, ONone)
  | 1 => (w, OResp (mkResp None None None 0 false))
  | 2 => (w, OOther)
  | 3 => (w, ORaise 9)
  | 4 => (w, ONoResponse)
  | _ => (w, OResp (mkResp (Some t_schedule) None None 0 true))
  end.
Definition texts (n : nat) : option nat := if n <? 10 then Some n else None.
Definition a_mgr (pending : bool) : mgr nat :=
  mkMgr [(t_schedule, code 5); (t_notify, code 5); (t_register, dynamic); (10, code 0); (11, code 1); (12, code 2);
         (13, code 3); (14, code 4)] (Some 7) pending None [] 0.
Definition ask (t : nat) : request := mkReq (Some t) None None false 0.
Definition ask_register (t text : nat) (ow : bool) : request :=
  mkReq (Some t_register) (Some t) (Some text) ow 0.

(** A success, a failure, silence, an unknown type; a new handler is registered and answers; a
    handler that exists is not replaced, unless this is asked for. *)
Example C31_session :
  let ops := [Message 7 (ask 10); Message 7 (ask 13); Message 7 (ask 14); Message 7 (ask 20);
              Message 7 (ask_register 20 3 false); Message 7 (ask 20); Message 7 (ask_register 10 3 false);
              Message 7 (ask 10); Message 7 (ask_register 10 3 true); Message 7 (ask 10)] in
  let m := steps nat handlers texts ops (a_mgr true) in
  map (fun r => (p_type (snd r), p_success (snd r), p_error (snd r))) (m_sent m) =
    [(Some 10, Some true, None); (Some 13, Some false, Some 9); (Some t_register, Some true, None);
     (Some 20, Some false, Some 9); (Some t_register, Some false, Some msg_registered); (Some 10, Some true, None);
     (Some t_register, Some true, None); (Some 10, Some false, Some 9)] /\
  m_debug m = Some (ask 20).
Proof. split; reflexivity. Qed.

(** While a schedule is pending because a widget changed, a request for one is dropped. *)
Theorem C31_dropped_refuted : exists W run compile (m : mgr W) q c h m1 o,
  q_type q = Some t_schedule /\ dget (m_handlers m) t_schedule = Some h /\
  call W run compile m h q = (m1, o) /\ sendable o /\
  responder W run compile m c q = (m, Returned).
Proof.
  exists nat, handlers, texts, (a_mgr true), (ask t_schedule), 7, (code 5). do 2 eexists.
  split; [reflexivity|]. split; [reflexivity|]. split; [reflexivity|]. split; reflexivity.
Qed.
Print Assumptions C31_dropped_refuted.

(** A response that cannot be serialized, or that is not a dict: an exception instead of a
    response. *)
Theorem C31_unsendable_refuted : exists W run compile (m : mgr W) q1 q2 c t1 t2 h1 h2,
  q_type q1 = Some t1 /\ dget (m_handlers m) t1 = Some h1 /\
  q_type q2 = Some t2 /\ dget (m_handlers m) t2 = Some h2 /\ m_pending m = false /\
  responder W run compile m c q1 = (m, SendFailed) /\
  responder W run compile m c q2 = (m, Raised AttributeError).
Proof.
  exists nat, handlers, texts, (a_mgr false), (ask 11), (ask 12), 7, 11, 12, (code 1), (code 2).
  repeat split.
Qed.
Print Assumptions C31_unsendable_refuted.

(** A request without a type raises. *)
Theorem C31_untyped_refuted : exists W run compile (m : mgr W) q c,
  responder W run compile m c q = (m, Raised KeyError).
Proof. exists nat, handlers, texts, (a_mgr false), (mkReq None None None false 0), 7. reflexivity. Qed.
Print Assumptions C31_untyped_refuted.

(** A response that names a type keeps it. So the notification that contents changed is answered
    with the type of a schedule, comm_manager.py:346-349. *)
Theorem C31_type_refuted : exists W run compile (m : mgr W) q c m' r,
  q_type q = Some t_notify /\ responder W run compile m c q = (m', Returned) /\
  m_sent m' = m_sent m ++ [(c, r)] /\ p_type r = Some t_schedule /\ t_schedule <> t_notify.
Proof.
  exists nat, handlers, texts, (a_mgr false), (ask t_notify), 7. do 2 eexists.
  split; [reflexivity|]. split; [reflexivity|]. split; [reflexivity|]. split; [reflexivity|discriminate].
Qed.
Print Assumptions C31_type_refuted.

(** ** C32: contents *)

(** Nothing but [SyntaxError] is raised. *)
Definition only_syntax W (parse : nat -> option exn) (check : W -> nat -> ccell -> W * (exn + list nat)) : Prop :=
  (forall x n, parse x <> Some (Other n)) /\ (forall w i c n, snd (check w i c) <> inl (Other n)).

(** Then an update ends regularly; other cells are as before; every cell that it names either has
    the new text and its check result, or, with a syntax error, is as before; and this does not
    depend on the other cells. If no cell was edited or run, nothing happens.
    Missing: other exceptions, below. *)
Theorem C32_atomic_partial W parse check cells w contents force :
  only_syntax W parse check -> (forall i c, dget cells i = Some c -> parsed parse c) ->
  NoDup (map fst contents) ->
  exists cells' w' b, recompute W parse check cells w contents force = (cells', w', inr b) /\
  (forall i, ~ In i (map fst contents) -> dget cells' i = dget cells i) /\
  ((force = false /\ (forall i new, In (i, new) contents -> outdated cells (i, new) = false) /\
    cells' = cells /\ b = false) \/
   (forall i new c, In (i, new) contents -> dget cells i = Some c ->
      exists c', dget cells' i = Some c' /\ renewed W parse check i new c c')).
Proof.
  intros [Hp Hc] P N. unfold recompute.
  destruct (force || existsb (outdated cells) contents) eqn:E.
  - destruct (update_cells_total W parse check contents Hp Hc cells w false) as (cells' & w' & r & U).
    exists cells', w', r. split; [exact U|].
    destruct (update_cells_spec W parse check contents _ _ _ _ _ _ P N U) as [A B]. split; auto.
  - exists cells, w, false. split; auto. split; auto. left. apply orb_false_iff in E. destruct E as [-> E].
    split; auto. split; auto. intros i new J. destruct (outdated cells (i, new)) eqn:O; auto.
    assert (X : existsb (outdated cells) contents = true) by (apply existsb_exists; eauto). congruence.
Qed.
Print Assumptions C32_atomic_partial.

(** In particular: with a syntax error the cell is as before. *)
Theorem C32_syntax_error W parse check cells w contents force cells' w' b i new c :
  (forall i c, dget cells i = Some c -> parsed parse c) -> NoDup (map fst contents) ->
  recompute W parse check cells w contents force = (cells', w', inr b) ->
  In (i, new) contents -> dget cells i = Some c -> parse new = Some Syntax ->
  exists c', dget cells' i = Some c' /\ kept c c'.
Proof.
  intros P N H J G S. unfold recompute in H. destruct (_ || _); [|injection H as <- <- <-; eauto using kept_refl].
  destruct (update_cells_spec W parse check contents _ _ _ _ _ _ P N H) as [_ B].
  destruct (B _ _ _ J G) as (c' & G' & [[K _]|[X _]]); [eauto|congruence].
Qed.
Print Assumptions C32_syntax_error.

(** Text 5 has a syntax error; text 6 makes the parser or the analysis raise something else, as
    with null bytes or recursive functions (see C27). *)
Definition parser (x : nat) : option exn := if x =? 5 then Some Syntax else None.
Definition checker (w : nat) (i : nat) (c : ccell) : nat * (exn + list nat) :=
  if c_content c =? 6 then (w, inl (Other 0)) else (w + 1, inr [c_content c]).
Definition checked (x : nat) : ccell := mkCC x 1 (Some x) (Some 1%Z) (Some [x]) [] (Some x).
Definition three : dict ccell := [(1, checked 1); (2, checked 2); (3, checked 3)].
Example C32_update : exists w',
  recompute nat parser checker three 0 [(1, 5); (2, 8); (3, 3); (9, 9)] false =
    ([(1, checked 1); (2, mkCC 8 1 (Some 8) (Some 1%Z) (Some [8]) [2] (Some 8)); (3, checked 3)], w', inr true).
Proof. eexists. reflexivity. Qed.
Definition checker' (w : nat) (i : nat) (c : ccell) : nat * (exn + list nat) := (w + 1, inr [c_content c]).
Example C32_conditions : only_syntax nat parser checker' /\
  (forall i c, dget three i = Some c -> parsed parser c).
Proof.
  split; [split|].
  - intros x n. unfold parser. destruct (x =? 5); discriminate.
  - intros w i c n. discriminate.
  - intros i c. simpl. destruct (i =? 1); [|destruct (i =? 2); [|destruct (i =? 3); [|discriminate]]];
      intros E; injection E as <-; intros x X; injection X as <-; reflexivity.
Qed.

(** Any other exception: the cell has the new text but the old check result, the cells after it
    are not updated, and repeating the request any number of times does not change that. *)
Theorem C32_torn_refuted : exists W parse check (w : W) cells contents i j ci cj new,
  contents = [(i, new); (j, new + 1)] /\ i <> j /\ dget cells i = Some ci /\ dget cells j = Some cj /\
  c_content ci <> new /\ c_content cj <> new + 1 /\ parse new = None /\ parse (new + 1) = None /\
  exists cells', dget cells' j = Some cj /\
    (exists ci', dget cells' i = Some ci' /\ c_content ci' = new /\ c_result ci' = c_result ci) /\
    recompute W parse check cells w contents true = (cells', w, inl (Other 0)) /\
    forall n force, Nat.iter n (fun s => fst (recompute W parse check (fst s) (snd s) contents force)) (cells', w) =
      (cells', w) /\ snd (recompute W parse check cells' w contents force) = inl (Other 0).
Proof.
  exists nat, parser, checker, 0, three, [(1, 6); (2, 7)], 1, 2, (checked 1), (checked 2), 6.
  split; [reflexivity|]. split; [discriminate|]. split; [reflexivity|]. split; [reflexivity|].
  split; [discriminate|]. split; [discriminate|]. split; [reflexivity|]. split; [reflexivity|].
  eexists. split; [|split; [|split; [reflexivity|]]].
  - reflexivity.
  - eexists. split; [reflexivity|]. split; reflexivity.
  - intros n force. split; [|destruct force; reflexivity].
    induction n as [|n IH]; [reflexivity|]. simpl Nat.iter. cbn [Nat.iter] in *.
    change (Nat.iter (S n) ?f ?x) with (f (Nat.iter n f x)) in *. 
    simpl in IH |- *. rewrite IH. destruct force; reflexivity.
Qed.
Print Assumptions C32_torn_refuted.

(** After a request for a schedule, there is no active cell, whatever happened on the way; and so
    after a notification that leads to one. *)
Theorem C32_active_cleared W enabled adopt notify overrides link s q :
  s_active (fst (schedule W enabled adopt notify overrides link s q)) = None /\
  s_active (fst (notified W enabled adopt notify overrides link s q true)) = None.
Proof.
  unfold schedule, notified, schedule. split; destruct (schedule_impl _ _ _ _ _ _ _ _) as [s' r]; reflexivity.
Qed.
Print Assumptions C32_active_cleared.

(** The active cell is set on the way, and the exception gets out. *)
Example C32_raises :
  let adopt (s : sched nat) := (mkSched (s_active s) (s_rest s + 1), None) in
  let notify (s : sched nat) := (s, Some (if match s_active s with Some 4 => true | _ => false end
                                          then ValueError else KeyError)) in
  schedule nat (fun _ => true) adopt notify (fun s => (s, None)) (fun s => (s, inr null_resp))
    (mkSched None 0) (mkSreq (Some 4) true true) = (mkSched None 1, inl ValueError).
Proof. reflexivity. Qed.

(** ** C33: new ids *)

(** For each text, the [k]-th new cell of the notebook with it gets the [k]-th placeholder with
    it, counted from the top and from the oldest; the placeholder is gone. Further new cells are
    added as never executed; further placeholders stay. Known ids stay what they are, and no
    other ids appear. Missing: notebooks with overridden references in new cells, below. *)
Theorem C33_matching_partial cur nb l ph cur' : dwf cur -> NoDup (map n_id nb) -> apart cur nb ->
  top_down l nb -> oldest_first ph cur -> new_ids cur nb = Ok cur' ->
  (forall x k n p, nth_error (news cur l x) k = Some n -> nth_error (olds ph x) k = Some p ->
     dget cur' (n_id n) = Some (mkPC (pc_ctr (snd p)) x false) /\ dget cur' (fst p) = None) /\
  (forall x k n, nth_error (news cur l x) k = Some n -> nth_error (olds ph x) k = None ->
     dget cur' (n_id n) = Some (mkPC (-1) x false)) /\
  (forall x k p, nth_error (olds ph x) k = Some p -> nth_error (news cur l x) k = None ->
     dget cur' (fst p) = Some (snd p)) /\
  (forall i c, dget cur i = Some c -> pc_placeholder c = false -> dget cur' i = Some c) /\
  (forall i, dget cur i = None -> ~ In i (map n_id nb) -> dget cur' i = None).
Proof. apply new_ids_spec. Qed.
Print Assumptions C33_matching_partial.

(** So two ids never share an execution. *)
Theorem C33_injective cur nb l ph cur' : dwf cur -> NoDup (map n_id nb) -> apart cur nb ->
  top_down l nb -> oldest_first ph cur -> new_ids cur nb = Ok cur' ->
  (forall i j c d, dget cur i = Some c -> dget cur j = Some d -> (0 < pc_ctr c)%Z -> pc_ctr c = pc_ctr d -> i = j) ->
  forall i j c d, dget cur' i = Some c -> dget cur' j = Some d -> (0 < pc_ctr c)%Z -> pc_ctr c = pc_ctr d -> i = j.
Proof. apply new_ids_injective. Qed.
Print Assumptions C33_injective.

(** Placeholders 101 to 104, three of them with text 1; new cells 5, 6, 7, 9. *)
Definition some_cells : dict pcell :=
  [(103, mkPC 3 1 true); (101, mkPC 1 1 true); (8, mkPC 9 1 false); (102, mkPC 2 2 true); (104, mkPC 4 1 true)].
Definition some_nb : list ncell :=
  [mkNC 6 3 1 false; mkNC 5 0 1 false; mkNC 8 1 1 true; mkNC 7 2 2 false; mkNC 9 4 3 false].
Example C33_matched : exists cur', new_ids some_cells some_nb = Ok cur' /\
  map (dget cur') [5; 6; 7; 8; 9; 101; 102; 103; 104] =
    [Some (mkPC 1 1 false); Some (mkPC 3 1 false); Some (mkPC 2 2 false); Some (mkPC 9 1 false);
     Some (mkPC (-1) 3 false); None; None; None; Some (mkPC 4 1 true)].
Proof. eexists. split; reflexivity. Qed.
Example C33_conditions : dwf some_cells /\ NoDup (map n_id some_nb) /\ apart some_cells some_nb /\
  (exists l, top_down l some_nb) /\ (exists ph, oldest_first ph some_cells) /\
  (forall i j c d, dget some_cells i = Some c -> dget some_cells j = Some d -> (0 < pc_ctr c)%Z ->
     pc_ctr c = pc_ctr d -> i = j).
Proof.
  split; [|split; [|split; [|split; [|split]]]].
  - unfold dwf. simpl. repeat constructor; simpl; intuition discriminate.
  - simpl. repeat constructor; simpl; intuition discriminate.
  - intros n c J. simpl in J. repeat (destruct J as [<-|J]; [simpl; intros E; try discriminate; injection E as <-; reflexivity|]).
    destruct J.
  - exists (by_index some_nb). split; [apply isort_perm|]. cbv.
    repeat (constructor; [|repeat constructor; cbv; lia]). constructor.
  - exists (placeholders some_cells). split; [apply isort_perm|]. cbv.
    repeat (constructor; [|repeat constructor]). constructor.
  - intros i j c d Hi Hj _ E. apply dget_In in Hi. apply dget_In in Hj. simpl in Hi, Hj.
    repeat (destruct Hi as [Hi|Hi]; [injection Hi as <- <-|]); try contradiction;
    repeat (destruct Hj as [Hj|Hj]; [injection Hj as <- <-; try discriminate; try reflexivity|]); try contradiction.
Qed.

(** A new cell with overridden references: [set_override_refs] raises before the new cells are
    added, and so does every later request with the same notebook. *)
Theorem C33_override_refuted : exists cur nb n, In n nb /\ dget cur (n_id n) = None /\ n_override n = true /\
  new_ids cur nb = Err KeyError.
Proof.
  exists some_cells, [mkNC 5 0 1 true]. eexists. split; [left; reflexivity|]. repeat split.
Qed.
Print Assumptions C33_override_refuted.
Theorem C33_override cur nb n : In n nb -> dget cur (n_id n) = None -> n_override n = true ->
  new_ids cur nb = Err KeyError.
Proof.
  intros J G O. unfold new_ids.
  destruct (existsb (fun n => n_override n && negb (dhas cur (n_id n))) nb) eqn:E; auto.
  assert (X : existsb (fun n => n_override n && negb (dhas cur (n_id n))) nb = true).
  { apply existsb_exists. exists n. unfold dhas. rewrite O, G. auto. }
  congruence.
Qed.
Print Assumptions C33_override.
