(** C34: settings and the commands that change them. *)
Require Import String Ascii List Bool Arith.
Import ListNotations.
Require Import Verif.Base Verif.ConfModel Verif.ConfSpec Verif.ConfProofs.
Local Open Scope string_scope.

(** C34, legal values: whatever configuration, commands and initialisations there are, each setting has one
    of its documented values. Missing: a [highlights] argument of the constructor that is no member of the
    enum, refuted below. *)
Theorem C34_legal_partial : forall other g xs,
  (forall v, g_hl g <> Some (HRaw v)) -> legal (acts other xs (construct g)).
Proof.
  intros other g xs H. apply legal_HL, acts_HL. simpl. destruct (g_hl g) as [[h|v]|]; eauto.
  destruct (H v). auto.
Qed.
Print Assumptions C34_legal_partial.
Definition nothing : given := mkGiven None None None None None None None.
Example C34_legal_case : (forall v, g_hl nothing <> Some (HRaw v)) /\
  json (acts (fun _ _ => []) [Magic 3 "mode bogus"; Magic 4 "schedule hybrid"; Magic 5 "hls ALL"] (construct nothing)) =
  [("highlights", "all"); ("interface", "unknown"); ("exec_mode", "reactive");
   ("exec_schedule", "hybrid_dag_liveness_based"); ("flow_order", "in_order"); ("reactivity_mode", "batch");
   ("color_scheme", "normal")].
Proof. split; [discriminate|reflexivity]. Qed.

(** The constructor stores any value for [highlights]. *)
Theorem C34_highlights_refuted : exists g, ~ legal (construct g).
Proof.
  exists (mkGiven (Some (HRaw "blue")) None None None None None None). intros L.
  destruct (L "highlights" "blue") as (vs & J & K); [left; reflexivity|].
  simpl in J. repeat (destruct J as [J|J]; [try discriminate; injection J as <-; simpl in K; intuition discriminate|]).
  destruct J.
Qed.
Print Assumptions C34_highlights_refuted.
(** The constructor ignores the interface that it is given. *)
Theorem C34_interface_refuted : forall g, setting "interface" (construct g) = Some "unknown".
Proof. intros g. reflexivity. Qed.
Print Assumptions C34_interface_refuted.

(** A command followed by a documented value sets the setting to it, with any spaces around the value. *)
Theorem C34_set : forall other ctr s k ws w vs v pad pad',
  In (k, ws) commands -> In w ws -> In (k, vs) documented -> In v vs -> blank pad -> blank pad' ->
  setting k (fst (magic other ctr (w ++ " " ++ pad ++ v ++ pad') s)) = Some v.
Proof.
  intros other ctr s k ws w vs v pad pad' C W D V B B'.
  simpl in C, D.
  repeat (destruct C as [C|C]; [injection C as <- <-;
    repeat (destruct D as [D|D]; [try discriminate; injection D as <-|]); try (exfalso; exact D)|]); try (exfalso; exact C).
  all: simpl in V; repeat (destruct V as [V|V]; [subst v|]); try (exfalso; exact V).
  all: simpl in W; repeat (destruct W as [W|W]; [subst w|]); try (exfalso; exact W).
  all: (erewrite magic_line; [|simpl; intuition discriminate|auto|auto|reflexivity|reflexivity|reflexivity|simpl; intuition discriminate]).
  all: try reflexivity.
  destruct s as [? ? ? ? ? [] ? ? ? ? ? ? ? ? ?]; reflexivity.
Qed.
Print Assumptions C34_set.
Example C34_set_case : In ("flow_order", nth 3 (map snd commands) []) commands /\
  In "flow-direction" (nth 3 (map snd commands) []) /\ blank "  " /\
  magic (fun _ _ => []) 7 "flow-direction   any_order  > out.txt" (construct nothing) =
    (set_order AnyOrder (construct nothing), []).
Proof.
  split; [simpl; auto|]. split; [simpl; auto|]. split; [|reflexivity].
  intros c [<-|[<-|[]]]; reflexivity.
Qed.

(** A setting is changed only by the commands that are for it. *)
Theorem C34_frame : forall other ctr line s k,
  setting k (fst (magic other ctr line s)) <> setting k s -> command_for k (word line).
Proof.
  intros other ctr line s k H.
  assert (D : command_for k (word line) \/ ~ command_for k (word line)).
  { unfold command_for. destruct (in_dec string_dec (dashes (word line))
      (map dashes (flat_map (fun p => if String.eqb (fst p) k then snd p else []) (commands ++ side_commands)))) as [I|I].
    - left. apply in_map_iff in I. destruct I as (x & X1 & X2). apply in_flat_map in X2. destruct X2 as ([k' ws] & P & Q).
      simpl in Q. destruct (String.eqb_spec k' k); [subst|destruct Q]. exists ws. apply in_app_or in P. split; auto.
      apply in_map_iff. eauto.
    - right. intros (ws & P & Q). apply I. apply in_map_iff in Q. destruct Q as (x & X1 & X2). apply in_map_iff.
      exists x. split; auto. apply in_flat_map. exists (k, ws). split; [apply in_or_app; auto|].
      simpl. rewrite String.eqb_refl. auto. }
  destruct D as [D|D]; auto. exfalso. apply H.
  destruct (magic_word other ctr line s) as [rest ->]. apply handle_other. auto.
Qed.
Print Assumptions C34_frame.
Example C34_frame_case : setting "exec_schedule" (fst (magic (fun _ _ => []) 0 "schedule dag" (construct nothing))) <>
  setting "exec_schedule" (construct nothing).
Proof. discriminate. Qed.

(** A command that warns changes nothing. The exception is the one that it announces: incremental reactivity
    replaces the DAG schedule. *)
Theorem C34_warned : forall other ctr line s,
  In Warn (snd (magic other ctr line s)) ->
  fst (magic other ctr line s) = s \/
  (dashes (word line) = "reactivity" /\ schedule s = Dag /\
   fst (magic other ctr line s) = set_react Incremental (set_sched Hybrid s)).
Proof.
  intros other ctr line s H. destruct (magic_word other ctr line s) as [rest E]. rewrite E in *.
  destruct (handle_warn _ _ _ _ _ H) as [R|(R1 & _ & R2 & R3)]; auto.
Qed.
Print Assumptions C34_warned.
Example C34_warned_case :
  magic (fun _ _ => [Warn]) 0 "schedule DAG" (construct nothing) = (construct nothing, [Warn]) /\
  magic (fun _ _ => [Warn]) 0 "no such command" (construct nothing) = (construct nothing, [Warn]).
Proof. split; reflexivity. Qed.

(** The mode: "lazy" and "normal" give lazy, every other string gives reactive, and no warning. The frontend
    is told the new mode. *)
Theorem C34_mode : forall other ctr w line s,
  In w ["mode"; "exec_mode"; "exec-mode"] ->
  setting "exec_mode" (fst (handle other ctr w line s)) =
    Some (if one_of (strip line) ["lazy"; "normal"] then "lazy" else "reactive") /\
  snd (handle other ctr w line s) =
    (if comm_open s then [Sent (if one_of (strip line) ["lazy"; "normal"] then "lazy" else "reactive")] else []).
Proof.
  intros other ctr w line s W.
  assert (E : handle other ctr w line s = set_exec_mode ctr line s).
  { simpl in W. repeat (destruct W as [W|W]; [subst w; reflexivity|]). destruct W. }
  rewrite E. unfold set_exec_mode. rewrite mode_word. destruct (one_of (strip line) ["lazy"; "normal"]); split; reflexivity.
Qed.
Print Assumptions C34_mode.

Example C34_mode_case : In "exec-mode" ["mode"; "exec_mode"; "exec-mode"] /\
  setting "exec_mode" (fst (handle (fun _ _ => []) 5 "exec-mode" " normal" (construct nothing))) = Some "lazy" /\
  setting "exec_mode" (fst (handle (fun _ _ => []) 5 "exec-mode" "Lazy" (construct nothing))) = Some "reactive".
Proof. split; [simpl; auto|]. split; reflexivity. Qed.

(** For highlights, order and reactivity the case of the value makes no difference. *)
Theorem C34_case : forall other ctr k ws w a b s,
  In (k, ws) commands -> In w ws -> In k ["highlights"; "flow_order"; "reactivity_mode"] -> same_but_case a b ->
  handle other ctr w a s = handle other ctr w b s.
Proof.
  intros other ctr k ws w a b s C W K E. apply lower_same in E.
  simpl in C. repeat (destruct C as [C|C]; [injection C as <- <-|]); try (exfalso; exact C).
  all: simpl in K; repeat (destruct K as [K|K]; [try discriminate|]); try (exfalso; exact K).
  all: simpl in W; repeat (destruct W as [W|W]; [subst w|]); try (exfalso; exact W).
  all: match goal with
       | |- handle _ _ ?x ?l ?t = handle _ _ _ ?l' _ => first
         [ change (set_highlights x l t = set_highlights x l' t); unfold set_highlights; rewrite E; reflexivity
         | change (set_flow_direction l t = set_flow_direction l' t); unfold set_flow_direction; rewrite E; reflexivity
         | change (set_reactivity l t = set_reactivity l' t); unfold set_reactivity; rewrite E; reflexivity ]
       end.
Qed.
Print Assumptions C34_case.
Example C34_case_case : same_but_case "ALL" "aLl" /\
  setting "highlights" (fst (handle (fun _ _ => []) 5 "hls" "aLl" (construct nothing))) = Some "all".
Proof. split; [|reflexivity]. repeat constructor; unfold same_letter, upper_of; simpl; auto; right; left; repeat split; repeat constructor. Qed.
(** For the schedule it does: the documented value in upper case is refused. *)
Theorem C34_case_refuted : exists a b, same_but_case a b /\
  fst (handle (fun _ _ => []) 5 "schedule" a (construct nothing)) <>
  fst (handle (fun _ _ => []) 5 "schedule" b (construct nothing)).
Proof.
  exists "DAG", "dag". split; [|discriminate].
  repeat constructor; right; left; repeat split; repeat constructor.
Qed.
Print Assumptions C34_case_refuted.

(** What follows [>] is no part of the value. *)
Theorem C34_redirect : forall other ctr w a b s,
  ~ In " "%char (list_ascii_of_string w) -> ~ In ">"%char (list_ascii_of_string a) ->
  magic other ctr (w ++ " " ++ a ++ ">" ++ b) s = magic other ctr (w ++ " " ++ a) s.
Proof.
  intros other ctr w a b s H K. unfold magic.
  change (" " ++ a ++ ">" ++ b) with (String " " (a ++ ">" ++ b)). change (" " ++ a) with (String " " a).
  rewrite !split1_first by auto. rewrite split1_app, split1_none by auto. reflexivity.
Qed.
Print Assumptions C34_redirect.
Example C34_redirect_case : ~ In " "%char (list_ascii_of_string "mode") /\ ~ In ">"%char (list_ascii_of_string "lazy ") /\
  exec_mode (fst (magic (fun _ _ => []) 0 "mode lazy > log.txt" (construct nothing))) = Lazy.
Proof. split; [|split; [|reflexivity]]; simpl; intuition discriminate. Qed.

(** Toggling twice restores the mode, and changes no other setting. *)
Theorem C34_toggle : forall other c1 c2 s,
  let s' := acts other [Magic c1 "toggle_reactivity"; Magic c2 "toggle_reactivity"] s in
  exec_mode s' = exec_mode s /\ json s' = json s.
Proof. intros other c1 c2 s. cbv zeta. unfold acts. simpl. destruct (exec_mode s) eqn:E; unfold json; simpl; rewrite E; auto. Qed.
Print Assumptions C34_toggle.
(** Once changes it. *)
Theorem C34_toggle_once : forall other c s,
  exec_mode (act other s (Magic c "toggle_reactivity")) <> exec_mode s.
Proof. intros other c s. simpl. destruct (exec_mode s); discriminate. Qed.
Print Assumptions C34_toggle_once.

(** C34, incremental reactivity is combined only with a schedule that supports it, unless the DAG schedule is
    chosen afterwards, or both are chosen together in an initialisation. *)
Theorem C34_incremental_partial : forall other g xs,
  (or_default to_react Batch (g_react g) = Incremental -> or_default to_sched Liveness (g_sched g) <> Dag) ->
  Forall chooses_well xs -> compatible (acts other xs (construct g)).
Proof. intros other g xs H F. apply acts_compatible; auto. Qed.
Print Assumptions C34_incremental_partial.
Example C34_incremental_case :
  let xs := [Magic 1 "mode lazy"; Magic 2 "reactivity incremental"; Magic 3 "schedule liveness"] in
  Forall chooses_well xs /\ reactivity (acts (fun _ _ => []) xs (construct nothing)) = Incremental.
Proof.
  cbv zeta. split; [|reflexivity]. constructor; [|constructor; [|constructor; [|constructor]]].
  - intros [J _]. cbn in J. intuition discriminate.
  - intros [J _]. cbn in J. intuition discriminate.
  - intros [_ (rest & R & S)]. cbn in R. injection R as <-. discriminate S.
Qed.

(** [%flow reactivity incremental], then [%flow schedule dag_based]. *)
Theorem C34_incremental_refuted :
  ~ compatible (acts (fun _ _ => []) [Magic 0 "reactivity incremental"; Magic 0 "schedule dag_based"] (construct nothing)).
Proof. intros C. apply C; reflexivity. Qed.
Print Assumptions C34_incremental_refuted.
(** The constructor and [initialize] do not look at the combination. *)
Theorem C34_initialize_refuted :
  ~ compatible (construct (mkGiven None None None (Some "dag_based") None (Some "incremental") None)) /\
  ~ compatible (acts (fun _ _ => [])
      [Init (mkInit None (Some "jupyterlab") None None None (Some "incremental") None)] (construct nothing)).
Proof. split; intros C; apply C; reflexivity. Qed.
Print Assumptions C34_initialize_refuted.
(** Without an interface, [initialize] ignores all that it is given at the start. *)
Theorem C34_initialize_ignored_refuted : forall g h m sc o r c,
  initialize (mkInit h None m sc o r c) (construct g) = construct g.
Proof. reflexivity. Qed.
Print Assumptions C34_initialize_ignored_refuted.
