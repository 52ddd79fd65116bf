Require Import String Ascii List Bool Arith Lia.
Import ListNotations.
Require Import Verif.Base Verif.ConfModel Verif.ConfSpec.
Local Open Scope string_scope.

Lemma one_of_In s l : one_of s l = true <-> In s l.
Proof.
  unfold one_of. rewrite existsb_exists. split.
  - intros (x & J & E). apply String.eqb_eq in E. subst. auto.
  - intros J. exists s. split; auto. apply String.eqb_refl.
Qed.

(** Strings *)
Lemma lstrip_blank pad x : blank pad -> lstrip (pad ++ x) = lstrip x.
Proof.
  induction pad as [|c pad IH]; intros B; auto. simpl. rewrite (B c) by (simpl; auto).
  apply IH. intros d J. apply B. simpl. auto.
Qed.
Lemma rstrip_blank_nil pad : blank pad -> rstrip pad = "".
Proof.
  induction pad as [|c pad IH]; intros B; auto. simpl. rewrite IH by (intros d J; apply B; simpl; auto).
  rewrite (B c) by (simpl; auto). auto.
Qed.
Lemma rstrip_blank x pad : blank pad -> rstrip (x ++ pad) = rstrip x.
Proof.
  intros B. induction x as [|c x IH]; simpl; [apply rstrip_blank_nil; auto|]. rewrite IH. auto.
Qed.
Lemma strip_pad pad v pad' c w : blank pad -> blank pad' -> v = String c w -> is_space c = false ->
  strip (pad ++ v ++ pad') = rstrip v.
Proof.
  intros B B' -> S. unfold strip. rewrite lstrip_blank by auto.
  assert (E : lstrip (String c w ++ pad') = String c w ++ pad') by (simpl; rewrite S; auto).
  rewrite E. apply rstrip_blank. auto.
Qed.
Lemma split1_None c s : ~ In c (list_ascii_of_string s) -> split1 c s = None.
Proof.
  induction s as [|d s IH]; simpl; intros H; auto. destruct (Ascii.eqb_spec c d); [subst; tauto|].
  rewrite IH; auto.
Qed.
Lemma list_ascii_app a b : list_ascii_of_string (a ++ b) = (list_ascii_of_string a ++ list_ascii_of_string b)%list.
Proof. induction a; simpl; f_equal; auto. Qed.
Lemma blank_no_gt s : blank s -> ~ In ">"%char (list_ascii_of_string s).
Proof. intros B J. apply B in J. discriminate. Qed.

(** One setting at a time *)
Ltac keys := unfold setting, json; simpl; repeat match goal with |- context[String.eqb ?a ?b] => destruct (String.eqb_spec a b) end;
  try congruence; auto.
Lemma set_dataflow_other k v s : setting k (set_dataflow v s) = setting k s.
Proof. keys. Qed.
Lemma set_traces_other k v s : setting k (set_traces v s) = setting k s.
Proof. keys. Qed.
Lemma set_warn_other k v s : setting k (set_warn v s) = setting k s.
Proof. keys. Qed.
Lemma set_lint_other k v s : setting k (set_lint v s) = setting k s.
Proof. keys. Qed.
Lemma set_transforms_other k v s : setting k (set_transforms v s) = setting k s.
Proof. keys. Qed.
Lemma set_only_other k v s : setting k (set_only v s) = setting k s.
Proof. keys. Qed.
Lemma set_hl_other k v s : k <> "highlights" -> setting k (set_hl v s) = setting k s.
Proof. intros. keys. Qed.
Lemma set_mode_other k v n s : k <> "exec_mode" -> setting k (set_mode v n s) = setting k s.
Proof. intros. keys. Qed.
Lemma set_sched_other k v s : k <> "exec_schedule" -> setting k (set_sched v s) = setting k s.
Proof. intros. keys. Qed.
Lemma set_order_other k v s : k <> "flow_order" -> setting k (set_order v s) = setting k s.
Proof. intros. keys. Qed.
Lemma set_react_other k v s : k <> "reactivity_mode" -> setting k (set_react v s) = setting k s.
Proof. intros. keys. Qed.

Lemma hl_other k cmd line s : k <> "highlights" -> setting k (fst (set_highlights cmd line s)) = setting k s.
Proof.
  intros K. unfold set_highlights.
  repeat match goal with |- context[if ?b then _ else _] => destruct b end; cbn [fst]; auto; apply set_hl_other; auto.
Qed.
Lemma mode_other k ctr line s : k <> "exec_mode" -> setting k (fst (set_exec_mode ctr line s)) = setting k s.
Proof. intros K. unfold set_exec_mode. cbn [fst]. apply set_mode_other; auto. Qed.
Lemma sched_other k line s : k <> "exec_schedule" -> setting k (fst (set_exec_schedule line s)) = setting k s.
Proof.
  intros K. unfold set_exec_schedule.
  repeat match goal with |- context[if ?b then _ else _] => destruct b end; cbn [fst]; auto; apply set_sched_other; auto.
Qed.
Lemma order_other k line s : k <> "flow_order" -> setting k (fst (set_flow_direction line s)) = setting k s.
Proof.
  intros K. unfold set_flow_direction.
  repeat match goal with |- context[if ?b then _ else _] => destruct b end; cbn [fst]; auto; apply set_order_other; auto.
Qed.
Lemma react_other k line s : k <> "reactivity_mode" -> k <> "exec_schedule" ->
  setting k (fst (set_reactivity line s)) = setting k s.
Proof.
  intros K K'. unfold set_reactivity. destruct (one_of _ _); auto. destruct (to_react _); cbn [fst].
  - apply set_react_other; auto.
  - destruct (negb _); cbn [fst]; rewrite set_react_other by auto; auto. apply set_sched_other; auto.
Qed.
Lemma dataflow_other k line s : setting k (fst (toggle_dataflow line s)) = setting k s.
Proof.
  unfold toggle_dataflow. destruct (one_of _ _); cbn [fst]; [rewrite set_only_other, set_dataflow_other; auto|].
  destruct (one_of _ _); cbn [fst]; auto; apply set_dataflow_other.
Qed.
Lemma traces_other k line s : setting k (fst (trace_messages line s)) = setting k s.
Proof.
  unfold trace_messages. repeat match goal with |- context[if ?b then _ else _] => destruct b end; cbn [fst]; auto;
    apply set_traces_other.
Qed.

Ltac known cmd := match goal with
  | H : one_of cmd _ = true |- _ => apply one_of_In in H
  | H : String.eqb cmd _ = true |- _ => apply String.eqb_eq in H end.

(** A command leaves alone what it is not for. *)
Lemma handle_other k other ctr w line s : ~ command_for k w ->
  setting k (fst (handle other ctr w line s)) = setting k s.
Proof.
  intros N. unfold handle.
  assert (C : forall ws, In (k, ws) commands \/ In (k, ws) side_commands -> ~ In (dashes w) (map dashes ws)).
  { intros ws J I. apply N. exists ws. auto. }
  set (cmd := dashes w) in *. clearbody cmd.
  destruct (one_of cmd ["enable"; "disable"; "on"; "off"]); [apply dataflow_other|].
  destruct (one_of cmd silent); [auto|].
  destruct (String.eqb cmd "trace_messages"); [apply traces_other|].
  destruct (one_of cmd ["hls"; "nohls"; "highlight"; "highlights"]) eqn:B1.
  { apply hl_other. intros ->. apply one_of_In in B1.
    pose proof (C ["hls"; "highlight"; "highlights"] ltac:(simpl; auto 12)) as C1.
    pose proof (C ["nohls"] ltac:(simpl; auto 12)) as C2. simpl in *. intuition. }
  destruct (one_of cmd quiet); [auto|].
  destruct (one_of cmd ["mode"; "exec_mode"]) eqn:B2.
  { apply mode_other. intros ->. apply one_of_In in B2.
    pose proof (C ["mode"; "exec_mode"; "exec-mode"] ltac:(simpl; auto 12)) as C1. simpl in *. intuition. }
  destruct (one_of cmd ["schedule"; "exec_schedule"; "execution_schedule"]) eqn:B3.
  { apply sched_other. intros ->. apply one_of_In in B3.
    pose proof (C ["schedule"; "exec_schedule"; "exec-schedule"; "execution_schedule"; "execution-schedule"]
      ltac:(simpl; auto 12)) as C1. simpl in *. intuition. }
  destruct (one_of cmd ["direction"; "flow_direction"; "order"; "flow_order"; "semantics"; "flow_semantics"]) eqn:B4.
  { apply order_other. intros ->. apply one_of_In in B4.
    pose proof (C ["direction"; "flow_direction"; "flow-direction"; "order"; "flow_order"; "flow-order"; "semantics";
                   "flow_semantics"; "flow-semantics"] ltac:(simpl; auto 12)) as C1. simpl in *. intuition. }
  destruct (String.eqb cmd "reactivity") eqn:B5.
  { apply String.eqb_eq in B5. apply react_other; intros ->; subst cmd.
    - apply (C ["reactivity"]); simpl; auto 12.
    - apply (C ["reactivity"]); simpl; auto 12. }
  destruct (one_of cmd tracers); [auto|].
  destruct (ends "warn_ooo" cmd); [apply set_warn_other|].
  destruct (ends "lint_ooo" cmd); [apply set_lint_other|].
  destruct (String.eqb cmd "syntax_transforms").
  { cbn [fst]. destruct (_ || _)%bool; auto; apply set_transforms_other. }
  destruct (String.eqb cmd "syntax_transforms_only"); [apply set_only_other|].
  destruct (starts "register_annotation" cmd); [auto|].
  destruct (String.eqb cmd "toggle_reactivity") eqn:B6; [|auto].
  apply String.eqb_eq in B6. cbn [fst]. apply set_mode_other. intros ->. subst cmd.
  apply (C ["toggle_reactivity"; "toggle-reactivity"]); simpl; auto 12.
Qed.
Lemma magic_word other ctr line s : exists rest, magic other ctr line s = handle other ctr (word line) rest s.
Proof. unfold magic, word. destruct (split1 " " line) as [[a b]|]; eexists; reflexivity. Qed.

(** Warnings *)
Lemma handle_warn other ctr w line s : In Warn (snd (handle other ctr w line s)) ->
  fst (handle other ctr w line s) = s \/
  (dashes w = "reactivity" /\ strip (lower line) = "incremental" /\ schedule s = Dag /\
   fst (handle other ctr w line s) = set_react Incremental (set_sched Hybrid s)).
Proof.
  unfold handle. set (cmd := dashes w). clearbody cmd.
  destruct (one_of cmd ["enable"; "disable"; "on"; "off"]).
  { unfold toggle_dataflow. destruct (one_of (strip cmd) ["enable"; "on"]); [simpl; intuition discriminate|].
    destruct (one_of (strip cmd) ["disable"; "off"]); simpl; [intuition discriminate|auto]. }
  destruct (one_of cmd silent); [auto|].
  destruct (String.eqb cmd "trace_messages").
  { unfold trace_messages. repeat match goal with |- context[if ?b then _ else _] => destruct b end; simpl; auto; tauto. }
  destruct (one_of cmd ["hls"; "nohls"; "highlight"; "highlights"]).
  { unfold set_highlights. repeat match goal with |- context[if ?b then _ else _] => destruct b end; simpl; auto; tauto. }
  destruct (one_of cmd quiet); [auto|].
  destruct (one_of cmd ["mode"; "exec_mode"]).
  { unfold set_exec_mode. destruct (comm_open s); simpl; intuition discriminate. }
  destruct (one_of cmd ["schedule"; "exec_schedule"; "execution_schedule"]).
  { unfold set_exec_schedule. repeat match goal with |- context[if ?b then _ else _] => destruct b end; simpl; auto; tauto. }
  destruct (one_of cmd ["direction"; "flow_direction"; "order"; "flow_order"; "semantics"; "flow_semantics"]).
  { unfold set_flow_direction. repeat match goal with |- context[if ?b then _ else _] => destruct b end; simpl; auto; tauto. }
  destruct (String.eqb_spec cmd "reactivity").
  { unfold set_reactivity. destruct (one_of (strip (lower line)) ["batch"; "incremental"]) eqn:O; [|simpl; auto].
    apply one_of_In in O. destruct O as [O|[O|[]]]; rewrite <- O; simpl; [tauto|].
    destruct (schedule s) eqn:Sc; simpl; tauto. }
  destruct (one_of cmd tracers); [auto|].
  destruct (ends "warn_ooo" cmd); [simpl; tauto|].
  destruct (ends "lint_ooo" cmd); [simpl; tauto|].
  destruct (String.eqb cmd "syntax_transforms"); [simpl; tauto|].
  destruct (String.eqb cmd "syntax_transforms_only"); [simpl; tauto|].
  destruct (starts "register_annotation" cmd); [auto|].
  destruct (String.eqb cmd "toggle_reactivity"); [simpl; tauto|auto].
Qed.

(** Legal values *)
Lemma legal_HL s : (exists h, highlights s = HL h) -> legal s.
Proof.
  intros [h H] k v J. unfold json in J. rewrite H in J. simpl in J.
  assert (X : forall a b, In (a, b) documented -> In (k, v) [(a, v)] -> In v b -> exists vs, In (k, vs) documented /\ In v vs).
  { intros a b I1 [I2|[]] I3. injection I2 as ->. eauto. }
  destruct J as [J|[J|[J|[J|[J|[J|[J|[]]]]]]]]; injection J as <- <-.
  - eexists. split; [left; reflexivity|]. destruct h; simpl; auto.
  - eexists. split; [right; left; reflexivity|]. destruct (interface s); simpl; auto 20.
  - eexists. split; [do 2 right; left; reflexivity|]. destruct (exec_mode s); simpl; auto.
  - eexists. split; [do 3 right; left; reflexivity|]. destruct (schedule s); simpl; auto.
  - eexists. split; [do 4 right; left; reflexivity|]. destruct (flow_order s); simpl; auto.
  - eexists. split; [do 5 right; left; reflexivity|]. destruct (reactivity s); simpl; auto.
  - eexists. split; [do 6 right; left; reflexivity|]. destruct (color_scheme s); simpl; auto.
Qed.
Lemma handle_HL other ctr w line s : (exists h, highlights s = HL h) ->
  exists h, highlights (fst (handle other ctr w line s)) = HL h.
Proof.
  intros H. unfold handle, toggle_dataflow, trace_messages, set_highlights, set_exec_mode, set_exec_schedule,
    set_flow_direction, set_reactivity.
  set (cmd := dashes w). clearbody cmd.
  repeat (match goal with |- context[if ?b then _ else _] => destruct b end; cbn [fst]; try exact H; try (eexists; reflexivity)).
  all: destruct (to_react _); try exact H; match goal with |- context[if ?b then _ else _] => destruct b end; exact H.
Qed.
Lemma acts_HL other xs : forall s, (exists h, highlights s = HL h) -> exists h, highlights (acts other xs s) = HL h.
Proof.
  induction xs as [|x xs IH]; intros s H; auto. apply IH. destruct x as [ctr line|a|b]; simpl.
  - destruct (magic_word other ctr line s) as [rest ->]. apply handle_HL. auto.
  - unfold initialize. destruct (iface_eqb _ _); auto. simpl. eauto.
  - auto.
Qed.

(** Schedules *)
Lemma handle_compatible other ctr w line s :
  (In (dashes w) ["schedule"; "exec_schedule"; "execution_schedule"] -> starts "dag" line = false) ->
  compatible s -> compatible (fst (handle other ctr w line s)).
Proof.
  intros D H. unfold handle, toggle_dataflow, trace_messages, set_highlights, set_exec_mode, set_flow_direction.
  set (cmd := dashes w) in *. clearbody cmd.
  destruct (one_of cmd ["enable"; "disable"; "on"; "off"]);
    [repeat (match goal with |- context[if ?b then _ else _] => destruct b end; cbn [fst]; try exact H)|].
  destruct (one_of cmd silent); [auto|].
  destruct (String.eqb cmd "trace_messages");
    [repeat (match goal with |- context[if ?b then _ else _] => destruct b end; cbn [fst]; try exact H)|].
  destruct (one_of cmd ["hls"; "nohls"; "highlight"; "highlights"]);
    [repeat (match goal with |- context[if ?b then _ else _] => destruct b end; cbn [fst]; try exact H)|].
  destruct (one_of cmd quiet); [auto|].
  destruct (one_of cmd ["mode"; "exec_mode"]); [exact H|].
  destruct (one_of cmd ["schedule"; "exec_schedule"; "execution_schedule"]) eqn:S.
  { apply one_of_In in S. specialize (D S). unfold set_exec_schedule. rewrite D.
    destruct (starts "liveness" line); [intros _; simpl; discriminate|].
    destruct (starts "hybrid" line); [intros _; simpl; discriminate|exact H]. }
  destruct (one_of cmd ["direction"; "flow_direction"; "order"; "flow_order"; "semantics"; "flow_semantics"]);
    [repeat (match goal with |- context[if ?b then _ else _] => destruct b end; cbn [fst]; try exact H)|].
  destruct (String.eqb cmd "reactivity").
  { unfold set_reactivity. destruct (one_of (strip (lower line)) ["batch"; "incremental"]); [|exact H]. destruct (to_react _).
    - intros E. discriminate E.
    - destruct (schedule s) eqn:Sc; simpl; intros _; simpl; try rewrite Sc; discriminate. }
  repeat (match goal with |- context[if ?b then _ else _] => destruct b end; cbn [fst]; try exact H).
Qed.
Lemma acts_compatible other xs : forall s, Forall chooses_well xs -> compatible s -> compatible (acts other xs s).
Proof.
  induction xs as [|x xs IH]; intros s F H; auto. inversion F as [|? ? F1 F2]; subst. apply IH; auto.
  destruct x as [ctr line|a|b]; simpl.
  - unfold magic. simpl in F1. unfold chooses_dag, word in F1.
    destruct (split1 " " line) as [[w r]|] eqn:S.
    + apply handle_compatible; auto. intros J. apply not_true_iff_false. intros X. apply F1. split; auto. eauto.
    + apply handle_compatible; auto.
  - unfold initialize. destruct (iface_eqb _ _); auto.
  - exact H.
Qed.

(** Documented values *)
Lemma split1_word w x : ~ In " "%char (list_ascii_of_string w) -> split1 " " (w ++ String " " x) = Some (w, x).
Proof.
  induction w as [|d w IH]; [reflexivity|]. cbn [append split1 list_ascii_of_string In].
  intros W. destruct (Ascii.eqb_spec " " d) as [E|E].
  - exfalso. apply W. left. auto.
  - rewrite IH; auto.
Qed.
Lemma magic_line other ctr w pad v pad' s c r : ~ In " "%char (list_ascii_of_string w) -> blank pad -> blank pad' ->
  v = String c r -> is_space c = false -> rstrip v = v -> ~ In ">"%char (list_ascii_of_string v) ->
  magic other ctr (w ++ " " ++ pad ++ v ++ pad') s = handle other ctr w v s.
Proof.
  intros W B B' V S R G. unfold magic.
  assert (E : split1 " " (w ++ " " ++ pad ++ v ++ pad') = Some (w, pad ++ v ++ pad')).
  { apply (split1_word w (pad ++ v ++ pad') W). }
  rewrite E. rewrite split1_None.
  - rewrite (strip_pad pad v pad' c r); auto. rewrite R. auto.
  - rewrite !list_ascii_app, !in_app_iff. intros [J|[J|J]]; [apply (blank_no_gt _ B J)|apply (G J)|apply (blank_no_gt _ B' J)].
Qed.

(** Stripping twice *)
Lemma rstrip_cons c s : rstrip (String c s) = match rstrip s with "" => if is_space c then "" else String c "" | r => String c r end.
Proof. reflexivity. Qed.
Lemma lstrip_head s : lstrip s = "" \/ exists c r, lstrip s = String c r /\ is_space c = false.
Proof. induction s as [|c s IH]; simpl; auto. destruct (is_space c) eqn:E; eauto. Qed.
Lemma rstrip_idem s : rstrip (rstrip s) = rstrip s.
Proof.
  induction s as [|c s IH]; auto. rewrite rstrip_cons. destruct (rstrip s) as [|d r] eqn:E.
  - destruct (is_space c) eqn:S; auto. simpl. rewrite S. auto.
  - rewrite rstrip_cons, IH. auto.
Qed.
Lemma strip_strip s : rstrip (lstrip (strip s)) = strip s.
Proof.
  unfold strip. destruct (lstrip_head s) as [->|(c & r & -> & S)]; auto.
  rewrite rstrip_cons. destruct (rstrip r) as [|d q] eqn:E.
  - rewrite S. cbn [lstrip]. rewrite S. cbn [rstrip]. rewrite S. auto.
  - cbn [lstrip]. rewrite S. rewrite rstrip_cons, <- E, rstrip_idem, E. auto.
Qed.
Lemma mode_word line :
  to_mode (Some (strip (if String.eqb (strip line) "normal" then "lazy" else strip line))) =
  if one_of (strip line) ["lazy"; "normal"] then Lazy else Reactive.
Proof.
  pose proof (strip_strip line) as L. change (strip (strip line) = strip line) in L.
  set (x := strip line) in *. clearbody x. unfold one_of, existsb. rewrite orb_false_r.
  destruct (String.eqb_spec x "normal") as [->|N]; [reflexivity|]. rewrite orb_false_r, L.
  unfold to_mode, of_value. cbn [find modes mode_value]. rewrite (String.eqb_sym "lazy" x).
  destruct (String.eqb x "lazy"); auto. destruct (String.eqb "reactive" x); auto.
Qed.

Lemma lower1_upper c d : upper_of c d -> lower1 c = d /\ lower1 d = d.
Proof.
  intros [H E]. unfold lower1. split.
  - replace (Nat.leb 65 (nat_of_ascii c) && Nat.leb (nat_of_ascii c) 90)%bool with true.
    + rewrite <- E. apply ascii_nat_embedding.
    + symmetry. apply andb_true_iff. split; apply Nat.leb_le; lia.
  - rewrite E. replace (Nat.leb (nat_of_ascii c + 32) 90) with false; [rewrite andb_false_r; auto|].
    symmetry. apply Nat.leb_gt. lia.
Qed.
Lemma lower1_same c d : same_letter c d -> lower1 c = lower1 d.
Proof.
  intros [->|[H|H]]; auto; apply lower1_upper in H; destruct H; congruence.
Qed.
Lemma lower_same a : forall b, same_but_case a b -> lower a = lower b.
Proof.
  unfold same_but_case. induction a as [|c a IH]; intros [|d b] H; simpl in *; inversion H; subst; auto.
  f_equal; [apply lower1_same|apply IH]; auto.
Qed.
Lemma split1_app a : forall b, ~ In ">"%char (list_ascii_of_string a) ->
  split1 ">" (a ++ ">" ++ b) = Some (a, b).
Proof.
  induction a as [|c a IH]; intros b H; [reflexivity|]. cbn [split1 append list_ascii_of_string] in *.
  destruct (Ascii.eqb_spec ">" c) as [E|E]; [destruct H; left; auto|].
  change (append (String ">" "") b) with (">" ++ b). rewrite IH; auto. intros K. apply H. right. auto.
Qed.
Lemma split1_none c a : ~ In c (list_ascii_of_string a) -> split1 c a = None.
Proof.
  induction a as [|d a IH]; intros H; [reflexivity|]. cbn [split1 list_ascii_of_string] in *.
  destruct (Ascii.eqb_spec c d) as [E|E]; [destruct H; left; auto|]. rewrite IH; auto. intros K. apply H. right. auto.
Qed.
Lemma split1_first c a : forall b, ~ In c (list_ascii_of_string a) -> split1 c (a ++ String c b) = Some (a, b).
Proof.
  induction a as [|d a IH]; intros b H; cbn [split1 append list_ascii_of_string] in *.
  - rewrite Ascii.eqb_refl. auto.
  - destruct (Ascii.eqb_spec c d) as [E|E]; [destruct H; left; auto|]. rewrite IH; auto. intros K. apply H. right. auto.
Qed.
