(** Model of the settings and of the %flow commands that change them: config.py:9-80, flow.py:86-135,
    260-312 and 530-537, line_magics.py:83-209, 281-309, 399-470. *)
Require Import String Ascii List Bool Arith.
Import ListNotations.
Require Import Verif.Base.
Local Open Scope string_scope.

(** config.py:15-62. *)
Inductive mode := Lazy | Reactive.
Inductive sched := Liveness | Dag | Hybrid.
Inductive order := AnyOrder | InOrder.
Inductive hlight := HAll | HNone | HExecuted | HReactive.
Inductive react := Batch | Incremental.
Inductive iface := Bento | Colab | Databricks | Datalore | Deepnote | Hex | IPythonI | Jupyter | JupyterLab | Noteable
  | Vscode | Unknown.
Inductive color := Normal | Classic.

(** [.value] *)
Definition mode_value m := match m with Lazy => "lazy" | Reactive => "reactive" end.
Definition sched_value s := match s with
  | Liveness => "liveness_based" | Dag => "dag_based" | Hybrid => "hybrid_dag_liveness_based" end.
Definition order_value o := match o with AnyOrder => "any_order" | InOrder => "in_order" end.
Definition hlight_value h := match h with
  | HAll => "all" | HNone => "none" | HExecuted => "executed" | HReactive => "reactive" end.
Definition react_value r := match r with Batch => "batch" | Incremental => "incremental" end.
Definition iface_value i := match i with
  | Bento => "bento" | Colab => "colab" | Databricks => "databricks" | Datalore => "datalore"
  | Deepnote => "deepnote" | Hex => "hex" | IPythonI => "ipython" | Jupyter => "jupyter"
  | JupyterLab => "jupyterlab" | Noteable => "noteable" | Vscode => "vscode" | Unknown => "unknown" end.
Definition color_value c := match c with Normal => "normal" | Classic => "classic" end.

(** The call of an enum with a string or [None]: the member with this value, or by [_missing_],
    config.py:9-12, the default. *)
Definition of_value {M} (value : M -> string) (members : list M) (default : M) (v : option string) : M :=
  match v with
  | None => default
  | Some s => match find (fun m => String.eqb (value m) s) members with Some m => m | None => default end
  end.
Definition modes := [Lazy; Reactive].
Definition scheds := [Liveness; Dag; Hybrid].
Definition orders := [AnyOrder; InOrder].
Definition hlights := [HAll; HNone; HExecuted; HReactive].
Definition reacts := [Batch; Incremental].
Definition ifaces := [Bento; Colab; Databricks; Datalore; Deepnote; Hex; IPythonI; Jupyter; JupyterLab; Noteable;
  Vscode; Unknown].
Definition colors := [Normal; Classic].
Definition to_mode := of_value mode_value modes Reactive.
Definition to_sched := of_value sched_value scheds Dag.
Definition to_order := of_value order_value orders InOrder.
Definition to_hlight := of_value hlight_value hlights HExecuted.
Definition to_react := of_value react_value reacts Batch.
Definition to_iface := of_value iface_value ifaces Unknown.
Definition to_color := of_value color_value colors Normal.

(** [highlights] of the constructor is stored as it is given, flow.py:91. *)
Inductive hl := HL (h : hlight) | HRaw (s : string).
(** [mut_settings], without the settings that no command changes; [_min_new_ready_cell_counter]; whether
    a comm is open. *)
Record settings := mkS {
  dataflow : bool; traces : bool; highlights : hl; interface : iface; exec_mode : mode; schedule : sched;
  flow_order : order; reactivity : react; color_scheme : color; warn_ooo : bool; lint_ooo : bool;
  transforms : bool; transforms_only : bool; min_ready : nat; comm_open : bool
}.
Definition set_dataflow v s := mkS v (traces s) (highlights s) (interface s) (exec_mode s) (schedule s) (flow_order s)
  (reactivity s) (color_scheme s) (warn_ooo s) (lint_ooo s) (transforms s) (transforms_only s) (min_ready s) (comm_open s).
Definition set_traces v s := mkS (dataflow s) v (highlights s) (interface s) (exec_mode s) (schedule s) (flow_order s)
  (reactivity s) (color_scheme s) (warn_ooo s) (lint_ooo s) (transforms s) (transforms_only s) (min_ready s) (comm_open s).
Definition set_hl v s := mkS (dataflow s) (traces s) v (interface s) (exec_mode s) (schedule s) (flow_order s)
  (reactivity s) (color_scheme s) (warn_ooo s) (lint_ooo s) (transforms s) (transforms_only s) (min_ready s) (comm_open s).
Definition set_mode v n s := mkS (dataflow s) (traces s) (highlights s) (interface s) v (schedule s) (flow_order s)
  (reactivity s) (color_scheme s) (warn_ooo s) (lint_ooo s) (transforms s) (transforms_only s) n (comm_open s).
Definition set_sched v s := mkS (dataflow s) (traces s) (highlights s) (interface s) (exec_mode s) v (flow_order s)
  (reactivity s) (color_scheme s) (warn_ooo s) (lint_ooo s) (transforms s) (transforms_only s) (min_ready s) (comm_open s).
Definition set_order v s := mkS (dataflow s) (traces s) (highlights s) (interface s) (exec_mode s) (schedule s) v
  (reactivity s) (color_scheme s) (warn_ooo s) (lint_ooo s) (transforms s) (transforms_only s) (min_ready s) (comm_open s).
Definition set_react v s := mkS (dataflow s) (traces s) (highlights s) (interface s) (exec_mode s) (schedule s)
  (flow_order s) v (color_scheme s) (warn_ooo s) (lint_ooo s) (transforms s) (transforms_only s) (min_ready s) (comm_open s).
Definition set_warn v s := mkS (dataflow s) (traces s) (highlights s) (interface s) (exec_mode s) (schedule s)
  (flow_order s) (reactivity s) (color_scheme s) v (lint_ooo s) (transforms s) (transforms_only s) (min_ready s) (comm_open s).
Definition set_lint v s := mkS (dataflow s) (traces s) (highlights s) (interface s) (exec_mode s) (schedule s)
  (flow_order s) (reactivity s) (color_scheme s) (warn_ooo s) v (transforms s) (transforms_only s) (min_ready s) (comm_open s).
Definition set_transforms v s := mkS (dataflow s) (traces s) (highlights s) (interface s) (exec_mode s) (schedule s)
  (flow_order s) (reactivity s) (color_scheme s) (warn_ooo s) (lint_ooo s) v (transforms_only s) (min_ready s) (comm_open s).
Definition set_only v s := mkS (dataflow s) (traces s) (highlights s) (interface s) (exec_mode s) (schedule s)
  (flow_order s) (reactivity s) (color_scheme s) (warn_ooo s) (lint_ooo s) (transforms s) v (min_ready s) (comm_open s).

(** Python's string operations, for ASCII. *)
Definition is_space (c : ascii) : bool :=
  let n := nat_of_ascii c in (Nat.leb 9 n && Nat.leb n 13 || Nat.leb 28 n && Nat.leb n 32)%bool.
Definition lower1 (c : ascii) : ascii :=
  let n := nat_of_ascii c in if (Nat.leb 65 n && Nat.leb n 90)%bool then ascii_of_nat (n + 32) else c.
Fixpoint lower (s : string) : string := match s with "" => "" | String c s => String (lower1 c) (lower s) end.
Fixpoint lstrip (s : string) : string :=
  match s with "" => "" | String c s' => if is_space c then lstrip s' else s end.
Fixpoint rstrip (s : string) : string :=
  match s with
  | "" => ""
  | String c s => match rstrip s with "" => if is_space c then "" else String c "" | r => String c r end
  end.
Definition strip (s : string) : string := rstrip (lstrip s).
Definition starts (p s : string) : bool := prefix p s.
Definition ends (p s : string) : bool :=
  (Nat.leb (String.length p) (String.length s) &&
   String.eqb (substring (String.length s - String.length p) (String.length p) s) p)%bool.
Definition one_of (s : string) (l : list string) : bool := existsb (String.eqb s) l.
(** [s.split(c, 1)], if [c] occurs. *)
Fixpoint split1 (c : ascii) (s : string) : option (string * string) :=
  match s with
  | "" => None
  | String d s => if Ascii.eqb c d then Some ("", s)
                  else match split1 c s with Some (a, b) => Some (String d a, b) | None => None end
  end.
(** [replace("-", "_")] *)
Fixpoint dashes (s : string) : string :=
  match s with "" => "" | String c s => String (if Ascii.eqb c "-" then "_"%char else c) (dashes s) end.

Inductive event := Warn | Sent (mode : string) | Printed.
Definition result : Type := settings * list event.

(** line_magics.py:196-209. *)
Definition toggle_dataflow (line : string) (s : settings) : result :=
  let line := strip line in
  if one_of line ["enable"; "on"] then (set_only false (set_dataflow true s), [Printed])
  else if one_of line ["disable"; "off"] then (set_dataflow false s, [Printed])
  else (s, [Warn]).
(** [line.split()] with one word, line_magics.py:281-293. *)
Fixpoint no_space (s : string) : bool := match s with "" => true | String c s => (negb (is_space c) && no_space s)%bool end.
Definition trace_messages (line : string) (s : settings) : result :=
  let w := strip line in
  if (String.eqb w "" || negb (no_space w))%bool then (s, [Warn])
  else let w := lower w in
       if (String.eqb w "on" || starts "enable" w)%bool then (set_traces true s, [])
       else if (String.eqb w "off" || starts "disable" w)%bool then (set_traces false s, [])
       else (s, [Warn]).
(** line_magics.py:296-309. *)
Definition set_highlights (cmd rest : string) (s : settings) : result :=
  let rest := strip (lower rest) in
  if (String.eqb cmd "hls" || negb (String.eqb cmd "nohls"))%bool then
    if (String.eqb rest "" || String.eqb rest "on" || starts "enable" rest)%bool then (set_hl (HL HExecuted) s, [])
    else if (String.eqb rest "off" || starts "disable" rest)%bool then (set_hl (HL HNone) s, [])
    else if one_of rest (map hlight_value hlights) then (set_hl (HL (to_hlight (Some rest))) s, [])
    else (s, [Warn])
  else if String.eqb cmd "nohls" then (set_hl (HL HNone) s, [])
  else (s, []).
(** line_magics.py:399-419; [ctr]: [flow_.cell_counter()]. The cells that stop being ready are not modelled. *)
Definition set_exec_mode (ctr : nat) (line : string) (s : settings) : result :=
  let line := strip line in
  let line := if String.eqb line "normal" then "lazy" else line in
  let m := to_mode (Some (strip line)) in
  (set_mode m (ctr + 1) s, if comm_open s then [Sent (mode_value m)] else []).
(** line_magics.py:422-433. *)
Definition set_exec_schedule (line : string) (s : settings) : result :=
  if starts "liveness" line then (set_sched Liveness s, [])
  else if starts "dag" line then (set_sched Dag s, [])
  else if starts "hybrid" line then (set_sched Hybrid s, [])
  else (s, [Warn]).
(** line_magics.py:436-448. *)
Definition set_flow_direction (line : string) (s : settings) : result :=
  let line := strip (lower line) in
  if (starts "any" line || one_of line ["unordered"; "both"])%bool then (set_order AnyOrder s, [])
  else if (starts "in" line || one_of line ["ordered"; "linear"])%bool then (set_order InOrder s, [])
  else (s, [Warn]).
(** line_magics.py:451-470. *)
Definition supports_incremental (c : sched) : bool := match c with Liveness | Hybrid => true | Dag => false end.
Definition set_reactivity (line : string) (s : settings) : result :=
  let line := strip (lower line) in
  if one_of line ["batch"; "incremental"] then
    let r := to_react (Some line) in
    match r with
    | Incremental =>
        if negb (supports_incremental (schedule s)) then (set_react r (set_sched Hybrid s), [Warn])
        else (set_react r s, [])
    | Batch => (set_react r s, [])
    end
  else (s, [Warn]).
(** flow.py:530-537. *)
Definition toggle_reactivity (ctr : nat) (s : settings) : settings :=
  set_mode (match exec_mode s with Lazy => Reactive | Reactive => Lazy end) (ctr + 1) s.

(** [_handle], line_magics.py:88-157. Commands that change no setting are [other]: they may print or warn. *)
Definition silent : list string := ["deps"; "show_deps"; "show_dependency"; "show_dependencies"; "code"; "get_code";
  "waiting"; "show_waiting"].
Definition quiet : list string := ["dag"; "make_dag"; "cell_dag"; "make_cell_dag"; "slice"; "make_slice"; "gather_slice";
  "tag"; "show_tags"].
Definition tracers : list string := ["register"; "register_tracer"; "deregister"; "deregister_tracer"; "clear"].
Definition handle (other : string -> string -> list event) (ctr : nat) (cmd line : string) (s : settings) : result :=
  let cmd := dashes cmd in
  if one_of cmd ["enable"; "disable"; "on"; "off"] then toggle_dataflow cmd s
  else if one_of cmd silent then (s, other cmd line)
  else if String.eqb cmd "trace_messages" then trace_messages line s
  else if one_of cmd ["hls"; "nohls"; "highlight"; "highlights"] then set_highlights cmd line s
  else if one_of cmd quiet then (s, other cmd line)
  else if one_of cmd ["mode"; "exec_mode"] then set_exec_mode ctr line s
  else if one_of cmd ["schedule"; "exec_schedule"; "execution_schedule"] then set_exec_schedule line s
  else if one_of cmd ["direction"; "flow_direction"; "order"; "flow_order"; "semantics"; "flow_semantics"]
    then set_flow_direction line s
  else if String.eqb cmd "reactivity" then set_reactivity line s
  else if one_of cmd tracers then (s, other cmd line)
  else if ends "warn_ooo" cmd then (set_warn (negb (starts "no" cmd)) s, [])
  else if ends "lint_ooo" cmd then (set_lint (negb (starts "no" cmd)) s, [])
  else if String.eqb cmd "syntax_transforms" then
    let is_on := (ends "enabled" line || ends "on" line)%bool in
    let is_off := (ends "disabled" line || ends "off" line)%bool in
    (if (is_on || is_off)%bool then set_transforms is_on s else s, [])
  else if String.eqb cmd "syntax_transforms_only" then (set_only true s, [])
  else if starts "register_annotation" cmd then (s, other cmd line)
  else if String.eqb cmd "toggle_reactivity" then (toggle_reactivity ctr s, [])
  else (s, other cmd line).
(** [_flow_magic], line_magics.py:159-184. *)
Definition magic (other : string -> string -> list event) (ctr : nat) (line : string) (s : settings) : result :=
  let '(cmd, line) := match split1 " " line with Some p => p | None => (line, "") end in
  let line := match split1 ">" line with Some (a, _) => a | None => line end in
  handle other ctr cmd (strip line) s.

(** The constructor, flow.py:86-135. The keyword arguments win over the configuration; [None]: given in neither.
    [interface] is popped twice, so that the second time it is missing, 87 and 92. *)
Record given := mkGiven { g_hl : option hl; g_iface : option string; g_mode : option string; g_sched : option string;
  g_order : option string; g_react : option string; g_color : option string }.
Definition or_default {M} (f : option string -> M) (d : M) (v : option string) : M :=
  match v with Some s => f (Some s) | None => d end.
Definition construct (g : given) : settings :=
  mkS true false (match g_hl g with Some h => h | None => HL HExecuted end) Unknown
    (or_default to_mode Lazy (g_mode g)) (or_default to_sched Liveness (g_sched g)) (or_default to_order InOrder (g_order g))
    (or_default to_react Batch (g_react g)) (or_default to_color Normal (g_color g))
    false false true false 0 false.
(** [initialize], flow.py:260-312 and 340-346. [None]: given in neither place. Raw highlights cannot occur here.
    What is read for [dataflow_enabled] and the transforms is taken to be the default. *)
Record init_args := mkInit { i_hl : option string; i_iface : option string; i_mode : option string;
  i_sched : option string; i_order : option string; i_react : option string; i_color : option string }.
Definition iface_eqb (a b : iface) : bool := String.eqb (iface_value a) (iface_value b).
Definition initialize (a : init_args) (s : settings) : settings :=
  let i := to_iface (i_iface a) in
  if iface_eqb (interface s) i then s
  else mkS true (traces s) (HL (to_hlight (i_hl a))) i (to_mode (i_mode a)) (to_sched (i_sched a)) (to_order (i_order a))
         (to_react (i_react a)) (to_color (i_color a)) (warn_ooo s) (lint_ooo s) true false (min_ready s) (comm_open s).

(** What can happen in a session. *)
Inductive action := Magic (ctr : nat) (line : string) | Init (a : init_args) | Opened (b : bool).
Definition open_comm b s := mkS (dataflow s) (traces s) (highlights s) (interface s) (exec_mode s) (schedule s)
  (flow_order s) (reactivity s) (color_scheme s) (warn_ooo s) (lint_ooo s) (transforms s) (transforms_only s) (min_ready s) b.
Definition act (other : string -> string -> list event) (s : settings) (x : action) : settings :=
  match x with
  | Magic ctr line => fst (magic other ctr line s)
  | Init a => initialize a s
  | Opened b => open_comm b s
  end.
Definition acts (other : string -> string -> list event) (xs : list action) (s : settings) : settings :=
  fold_left (act other) xs s.

(** [to_json], config.py:65-73, for the settings with documented values. *)
Definition json (s : settings) : list (string * string) :=
  [("highlights", match highlights s with HL h => hlight_value h | HRaw v => v end);
   ("interface", iface_value (interface s)); ("exec_mode", mode_value (exec_mode s));
   ("exec_schedule", sched_value (schedule s)); ("flow_order", order_value (flow_order s));
   ("reactivity_mode", react_value (reactivity s)); ("color_scheme", color_value (color_scheme s))].
