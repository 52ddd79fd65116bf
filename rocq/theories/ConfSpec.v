(** Documented settings and commands. *)
Require Import String Ascii List Bool Arith.
Import ListNotations.
Require Import Verif.Base Verif.ConfModel.
Local Open Scope string_scope.

(** The values that each setting may have. *)
Definition documented : list (string * list string) :=
  [("highlights", ["all"; "none"; "executed"; "reactive"]);
   ("interface", ["bento"; "colab"; "databricks"; "datalore"; "deepnote"; "hex"; "ipython"; "jupyter"; "jupyterlab";
                  "noteable"; "vscode"; "unknown"]);
   ("exec_mode", ["lazy"; "reactive"]);
   ("exec_schedule", ["liveness_based"; "dag_based"; "hybrid_dag_liveness_based"]);
   ("flow_order", ["any_order"; "in_order"]);
   ("reactivity_mode", ["batch"; "incremental"]);
   ("color_scheme", ["normal"; "classic"])].
Definition legal (s : settings) : Prop :=
  forall k v, In (k, v) (json s) -> exists vs, In (k, vs) documented /\ In v vs.

(** The value of a setting, by its name. *)
Fixpoint assoc (k : string) (l : list (string * string)) : option string :=
  match l with [] => None | (k', v) :: l => if String.eqb k k' then Some v else assoc k l end.
Definition setting (k : string) (s : settings) : option string := assoc k (json s).

(** The commands that set something to the value that is written after them. *)
Definition commands : list (string * list string) :=
  [("highlights", ["hls"; "highlight"; "highlights"]);
   ("exec_mode", ["mode"; "exec_mode"; "exec-mode"]);
   ("exec_schedule", ["schedule"; "exec_schedule"; "exec-schedule"; "execution_schedule"; "execution-schedule"]);
   ("flow_order", ["direction"; "flow_direction"; "flow-direction"; "order"; "flow_order"; "flow-order"; "semantics";
                   "flow_semantics"; "flow-semantics"]);
   ("reactivity_mode", ["reactivity"])].
(** Other commands that change a setting. *)
Definition side_commands : list (string * list string) :=
  [("highlights", ["nohls"]); ("exec_mode", ["toggle_reactivity"; "toggle-reactivity"]); ("exec_schedule", ["reactivity"])].
(** First word of a line, and whether it is a command for the setting. *)
Definition word (line : string) : string := match split1 " " line with Some (w, _) => w | None => line end.
Definition command_for (k w : string) : Prop :=
  exists ws, (In (k, ws) commands \/ In (k, ws) side_commands) /\ In (dashes w) (map dashes ws).

Definition blank (s : string) : Prop := forall c, In c (list_ascii_of_string s) -> is_space c = true.

(** Incremental reactivity needs a schedule that knows liveness. *)
Definition compatible (s : settings) : Prop := reactivity s = Incremental -> schedule s <> Dag.
(** Actions that do not choose the DAG schedule, and initialisations that choose well. *)
Definition chooses_dag (line : string) : Prop :=
  In (dashes (word line)) ["schedule"; "exec_schedule"; "execution_schedule"] /\
  exists rest, split1 " " line = Some (word line, rest) /\
    starts "dag" (strip (match split1 ">" rest with Some (a, _) => a | None => rest end)) = true.
Definition chooses_well (x : action) : Prop :=
  match x with
  | Magic _ line => ~ chooses_dag line
  | Init a => to_react (i_react a) = Incremental -> to_sched (i_sched a) <> Dag
  | Opened _ => True
  end.

(** Letters and lines that differ at most in case. *)
Definition upper_of (c d : ascii) : Prop :=
  65 <= nat_of_ascii c <= 90 /\ nat_of_ascii d = nat_of_ascii c + 32.
Definition same_letter (c d : ascii) : Prop := c = d \/ upper_of c d \/ upper_of d c.
Definition same_but_case (a b : string) : Prop :=
  Forall2 same_letter (list_ascii_of_string a) (list_ascii_of_string b).
