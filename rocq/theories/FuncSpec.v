(** What the function made of a slice should do. *)
Require Import String List Bool Arith.
Import ListNotations.
Require Import Verif.Base Verif.LiveModel Verif.LiveSpec Verif.FuncModel.
Local Open Scope string_scope.
Local Open Scope list_scope.

(** What the notebook shows if the statements are run at the top of a cell: the value of the last
    one if it is an expression. *)
Fixpoint cell_value (k : nat) (o : ops) (bi : env) (st : state) (prog : list stmt) : exn + val :=
  match prog with
  | [] => inr VNone
  | s :: rest =>
      match s, rest with
      | SExpr e, [] => eval o bi [] st e
      | _, _ =>
          match exec k o bi [] s st with
          | (ORaise x, _) => inl x
          | (OReturn v, _) => inr v
          | (ONormal, st') => cell_value k o bi st' rest
          end
      end
  end.

(** The global variables, some of them with other values. *)
Definition override (G : env) (m : string -> option val) : env :=
  fun x => match m x with Some v => Some v | None => G x end.

(** ** The slices that are handled *)

Fixpoint simple_expr (e : expr) : Prop :=
  match e with
  | EConst _ | EName _ => True
  | EBin l r => simple_expr l /\ simple_expr r
  | EList es | EOp es => fold_right (fun e Q => simple_expr e /\ Q) True es
  | ECond es => es <> [] /\ fold_right (fun e Q => simple_expr e /\ Q) True es
  | _ => False
  end.

(** Assignments to names, expressions, [if] and [while] (without [else]). *)
Fixpoint simple (s : stmt) : Prop :=
  match s with
  | SPass => True
  | SExpr e => simple_expr e
  | SAssign ts e => all (fun t => exists x, t = EName x) ts /\ simple_expr e
  | SAug t e => (exists x, t = EName x) /\ simple_expr e
  | SIf e a b =>
      simple_expr e /\ fold_right (fun s Q => simple s /\ Q) True a /\
      fold_right (fun s Q => simple s /\ Q) True b
  | SWhile e a b => simple_expr e /\ fold_right (fun s Q => simple s /\ Q) True a /\ b = []
  | _ => False
  end.

(** The last line is a statement of its own; or the last statement is no expression, and its last
    line does not look like one. *)
Definition ends_well (text : list block) : Prop :=
  (exists before s, text = before ++ [Line [s]]) \/
  exists before s t, text = before ++ [Multi s t] /\ is_expr s = false /\
    forall s', t = Some s' -> is_expr s' = false.

(** The slice does not read [sys]; nor does it both read and assign a variable that has the name of
    a builtin or of a loaded module. *)
Definition no_clash (excluded : string -> bool) (prog : list stmt) : Prop :=
  forall x, excluded x = true -> In x (flat_map snames prog) ->
    x <> "sys" /\ ~ In x (flat_map sbinds prog).
