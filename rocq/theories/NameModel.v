(** Model of the name that is displayed for a symbol:
    [core/ipyflow/data_model/scope.py] lines 493-510, [core/ipyflow/data_model/namespace.py]
    lines 178-184 and 228-239, [core/ipyflow/data_model/symbol.py] lines 422-424 and 625-627,
    and the statement that [_observe_widget] makes of it, lines 1196-1199.

    Names are strings or integers; other keys (tuples, booleans) are left out. *)
From Coq Require Import String Ascii List ZArith Bool DecimalString.
Import ListNotations.
Local Open Scope string_scope.

Inductive name := NStr (s : string) | NInt (z : Z).

(** [str(sym.name)]. *)
Definition show_int (z : Z) : string := NilZero.string_of_int (Z.to_int z).
Definition show (n : name) : string :=
  match n with NStr s => s | NInt z => show_int z end.

(** [str.isdecimal], of ASCII digits. *)
Definition is_digit (c : ascii) : bool := let n := nat_of_ascii c in (Nat.leb 48 n && Nat.leb n 57)%bool.
Fixpoint all (p : ascii -> bool) (s : string) : bool :=
  match s with EmptyString => true | String c s => (p c && all p s)%bool end.
Definition isdecimal (s : string) : bool := (negb (s =? "") && all is_digit s)%bool.

(** A namespace: its [scope_name], and [is_subscript], which is that of the first
    full symbol of its object (namespace.py 178-184). *)
Record ns := mkNs { scope_name : string; first_sub : bool }.

(** [full_namespace_path], scope.py 493-507, of a namespace followed by those
    around it up to a scope that is none. *)
Fixpoint path (l : list ns) : string :=
  match l with
  | [] => ""
  | n :: outer =>
      let prefix := path outer in
      if prefix =? "" then scope_name n
      else if (isdecimal (scope_name n) || first_sub n)%bool then prefix ++ "[" ++ scope_name n ++ "]"
      else prefix ++ "." ++ scope_name n
  end.

(** [make_namespace_qualified_name], namespace.py 228-239 and scope.py 509-510. *)
Definition qualified (l : list ns) (n : name) (sub : bool) : string :=
  match l with
  | [] => show n
  | _ =>
      if path l =? "" then show n
      else if (sub || isdecimal (show n))%bool then path l ++ "[" ++ show n ++ "]"
      else path l ++ "." ++ show n
  end.

(** symbol.py 1197: the text that is parsed as the new statement of the cell. *)
Definition extra_stmt (l : list ns) (n : name) (sub : bool) (newval : string) : string :=
  qualified l n sub ++ " = " ++ newval.
