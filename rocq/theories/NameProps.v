(** C108. *)
From Coq Require Import String Ascii List ZArith Bool DecimalString.
From Verif Require Import NameModel NameSpec NameProofs.
Import ListNotations.
Local Open Scope string_scope.

(** The displayed name of a symbol, read by Python, is the reference that leads to
    it: a variable, then attributes and subscripts of any number. *)
Theorem C108_reads_partial : forall x f l ns sub nm,
  identifier x = true -> Forall ordinary l -> Forall2 named ns l -> ordinary (sub, nm) ->
  read (qualified (rev ns ++ [mkNs x f]) nm sub) = Some ((false, NStr x) :: l ++ [(sub, nm)]).
Proof. exact qualified_reads. Qed.
Print Assumptions C108_reads_partial.

(** [data.rows[12][-1].x_1], where [data.rows[12]] was first bound as a variable. *)
Definition w_steps : list step := [(false, NStr "rows"); (true, NInt 12); (true, NInt (-1))].
Definition w_ns : list ns := [mkNs "rows" false; mkNs "12" false; mkNs "-1" true].
Example C108_reads_example :
  identifier "data" = true /\ Forall ordinary w_steps /\ Forall2 named w_ns w_steps /\
  ordinary (false, NStr "x_1") /\
  qualified (rev w_ns ++ [mkNs "data" true]) (NStr "x_1") false = "data.rows[12][-1].x_1".
Proof.
  split; [reflexivity|]. split; [repeat constructor|]. split; [|split; reflexivity].
  repeat (apply Forall2_cons; [split; [reflexivity|]|]); try apply Forall2_nil; cbn; auto.
  right. discriminate.
Qed.

(** A variable has its own name. *)
Theorem C108_variable_partial : forall x,
  identifier x = true -> read (qualified [] (NStr x) false) = Some [(false, NStr x)].
Proof. intros x H. cbn. rewrite <- (app_nil_s x) at 1. now apply (read_tails x []). Qed.
Print Assumptions C108_variable_partial.

Example C108_variable_example : identifier "_x1" = true /\ identifier "1x" = false.
Proof. split; reflexivity. Qed.

(** Two symbols with the same displayed name are reached in the same way. *)
Theorem C108_unique_partial : forall x f l ns sub nm x' f' l' ns' sub' nm',
  identifier x = true -> Forall ordinary l -> Forall2 named ns l -> ordinary (sub, nm) ->
  identifier x' = true -> Forall ordinary l' -> Forall2 named ns' l' -> ordinary (sub', nm') ->
  qualified (rev ns ++ [mkNs x f]) nm sub = qualified (rev ns' ++ [mkNs x' f']) nm' sub' ->
  x = x' /\ l = l' /\ sub = sub' /\ nm = nm'.
Proof.
  intros x f l ns sub nm x' f' l' ns' sub' nm' A B C D A' B' C' D' E.
  pose proof (qualified_reads x f l ns sub nm A B C D) as R.
  pose proof (qualified_reads x' f' l' ns' sub' nm' A' B' C' D') as R'.
  rewrite E, R' in R. injection R as EX EL. apply app_inj_tail in EL. destruct EL as (EL & ES).
  injection ES as <- <-. auto.
Qed.
Print Assumptions C108_unique_partial.

Example C108_unique_example :
  qualified (rev w_ns ++ [mkNs "data" true]) (NStr "x_1") false =
  qualified (rev [mkNs "rows" false; mkNs "12" true; mkNs "-1" true] ++ [mkNs "data" false]) (NStr "x_1") false.
Proof. reflexivity. Qed.

(** [d["a"]] is displayed as [d[a]], which is no constant reference; the statement
    made for a widget [d["w"]] reads the variable [w]. *)
Theorem C108_key_refuted :
  qualified [mkNs "d" false] (NStr "a") true = "d[a]" /\ read "d[a]" = None /\
  extra_stmt [mkNs "w" true; mkNs "d" false] (NStr "value") false "5" = "d[w].value = 5" /\
  read "d[w].value" = None.
Proof. repeat split. Qed.
Print Assumptions C108_key_refuted.

(** [d[1]] and [d["1"]] have the same displayed name. *)
Theorem C108_same_refuted :
  qualified [mkNs "d" false] (NInt 1) true = qualified [mkNs "d" false] (NStr "1") true /\ NInt 1 <> NStr "1".
Proof. split; [reflexivity|discriminate]. Qed.
Print Assumptions C108_same_refuted.

(** The namespace of an object that was in a list first and is an attribute too,
    and the other way round: [o[a].x] and [l.-1.x]. *)
Theorem C108_alias_refuted :
  qualified [mkNs "a" true; mkNs "o" false] (NStr "x") false = "o[a].x" /\ read "o[a].x" = None /\
  qualified [mkNs "-1" false; mkNs "l" false] (NStr "x") false = "l.-1.x" /\ read "l.-1.x" = None.
Proof. repeat split. Qed.
Print Assumptions C108_alias_refuted.
