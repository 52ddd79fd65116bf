(** C104: imports give symbols to what they bind. *)
From Coq Require Import List Arith Bool.
From Verif Require Import Base ImportModel ImportSpec ImportProofs.
Import ListNotations.

(** Package 1 (object 10) with the module 1.2 (object 12); module 3 (object
    30); package 4 (object 40), whose 4.5 is the module named 6 (object 60), as
    [os.path] is [posixpath]. *)
Definition w0 : world := mkW
  (fun p => match p with
            | [1] => Some 10 | [1; 2] => Some 12 | [3] => Some 30
            | [4] => Some 40 | [4; 5] => Some 60 | [6] => Some 60 | _ => None
            end)
  (fun o => match o with 10 => [1] | 12 => [1; 2] | 30 => [3] | 40 => [4] | _ => [6] end)
  (fun _ => false).

Definition att0 (p : list nat) (n : nat) : option nat :=
  match p, n with [1], 2 => Some 12 | [1], 7 => Some 17 | [3], 8 => Some 38 | _, _ => None end.

Definition none : nat -> option nat := fun _ => None.

(** Apart from [import a.b], what a statement binds has a symbol with its
    object. *)
Theorem C104_bound_partial : forall w att env i s x o,
  simple i -> binds w att i = Some (x, o) ->
  var (trace w (after w att i env) i s) x = Some o.
Proof.
  intros w att env i s x o SI B.
  destruct (trace_var w (after w att i env) i s x) as (A & _).
  apply (A (target_binds w att i x o SI B)). unfold after. rewrite B. unfold bind. now rewrite Nat.eqb_refl.
Qed.
Print Assumptions C104_bound_partial.

Example C104_bound_case :
  simple (From [1] 2 (Some 9)) /\ binds w0 att0 (From [1] 2 (Some 9)) = Some (9, 12) /\
  var (trace w0 (after w0 att0 (From [1] 2 (Some 9)) none) (From [1] 2 (Some 9)) []) 9 = Some 12.
Proof. repeat split. Qed.

(** [import a.b] gives a symbol to [a] if the package had none under any name,
    and the module goes by the name it is imported under. *)
Theorem C104_dotted_partial : forall w att env c r s m o,
  r <> [] -> sysmods w (c :: r) = Some m -> name_of w m = c :: r -> special w m = false ->
  sysmods w [c] = Some o -> (forall k, ~ In (k, o) s) ->
  var (trace w (after w att (Import (c :: r) None) env) (Import (c :: r) None) s) c = Some o.
Proof.
  intros w att env c r s m o R SM N SP S A. apply alias_none in A. unfold trace, var. cbn [module_of as_name]. rewrite SM.
  assert (T : target (Import (c :: r) None) = None) by (destruct r; [contradiction|reflexivity]).
  rewrite T. exact (create_new w true m s c r o SP N S A).
Qed.
Print Assumptions C104_dotted_partial.

Example C104_dotted_case :
  let s := [((Frame, Bare 1), 99)] in
  name_of w0 12 = [1; 2] /\ (forall k, ~ In (k, 10) s) /\
  var (trace w0 (after w0 att0 (Import [1; 2] None) none) (Import [1; 2] None) s) 1 = Some 10.
Proof. repeat split. intros k [E|[]]. discriminate E. Qed.

(** What a statement does not bind keeps its symbol, except the name of the
    package if there is no [as] and the package has no symbol. *)
Theorem C104_others_partial : forall w att env i s x,
  (forall o, binds w att i <> Some (x, o)) -> simple i -> binds w att i <> None ->
  (top w i = Some x -> forall o, sysmods w [x] = Some o -> exists k, In (k, o) s) ->
  var (trace w (after w att i env) i s) x = var s x.
Proof.
  intros w att env i s x NB SI B T.
  destruct (trace_var w (after w att i env) i s x) as (_ & A).
  destruct (binds w att i) as [[y o]|] eqn:E; [|contradiction].
  assert (TX : target i <> Some x).
  { rewrite (target_binds w att i y o SI E). intros H. injection H as ->. now apply (NB o). }
  destruct (A TX) as [H|(TO & o1 & S & AL & _)]; [auto|].
  exfalso. destruct (T TO o1 S) as (k & I). now apply (proj1 (alias_none s o1) AL k).
Qed.
Print Assumptions C104_others_partial.

Example C104_others_case :
  let s := [((Frame, Bare 3), 99); ((Frame, Bare 1), 10)] in
  var (trace w0 (after w0 att0 (From [1] 7 None) none) (From [1] 7 None) s) 3 = Some 99 /\
  top w0 (From [1] 7 None) = Some 1 /\ sysmods w0 [1] = Some 10 /\ In ((Frame, Bare 1), 10) s.
Proof. repeat split. right. now left. Qed.

(** All symbols made or changed on the way, in namespaces too, are modules under
    their names. *)
Theorem C104_modules_partial : forall w named m s k o,
  get (fst (create w named m s)) k = Some o ->
  get s k = Some o \/
  exists p c q, name_of w m = p ++ c :: q /\ sysmods w (p ++ [c]) = Some o /\
    (snd k = Bare c \/ (snd k = Angle c /\ named = false)).
Proof.
  intros w named m s k o. unfold create. destruct (special w m); [auto|].
  intros G. exact (walk_modules w named (name_of w m) true Frame [] None s k o G).
Qed.
Print Assumptions C104_modules_partial.

Example C104_modules_case :
  fst (create w0 false 12 []) = [((Frame, Angle 1), 10); ((Ns 10, Bare 2), 12)].
Proof. reflexivity. Qed.

(** If a module and all packages on the way to it are loaded under their names,
    a symbol of the module is found or made. *)
Theorem C104_found_partial : forall w named m s,
  special w m = false -> name_of w m <> [] -> sysmods w (name_of w m) = Some m ->
  (forall p q, name_of w m = p ++ q -> p <> [] -> sysmods w p <> None) ->
  exists s' k, create w named m s = (s', Some k) /\ In (k, m) s'.
Proof.
  intros w named m s SP N S P. unfold create. rewrite SP.
  destruct (walk_found w named (name_of w m) true Frame [] None s N P) as (s' & k & o & W & O & I).
  cbn in O. rewrite S in O. injection O as <-. exists s', k. auto.
Qed.
Print Assumptions C104_found_partial.

Example C104_found_case :
  name_of w0 12 = [1; 2] /\ sysmods w0 [1; 2] = Some 12 /\ sysmods w0 [1] <> None /\
  create w0 true 12 [((Frame, Bare 9), 10)] =
    ([((Frame, Bare 9), 10); ((Ns 10, Bare 2), 12)], Some (Ns 10, Bare 2)).
Proof. repeat split. discriminate. Qed.

(** In a session of imports that do no harm, symbols and variables agree, and
    what was bound has a symbol. *)
Theorem C104_session_partial : forall w att is env s,
  in_sync env s -> all_harmless w att is env ->
  let r := session w att is env s in
  in_sync (fst r) (snd r) /\
  (forall i x o, In i is -> simple i -> binds w att i = Some (x, o) ->
     exists o', var (snd r) x = Some o' /\ fst r x = Some o').
Proof.
  intros w att is env s Y H r. pose proof (session_sync w att is env s Y H) as Q.
  split; [exact Q|]. intros i x o I SI B.
  pose proof (session_bound w att is env s i x o I SI B) as N. fold r in N, Q.
  destruct (var (snd r) x) as [o'|] eqn:V; [|contradiction]. exists o'. split; [auto|]. now apply Q.
Qed.
Print Assumptions C104_session_partial.

Definition is0 : list stmt := [Import [1; 2] None; From [1] 7 None; Import [3] (Some 5); From [3] 8 (Some 5); Import [4] None].

Example C104_session_case :
  in_sync none [] /\ all_harmless w0 att0 is0 none /\
  var (snd (session w0 att0 is0 none [])) 5 = Some 38 /\ var (snd (session w0 att0 is0 none [])) 1 = Some 10.
Proof.
  split; [intros x o H; discriminate|]. split; [|split; reflexivity].
  cbn [all_harmless is0].
  repeat split.
  all: try (intros c T o S; vm_compute in T; try discriminate T; injection T as <-; vm_compute in S |- *; exact S).
  all: intros c r E N; try discriminate E; injection E as <- <-; try (now destruct N); left; reflexivity.
Qed.

(** But [from json import dumps] gives the symbol of an unrelated variable
    [json] to the module. *)
Theorem C104_from_refuted :
  let s := [((Frame, Bare 3), 99)] in
  let env := bind none 3 99 in
  let i := From [3] 8 None in
  in_sync env s /\ binds w0 att0 i = Some (8, 38) /\
  after w0 att0 i env 3 = Some 99 /\ var (trace w0 (after w0 att0 i env) i s) 3 = Some 30.
Proof.
  cbv zeta. split; [|repeat split].
  intros x o. unfold var. cbn. destruct (Nat.eqb_spec 3 x) as [<-|].
  - intros E. cbn in E. injection E as <-. reflexivity.
  - cbn. destruct x as [|[|[|[|x]]]]; try discriminate. contradiction.
Qed.
Print Assumptions C104_from_refuted.

(** And after [import numpy as np] the statement [import numpy.linalg] binds
    [numpy] and gives it no symbol. *)
Theorem C104_dotted_refuted :
  let is := [Import [1] (Some 9); Import [1; 2] None] in
  fst (session w0 att0 is none []) 1 = Some 10 /\ var (snd (session w0 att0 is none [])) 1 = None.
Proof. split; reflexivity. Qed.
Print Assumptions C104_dotted_refuted.

(** And [import os.path] gives a symbol to [posixpath], which it does not bind,
    and none to [os], which it does. *)
Theorem C104_renamed_refuted :
  let r := session w0 att0 [Import [4; 5] None] none [] in
  fst r 4 = Some 40 /\ var (snd r) 4 = None /\ fst r 6 = None /\ var (snd r) 6 = Some 60.
Proof. repeat split. Qed.
Print Assumptions C104_renamed_refuted.

(** And if a package on the way is not in [sys.modules], no symbol is found but
    symbols have been made. *)
Theorem C104_missing_refuted :
  let w := mkW (fun p => match p with [1] => Some 10 | [1; 2; 3] => Some 13 | _ => None end)
               (fun o => if o =? 13 then [1; 2; 3] else [1]) (fun _ => false) in
  create w false 13 [] = ([((Frame, Angle 1), 10)], None).
Proof. reflexivity. Qed.
Print Assumptions C104_missing_refuted.
