(** C106. *)
From Coq Require Import List Arith Bool.
From Verif Require Import Base KindModel KindSpec KindProofs.
Import ListNotations.

(** Example world: object 9 is a module; objects 50, 51 are functions of the
    definitions 0, 1. *)
Definition w_mod (o : nat) : bool := o =? 9.
Definition w_code (o : nat) : option nat :=
  if o =? 50 then Some 0 else if o =? 51 then Some 1 else None.

(** The kind of a symbol is that of its last binding, over all histories in which
    the name is never rebound while it is a module and imports replace only
    imports. *)
Theorem C106_kind_partial : forall modobj x h,
  always (usual modobj x) h ->
  option_map knd (dget (run modobj h) x) = last_kind modobj x h.
Proof. intros. symmetry. now apply run_kind. Qed.
Print Assumptions C106_kind_partial.

(** [x = 5; def x(): ...; class x: ...; del x; from m import x; from m import x] *)
Definition w_hist : list event :=
  [Assign false 1 5 []; Def 1 0 50 []; DefClass 1 6; Del 1; ImportName 1 7; ImportName 1 8].
Example C106_kind_example :
  always (usual w_mod 1) w_hist /\ last_kind w_mod 1 w_hist = Some Import /\
  last_kind w_mod 1 (firstn 2 w_hist) = Some Function.
Proof.
  split; [|split; reflexivity]. intros h1 e h2 E. unfold w_hist in E.
  destruct h1 as [|a [|b [|c [|f [|g [|i [|j h1]]]]]]]; cbn [app] in E; inversion E; subst; clear E;
    try (cbn; intros _; split; [discriminate|]; intros; (discriminate || auto)); try (cbn; exact I).
Qed.

(** The object of a symbol is the variable's, over all histories. *)
Theorem C106_object_partial : forall modobj h x,
  option_map obj (dget (run modobj h) x) = env_of h x.
Proof. intros. symmetry. apply run_env. Qed.
Print Assumptions C106_object_partial.

Example C106_object_example : env_of w_hist 1 = Some 8 /\ env_of (firstn 4 w_hist) 1 = None.
Proof. split; reflexivity. Qed.

(** The body that is followed for a call of a name is that of the function the
    name is bound to, and none is followed if it is no function, over all
    histories with these two conditions. *)
Theorem C106_body_partial : forall modobj code h x,
  always (tracked code) h -> always (nameless modobj) h ->
  followed (run modobj h) x = runs code (env_of h) x.
Proof. exact run_follows. Qed.
Print Assumptions C106_body_partial.

(** [def f(): ...; def g(): ...; h = f; h = g; import m; del f; f = 5] *)
Definition w_hist2 : list event :=
  [Def 1 0 50 []; Def 2 1 51 []; Assign false 3 50 [1]; Assign false 3 51 [2];
   MakeModule 4 9; Del 1; Assign false 1 5 []].
Example C106_body_example :
  always (tracked w_code) w_hist2 /\ always (nameless w_mod) w_hist2 /\
  runs w_code (env_of w_hist2) 3 = Some 1 /\ runs w_code (env_of w_hist2) 1 = None /\
  runs w_code (env_of (firstn 3 w_hist2)) 3 = Some 0.
Proof.
  split; [|split; [|repeat split; reflexivity]]; intros h1 e h2 E; unfold w_hist2 in E;
    destruct h1 as [|a [|b [|c [|f [|g [|i [|j [|k h1]]]]]]]]; cbn [app] in E; inversion E; subst; clear E;
    cbn; try reflexivity; try exact I; try (split; reflexivity).
  - right. split; [discriminate|]. exists 1. repeat split; auto.
  - right. split; [discriminate|]. exists 2. repeat split; auto.
  - left. reflexivity.
Qed.

(** A function definition takes effect at once, whatever the history, unless the
    name is a module's. *)
Theorem C106_def_partial : forall modobj h x d o,
  was_module modobj x h = false ->
  followed (run modobj (h ++ [Def x d o []])) x = Some d.
Proof. exact def_follows. Qed.
Print Assumptions C106_def_partial.

Example C106_def_example :
  was_module w_mod 4 (w_hist2 ++ [Del 4]) = false /\ was_module w_mod 4 w_hist2 = true.
Proof. split; reflexivity. Qed.

(** Binding or deleting a name changes no other symbol. *)
Theorem C106_others_partial : forall modobj h e z,
  z <> target e -> dget (run modobj (h ++ [e])) z = dget (run modobj h) z.
Proof. intros. rewrite run_snoc. apply step_other; auto. apply run_wf. Qed.
Print Assumptions C106_others_partial.

Example C106_others_example : 2 <> target (Del 1) /\ dget (run w_mod w_hist2) 2 <> None.
Proof. split; discriminate. Qed.

(** [def f(): ...], then [f = 5], or a class [f]: the old body is followed. *)
Theorem C106_stale_refuted :
  exists modobj code h1 h2,
    always (nameless modobj) h1 /\ always (nameless modobj) h2 /\
    runs code (env_of h1) 1 = None /\ followed (run modobj h1) 1 = Some 0 /\
    runs code (env_of h2) 1 = None /\ followed (run modobj h2) 1 = Some 0.
Proof.
  exists w_mod, w_code, [Def 1 0 50 []; Assign false 1 5 []], [Def 1 0 50 []; DefClass 1 6].
  split; [|split; [|repeat split; reflexivity]]; intros h1 e h2 E;
    destruct h1 as [|a [|b [|c h1]]]; cbn [app] in E; inversion E; subst; clear E; cbn; auto.
Qed.
Print Assumptions C106_stale_refuted.

(** [import m; def m(): ...]: the symbol stays a module, and the body is not
    followed. *)
Theorem C106_module_refuted :
  exists modobj code h,
    always (tracked code) h /\
    last_kind modobj 1 h = Some Function /\ option_map knd (dget (run modobj h) 1) = Some Module /\
    runs code (env_of h) 1 = Some 0 /\ followed (run modobj h) 1 = None.
Proof.
  exists w_mod, w_code, [MakeModule 1 9; Def 1 0 50 []].
  split; [|repeat split; reflexivity]. intros h1 e h2 E.
  destruct h1 as [|a [|b [|c h1]]]; cbn [app] in E; inversion E; subst; clear E; cbn; auto.
Qed.
Print Assumptions C106_module_refuted.

(** [x = 5; from m import x]: the symbol stays a plain variable's.  And [g = f;
    from m import g] keeps following [f]. *)
Theorem C106_import_refuted :
  exists modobj code h1 h2,
    last_kind modobj 1 h1 = Some Import /\
    option_map knd (dget (run modobj h1) 1) = Some Default /\
    runs code (env_of h2) 2 = None /\ followed (run modobj h2) 2 = Some 0.
Proof.
  exists w_mod, w_code, [Assign false 1 5 []; ImportName 1 6],
    [Def 1 0 50 []; Assign false 2 50 [1]; ImportName 2 6].
  repeat split; reflexivity.
Qed.
Print Assumptions C106_import_refuted.

(** A function that comes from no variable: it is not followed. *)
Theorem C106_unknown_refuted :
  exists modobj code h,
    always (nameless modobj) h /\
    runs code (env_of h) 2 = Some 0 /\ followed (run modobj h) 2 = None.
Proof.
  exists w_mod, w_code, [Assign false 1 5 []; Assign false 2 50 [1]].
  split; [|repeat split; reflexivity]. intros h1 e h2 E.
  destruct h1 as [|a [|b [|c h1]]]; cbn [app] in E; inversion E; subst; clear E; cbn; auto.
Qed.
Print Assumptions C106_unknown_refuted.
