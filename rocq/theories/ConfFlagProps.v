(** C34, continued: the switches, and the values given to the constructor and to an initialisation. *)
Require Import String Ascii List Bool Arith.
Import ListNotations.
Require Import Verif.Base Verif.ConfModel Verif.ConfSpec Verif.ConfProofs.
Local Open Scope string_scope.

(** [%flow enable] turns the capture on, and on completely; [%flow disable] turns it off. Nothing else that the
    frontend sees is changed, and no other command turns it on or off. *)
Theorem C34_switch : forall other ctr line s,
  let s' := fst (magic other ctr line s) in
  (In (word line) ["enable"; "on"] -> dataflow s' = true /\ transforms_only s' = false /\ json s' = json s) /\
  (In (word line) ["disable"; "off"] ->
     dataflow s' = false /\ transforms_only s' = transforms_only s /\ json s' = json s) /\
  (~ In (word line) ["enable"; "on"; "disable"; "off"] -> dataflow s' = dataflow s).
Proof.
  intros other ctr line s. cbv zeta. destruct (magic_word other ctr line s) as [rest ->].
  split; [|split].
  - intros W. simpl in W. destruct W as [<-|[<-|[]]]; repeat split.
  - intros W. simpl in W. destruct W as [<-|[<-|[]]]; repeat split.
  - intros N. unfold handle.
    destruct (one_of (dashes (word line)) ["enable"; "disable"; "on"; "off"]) eqn:E.
    { exfalso. apply N. revert E. generalize (word line). clear. intros w E. apply existsb_exists in E.
      destruct E as (x & J & E). apply String.eqb_eq in E.
      assert (D : forall y w, ~ In "_"%char (list_ascii_of_string y) -> dashes w = y -> w = y).
      { clear. induction y as [|c y IH]; intros [|d w] K H; simpl in H; try discriminate; auto.
        simpl in K. injection H as H1 H2. f_equal; [|apply IH; auto].
        destruct (Ascii.eqb_spec d "-"); auto. exfalso. apply K. auto. }
      simpl in J. repeat (destruct J as [J|J];
        [subst x; apply D in E; [subst; simpl; auto|simpl; intuition discriminate]|]). destruct J. }
    unfold trace_messages, set_highlights, set_exec_mode, set_exec_schedule, set_flow_direction, set_reactivity,
      toggle_reactivity.
    repeat match goal with
           | |- context[if ?b then _ else _] => destruct b
           | |- context[match ?b with Batch => _ | Incremental => _ end] => destruct b
           end; reflexivity.
Qed.
Print Assumptions C34_switch.

(** The other switches. [%flow syntax_transforms] with anything else changes nothing. *)
Theorem C34_flags : forall other ctr s,
  let after line := fst (magic other ctr line s) in
  warn_ooo (after "warn_ooo") = true /\ warn_ooo (after "warn-ooo") = true /\
  warn_ooo (after "no_warn_ooo") = false /\ warn_ooo (after "nowarn_ooo") = false /\
  lint_ooo (after "lint_ooo") = true /\ lint_ooo (after "lint-ooo") = true /\
  lint_ooo (after "no_lint_ooo") = false /\ lint_ooo (after "nolint_ooo") = false /\
  transforms (after "syntax_transforms enabled") = true /\ transforms (after "syntax_transforms on") = true /\
  transforms (after "syntax_transforms disabled") = false /\ transforms (after "syntax_transforms off") = false /\
  transforms (after "syntax_transforms") = transforms s /\
  transforms_only (after "syntax_transforms_only") = true /\
  traces (after "trace_messages on") = true /\ traces (after "trace_messages enable") = true /\
  traces (after "trace_messages off") = false /\ traces (after "trace_messages disable") = false.
Proof. intros other ctr s. cbv zeta. repeat split. Qed.
Print Assumptions C34_flags.

(** What is given for a setting, by its name. *)
Definition given_for (g : given) (k : string) : option string :=
  if String.eqb k "highlights" then match g_hl g with Some (HRaw v) => Some v | Some (HL h) => None | None => None end
  else if String.eqb k "exec_mode" then g_mode g
  else if String.eqb k "exec_schedule" then g_sched g
  else if String.eqb k "flow_order" then g_order g
  else if String.eqb k "reactivity_mode" then g_react g
  else if String.eqb k "color_scheme" then g_color g
  else None.
Definition init_for (a : init_args) (k : string) : option string :=
  if String.eqb k "highlights" then i_hl a
  else if String.eqb k "interface" then i_iface a
  else if String.eqb k "exec_mode" then i_mode a
  else if String.eqb k "exec_schedule" then i_sched a
  else if String.eqb k "flow_order" then i_order a
  else if String.eqb k "reactivity_mode" then i_react a
  else if String.eqb k "color_scheme" then i_color a
  else None.

(** The constructor takes each documented value that it is given, except the interface. *)
Theorem C34_construct_partial : forall g k vs v,
  In (k, vs) documented -> In v vs -> given_for g k = Some v -> setting k (construct g) = Some v.
Proof.
  intros g k vs v D V G. destruct g as [h i m sc o r c]. simpl in D.
  repeat (destruct D as [D|D]; [injection D as <- <-; cbv in G; simpl in V;
    repeat (destruct V as [V|V]; [subst v|]); try (exfalso; exact V);
    try discriminate; try (subst; reflexivity);
    destruct h as [[h|h]|]; try discriminate; injection G as ->; reflexivity|]).
  destruct D.
Qed.
Print Assumptions C34_construct_partial.
Example C34_construct_case : setting "flow_order" (construct (mkGiven None None None None (Some "any_order") None None)) =
  Some "any_order".
Proof. reflexivity. Qed.

(** An initialisation for another interface takes each documented value that it is given. *)
Theorem C34_initialize_partial : forall a s k vs v,
  In (k, vs) documented -> In v vs -> init_for a k = Some v ->
  (forall i, i_iface a = Some i -> setting "interface" s <> Some i) ->
  (exists i is, i_iface a = Some i /\ In ("interface", is) documented /\ In i is) ->
  setting k (initialize a s) = Some v.
Proof.
  intros a s k vs v D V G N (i & is & I & J & K). specialize (N i I).
  destruct a as [h f m sc o r c]. simpl in I. subst f.
  assert (E : iface_value (to_iface (Some i)) = i).
  { simpl in J. repeat (destruct J as [J|J]; [try discriminate; injection J as <-|]); try (exfalso; exact J).
    simpl in K. repeat (destruct K as [K|K]; [subst i; reflexivity|]). destruct K. }
  assert (Q : iface_eqb (interface s) (to_iface (Some i)) = false).
  { unfold iface_eqb. rewrite E. apply String.eqb_neq. intros X. apply N. unfold setting, json. simpl. congruence. }
  unfold initialize. cbn [i_iface]. rewrite Q. simpl in D.
  destruct D as [D|[D|[D|[D|[D|[D|[D|[]]]]]]]]; injection D as <- <-;
    cbv [init_for String.eqb Ascii.eqb Bool.eqb i_hl i_iface i_mode i_sched i_order i_react i_color] in G.
  2:{ injection G as <-. unfold setting, json. cbn [interface]. change (assoc "interface" _) with (Some (iface_value (to_iface (Some i)))). congruence. }
  all: subst; simpl in V; repeat (destruct V as [V|V]; [subst v; reflexivity|]); destruct V.
Qed.
Print Assumptions C34_initialize_partial.
Example C34_initialize_case :
  let s := construct (mkGiven None None None None None None None) in
  let a := mkInit None (Some "jupyterlab") None None (Some "any_order") None None in
  setting "interface" s = Some "unknown" /\ setting "flow_order" s = Some "in_order" /\
  setting "flow_order" (initialize a s) = Some "any_order" /\ setting "interface" (initialize a s) = Some "jupyterlab".
Proof. repeat split. Qed.
