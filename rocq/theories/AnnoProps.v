(** C43: a declared mutation hits the argument that Python binds to the parameter. *)
Require Import List Arith ZArith Bool Lia.
Import ListNotations.
Require Import Verif.Base Verif.Loops Verif.AnnoModel Verif.AnnoSpec Verif.AnnoProofs.
Local Open Scope nat_scope.

(** Functions: at every legal call, exactly the symbol of the argument bound to the declared parameter is updated;
    nothing if the parameter is not supplied. *)
Theorem C43_function : forall known f o p c,
  legal_sig (f_sig f) -> legal_call false (f_sig f) c -> f_returns f = RMutate o p -> declarable false (f_sig f) p ->
  exists h, compile_function known f false = Ok (Some h) /\ forall u, handle h c = Ok u <-> effect false (f_sig f) c o p u.
Proof.
  intros known f o p c L C R D. unfold compile_function. rewrite R. apply handle_effect; auto.
Qed.
Print Assumptions C43_function.
(** def f(p, /, q, r=None, *, s): ...  called as f(x, y, s=z) *)
Definition sg1 : signature := mkSig [11] [12; 13] None [14] None.
Definition call1 : calls := mkCall [[Some 101]; [Some 102]] [(14, [Some 103])].
Example C43_function_case : legal_sig sg1 /\ legal_call false sg1 call1 /\
  declarable false sg1 11 /\ declarable false sg1 12 /\ declarable false sg1 13 /\ declarable false sg1 14 /\
  effect false sg1 call1 true 11 [(TSymbol 101, true)] /\ effect false sg1 call1 false 14 [(TSymbol 103, false)] /\
  effect false sg1 call1 true 13 [].
Proof.
  assert (N : NoDup [11; 12; 13; 14]) by (repeat constructor; simpl; intuition congruence).
  assert (D : forall p, In p [11; 12; 13; 14] -> declarable false sg1 p).
  { intros p I. split; [|split; [|split; [exact I|discriminate]]]; intros ->; simpl in I; unfold n_module, n_self in I; lia. }
  split; [exact N|]. split; [|repeat (split; [apply D; simpl; auto|])].
  - intros [|[|[|i]]] p H I J; simpl in *; try (injection H as <-); auto; try lia. 
  - split; [|split].
    + left. exists (Some [Some 101]). split; [apply (by_position _ _ _ _ 0); reflexivity|reflexivity].
    + left. exists (Some [Some 103]). split; [apply by_keyword; simpl; auto|reflexivity].
    + right. split; auto. intros a [i a' A B|a' A B]; [|discriminate].
      assert (i = 2). { destruct i as [|[|[|i]]]; simpl in A; try discriminate; auto; destruct i; discriminate. } subst i. discriminate.
Qed.

(** Methods called through an object, except when the declared parameter is the first one under another name than self.
    Missing: calls through the class (C43_unbound_refuted), the first parameter (C43_first_refuted). *)
Theorem C43_method_partial : forall known f o p c,
  legal_sig (f_sig f) -> legal_call true (f_sig f) c -> f_returns f = RMutate o p -> declarable true (f_sig f) p ->
  exists h, compile_function known f true = Ok (Some h) /\ forall u, handle h c = Ok u <-> effect true (f_sig f) c o p u.
Proof.
  intros known f o p c L C R D. unfold compile_function. rewrite R. apply handle_effect; auto.
Qed.
Print Assumptions C43_method_partial.
(** def m(self, p, q): ...  called as obj.m(x, q=y) *)
Definition sg2 : signature := mkSig [] [1; 12; 13] None [] None.
Definition call2 : calls := mkCall [[Some 101]] [(13, [Some 103])].
Example C43_method_case : legal_sig sg2 /\ legal_call true sg2 call2 /\ declarable true sg2 12 /\ declarable true sg2 13 /\
  effect true sg2 call2 true 12 [(TSymbol 101, true)].
Proof.
  assert (N : NoDup [1; 12; 13]) by (repeat constructor; simpl; intuition congruence).
  assert (D : forall p, In p [12; 13] -> declarable true sg2 p).
  { intros p I. split; [|split; [|split; [right; exact I|intros _ E; injection E as <-; simpl in I; lia]]]; intros ->; simpl in I; unfold n_module, n_self in I; lia. }
  split; [exact N|]. split; [|repeat (split; [apply D; simpl; auto|])].
  - intros [|[|[|i]]] p H I J; simpl in *; try (injection H as <-); auto; try lia.
  - left. exists (Some [Some 101]). split; [apply (by_position _ _ _ _ 1); reflexivity|reflexivity].
Qed.

(** The names self (in methods) and __module__. *)
Theorem C43_special : forall known f o b c,
  (f_returns f = RMutate o n_module ->
   exists h, compile_function known f b = Ok (Some h) /\ handle h c = Ok [(TModule, o)]) /\
  (f_returns f = RMutate o n_self ->
   exists h, compile_function known f true = Ok (Some h) /\ handle h c = Ok [(TCaller, o)]).
Proof.
  intros known f o b c. split; intros R; unfold compile_function; rewrite R; eexists; split; reflexivity.
Qed.
Print Assumptions C43_special.

(** Several names: the effects of all of them, in the order of the names. *)
Theorem C43_several : forall known f o ps b c us,
  legal_sig (f_sig f) -> legal_call b (f_sig f) c -> f_returns f = RMutateTuple o (map Some ps) ->
  (forall p, In p ps -> declarable b (f_sig f) p) -> Forall2 (effect b (f_sig f) c o) ps us ->
  exists h, compile_function known f b = Ok (Some h) /\ handle h c = Ok (concat us).
Proof.
  intros known f o ps b c us L C R D E. unfold compile_function. rewrite R, names_of_some.
  destruct (multi_compile b (f_sig f) o ps []) as (hs & A & B).
  { intros p I. destruct (handle_effect b (f_sig f) c p o L C (D p I)) as (h & H & _). eauto. }
  rewrite A. cbn [rmap app]. eexists. split; [reflexivity|]. apply multi_handle.
  revert us E D. clear A R. induction B as [|p h ps hs H B IH]; intros us E D; inversion E; subst; constructor.
  - destruct (handle_effect b (f_sig f) c p o L C (D p (or_introl eq_refl))) as (h' & H' & W). exists h'. split; [congruence|]. apply W. auto.
  - apply IH; auto. intros q I. apply D. right. auto.
Qed.
Print Assumptions C43_several.
Example C43_several_case : Forall2 (effect false sg1 call1 true) [14; 13; 11] [[(TSymbol 103, true)]; []; [(TSymbol 101, true)]].
Proof.
  constructor; [|constructor; [|constructor; [|constructor]]]; apply C43_function_case || idtac.
  - left. exists (Some [Some 103]). split; [apply by_keyword; simpl; auto|reflexivity].
Qed.

(** A file of annotations: an annotation that cannot be compiled does not affect the others, and for each name the last
    one that can be compiled counts. *)
Theorem C43_isolated : forall known b l1 f l2 h n,
  compile_function known f b = Ok h -> In n (f_names f) ->
  (forall g, In g l2 -> In n (f_names g) -> exists e, compile_function known g b = Err e) ->
  dget (compile_all known b (l1 ++ f :: l2)) n = Some h.
Proof.
  intros known b l1 f l2 h n C N O. unfold compile_all. rewrite fold_left_app. cbn [fold_left]. rewrite C.
  set (d := fold_left _ (f_names f) _). assert (D : dget d n = Some h) by (apply fold_set_in; auto). clearbody d. revert d D O.
  induction l2 as [|g l2 IH]; intros d D O; cbn [fold_left]; auto. apply IH; [|intros x X; apply O; right; auto].
  destruct (in_dec Nat.eq_dec n (f_names g)) as [I|I].
  - destruct (O g (or_introl eq_refl) I) as (e & ->). auto.
  - destruct (compile_function known g b); auto. rewrite fold_set_other; auto.
Qed.
Print Assumptions C43_isolated.
Example C43_isolated_case : forall known, exists e, compile_function known (mkFun sg1 (RMutate false 77) [5]) false = Err e /\
  compile_function known (mkFun sg1 (RMutate false 12) [5]) false = Ok (Some (HArg (Some 1%Z) (Some 12) false)).
Proof. intros. exists ValueError. split; reflexivity. Qed.

(** What is false. *)

(** The first parameter of a method under another name than self: the last argument of the call is updated instead. *)
Theorem C43_first_refuted : forall known p q o s l, p <> n_module -> p <> n_self -> p <> q ->
  let f := mkFun (mkSig [] [p; q] None [] None) (RMutate o p) [] in
  let c := mkCall (l ++ [[Some s]]) [] in
  exists h, compile_function known f true = Ok (Some h) /\ handle h c = Ok [(TSymbol s, o)] /\ binds true (f_sig f) c p None.
Proof.
  intros known p q o s l P1 P2 PQ f c. unfold compile_function, mutate_name_handler, arg_position. cbn [f f_returns f_sig posonly regular kwonly app index_of].
  apply Nat.eqb_neq in P1, P2. rewrite P1, P2, Nat.eqb_refl. cbn. eexists. split; [reflexivity|]. cbn [handle]. split.
  - unfold handle_argument. cbn [keywords c dget positional].
    replace (dget [] p) with (@None argument) by reflexivity. unfold c. cbn [positional]. rewrite app_length. cbn [length].
    replace (-1 <? Z.of_nat (length l + 1))%Z with true by (symmetry; apply Z.ltb_lt; lia).
    unfold py_nth. rewrite app_length. cbn [length]. replace (-1 <? 0)%Z with true by reflexivity. cbv zeta.
    replace (-1 + Z.of_nat (length l + 1))%Z with (Z.of_nat (length l)) by lia.
    replace (Z.of_nat (length l) <? 0)%Z with false by (symmetry; apply Z.ltb_ge; lia).
    rewrite Nat2Z.id, nth_error_app2, Nat.sub_diag by lia. reflexivity.
  - apply (by_position _ _ _ _ 0); reflexivity.
Qed.
Print Assumptions C43_first_refuted.
(** And if the call has no arguments, the handler raises. *)
Theorem C43_first_raises_refuted : forall known p o, p <> n_module -> p <> n_self ->
  exists h, compile_function known (mkFun (mkSig [] [p] None [] None) (RMutate o p) []) true = Ok (Some h) /\
    handle h (mkCall [] []) = Err IndexError.
Proof.
  intros known p o P1 P2. unfold compile_function, mutate_name_handler, arg_position. cbn [f_returns f_sig posonly regular kwonly app index_of].
  apply Nat.eqb_neq in P1, P2. rewrite P1, P2, Nat.eqb_refl. cbn. eexists. split; [reflexivity|]. reflexivity.
Qed.
Print Assumptions C43_first_raises_refuted.

(** A method called through its class, [C.m(obj, x)] (or a static method): the argument before the right one is updated. *)
Theorem C43_unbound_refuted : forall known p o s t, p <> n_module -> p <> n_self ->
  let f := mkFun (mkSig [] [n_self; p] None [] None) (RMutate o p) [] in
  let c := mkCall [[Some s]; [Some t]] [] in
  exists h, compile_function known f true = Ok (Some h) /\ handle h c = Ok [(TSymbol s, o)] /\ binds false (f_sig f) c p (Some [Some t]).
Proof.
  intros known p o s t P1 P2 f c. unfold compile_function, mutate_name_handler, arg_position. cbn [f f_returns f_sig posonly regular kwonly app index_of].
  apply Nat.eqb_neq in P1. rewrite P1. assert (P3 : n_self =? p = false) by (apply Nat.eqb_neq; auto). rewrite P3.
  assert (P4 : p =? n_self = false) by (apply Nat.eqb_neq; auto). rewrite P4, Nat.eqb_refl. cbn. eexists. split; [reflexivity|].
  split; [reflexivity|]. apply (by_position _ _ _ _ 1); reflexivity.
Qed.
Print Assumptions C43_unbound_refuted.

(** A starred parameter cannot be declared: the annotation is dropped. *)
Theorem C43_star_refuted : forall known f o p b, p <> n_module -> p <> n_self ->
  vararg (f_sig f) = Some p \/ kwarg (f_sig f) = Some p -> ~ In p (posonly (f_sig f) ++ regular (f_sig f) ++ kwonly (f_sig f)) ->
  f_returns f = RMutate o p -> compile_function known f b = Err ValueError.
Proof.
  intros known f o p b P1 P2 _ N R. unfold compile_function, mutate_name_handler, arg_position. rewrite R.
  apply Nat.eqb_neq in P1, P2. rewrite P1, P2. destruct (index_of p _ 0) as [i|] eqn:E; [|reflexivity].
  exfalso. apply N. apply index_of_nth in E. destruct E as (_ & E). eapply nth_error_In; eauto.
Qed.
Print Assumptions C43_star_refuted.
(** def f(x, *args) -> Mutate["args"] *)
Example C43_star_case : let sg := mkSig [] [11] (Some 12) [] None in vararg sg = Some 12 /\ ~ In 12 (posonly sg ++ regular sg ++ kwonly sg).
Proof. split; [reflexivity|]. simpl. intuition congruence. Qed.

(** The name self among several names for a function: every call of the function raises in the handler. *)
Theorem C43_self_refuted : forall known sg o names c, exists h,
  compile_function known (mkFun sg (RMutateTuple o [Some n_self]) names) false = Ok (Some h) /\ handle h c = Err AttributeError.
Proof. intros. eexists. split; reflexivity. Qed.
Print Assumptions C43_self_refuted.
