(** Tools for the cells on which the analysis is wrong. *)
Require Import String List Bool Arith Lia.
Import ListNotations.
Require Import Verif.Base Verif.Loops Verif.LiveModel Verif.LiveSpec Verif.LiveProofs Verif.LiveTerm
  Verif.LiveWrites.
Local Open Scope list_scope.

Fixpoint exposedb (x : string) (tr : list event) : bool :=
  match tr with
  | [] => false
  | Read y :: tr => (String.eqb x y || exposedb x tr)%bool
  | Write y :: tr => if String.eqb x y then false else exposedb x tr
  end.
Lemma exposedb_exposed x tr : exposedb x tr = true -> exposed x tr.
Proof.
  induction tr as [|[y|y] tr IH]; simpl; intros H; [discriminate| |].
  - apply orb_true_iff in H. destruct H as [H|H].
    + apply String.eqb_eq in H. subst y. exists [], tr. auto.
    + destruct (IH H) as (p & q & -> & N). exists (Read y :: p), q. split; auto.
      intros [X|X]; [discriminate|auto].
  - destruct (String.eqb x y) eqn:E; [discriminate|]. apply String.eqb_neq in E.
    destruct (IH H) as (p & q & -> & N). exists (Write y :: p), q. split; auto.
    intros [X|X]; [congruence|auto].
Qed.

Definition rootedb (x : string) (c : chain) : bool :=
  match c with a :: _ => const_eqb (a_val a) (CStr x) | [] => false end.
Lemma rootedb_rooted x c : rooted x c -> rootedb x c = true.
Proof. intros (a & l & -> & E). simpl. rewrite E. simpl. apply String.eqb_refl. Qed.

Lemma live_by x st : existsb (rootedb x) (live st) = true -> reported_live x st.
Proof.
  intros H. apply existsb_exists in H. destruct H as (c & J & R). exists c. split; auto.
  destruct c as [|a c]; [discriminate|]. exists a, c. split; auto. simpl in R.
  destruct (a_val a); [|discriminate]. simpl in R. apply String.eqb_eq in R. congruence.
Qed.

Definition wrote (x : string) (tr : list event) : bool :=
  existsb (fun e => match e with Write y => String.eqb x y | Read _ => false end) tr.
Lemma wrote_In x tr : In (Write x) tr -> wrote x tr = true.
Proof.
  intros J. unfold wrote. apply existsb_exists. exists (Write x). split; auto. apply String.eqb_refl.
Qed.

Lemma misses_by n prog x st tr out : analyze n prog = Ok st -> runs prog tr out ->
  exposedb x tr = true -> existsb (rootedb x) (live st) = false -> misses prog x.
Proof.
  intros A R E L. exists st, tr, out. split; [apply (ends_at n); [auto|discriminate]|].
  split; auto. split; [apply exposedb_exposed; auto|]. intros (c & J & Rc).
  apply rootedb_rooted in Rc. assert (X : existsb (rootedb x) (live st) = true).
  { apply existsb_exists. eauto. }
  congruence.
Qed.
Lemma claims_by n prog x st tr : analyze n prog = Ok st -> runs prog tr Normal ->
  cmem [nm x] (dead st) = true -> wrote x tr = false -> claims prog x.
Proof.
  intros A R E L. exists st, tr. split; [apply (ends_at n); [auto|discriminate]|].
  split; auto. split; [apply cmem_In; auto|]. intros J. apply wrote_In in J. congruence.
Qed.

(** Derivations of runs where nothing raises. *)
Ltac go := repeat match goal with
  | |- runs _ _ _ => eexists
  | |- exs _ _ [] _ _ _ => apply exs_nil
  | |- exs _ _ (_ :: _) _ _ _ => eapply exs_cons
  | |- evs _ _ [] _ _ => apply evs_nil
  | |- evs _ _ (_ :: _) _ _ => eapply evs_cons
  | |- evsome _ _ (_ :: _) _ _ => eapply evsome_one
  | |- stores _ _ [] _ _ => apply stores_nil
  | |- stores _ _ (_ :: _) _ _ => eapply stores_cons
  | |- ev _ _ (EConst _) _ true => apply ev_const
  | |- ev _ _ (EName _) _ true => apply ev_name
  | |- ev _ _ (EAttr _ _) _ true => eapply ev_attr
  | |- ev _ _ (ESub _ _) _ true => eapply ev_sub
  | |- ev _ _ (ECall _ _) _ true => eapply ev_call
  | |- ev _ _ (EBin _ _) _ true => eapply ev_bin
  | |- ev _ _ (EList _) _ true => eapply ev_list
  | |- ev _ _ (EOp _) _ true => eapply ev_op
  | |- ev _ _ (ECond _) _ true => eapply ev_cond
  | |- ev _ _ (ELambda _) _ true => eapply ev_lambda
  | |- ev _ _ (ENamed _ _) _ true => eapply ev_named
  | |- store _ _ (EName _) _ true => apply store_name
  | |- store _ _ (EAttr _ _) _ true => eapply store_attr
  | |- store _ _ (ESub _ _) _ true => eapply store_sub
  | |- store _ _ (EList _) _ true => eapply store_list
  | |- ex _ _ SPass _ _ _ => apply ex_pass
  | |- ex _ _ SBreak _ _ _ => apply ex_break
  | |- ex _ _ (SExpr _) _ _ _ => eapply ex_expr
  | |- ex _ _ (SAssign _ _) _ _ _ => eapply (ex_assign _ _ _ _ _ _ true)
  | |- ex _ _ (SDelete _) _ _ _ => eapply (ex_delete _ _ _ _ true)
  | |- ex _ _ (SReturn _) _ _ _ => eapply (ex_return _ _ _ _ true)
  | |- ex _ _ (SFunc _) _ _ _ => eapply ex_func
  | |- ex _ _ (SClass _ _ _ _ _) _ _ _ => eapply ex_class
  | |- evs _ _ (?l ++ _) _ _ => progress simpl
  | |- evs _ _ (flat_map _ _) _ _ => progress simpl
  end.
(** The analysis, a run, and the comparison. *)
Ltac missed tac := eapply (misses_by 30);
  [vm_compute; reflexivity|solve [tac]|vm_compute; reflexivity|vm_compute; reflexivity].
Ltac claimed tac := eapply (claims_by 30);
  [vm_compute; reflexivity|solve [tac]|vm_compute; reflexivity|vm_compute; reflexivity].
