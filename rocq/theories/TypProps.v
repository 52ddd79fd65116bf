(** C77 and C78: the annotation made for a value is a type of the value, and its
    text says so. *)

From Coq Require Import List Bool Arith ZArith String Permutation.
From Verif Require Import TypModel TypSpec TypProofs.
Import ListNotations.
Local Open Scope string_scope.
Local Open Scope nat_scope.
Local Open Scope list_scope.

(** C77: an annotation is made for every value, and the value has that type,
    whatever the order of sets and whichever equal alias [typing] returns. *)
Theorem C77 : forall W v, fair W -> exists t, annotation W v = Some t /\ has_type v t.
Proof.
  intros W v FW. destruct (annotation_exact W v FW) as (t & E & X).
  exists t. split; [exact E|apply exact_has, X].
Qed.
Print Assumptions C77.

(** C77, precision: the annotation names the types that occur in the value, no
    fewer and no more. *)
Theorem C77_exact : forall W v t, fair W -> annotation W v = Some t -> exact v t.
Proof.
  intros W v t FW E. destruct (annotation_exact W v FW) as (t' & E' & X). congruence.
Qed.
Print Assumptions C77_exact.

(** C78: where the aliases of [typing] and the classes of the value are in sight
    under the names written for them, and the cache does not respell aliases, the
    text of the annotation means exactly one type, which is a precise type of the
    value and hence one it has.  Partial: see the refutations below. *)
Theorem C78_partial : forall W G srt v t,
  fair W -> plain_cache W -> perms srt -> knows_typing G ->
  (forall c, class_in c v -> c <> CNone -> sees_class G c) ->
  annotation W v = Some t ->
  exists t', means G (render srt t) t' /\ exact v t' /\ has_type v t' /\
    (forall t'', means G (render srt t) t'' -> t'' = t').
Proof.
  intros W G srt v t FW PC PS KT SC E.
  pose proof (good_annotation W G v FW PC SC t E) as GT.
  destruct (render_means G srt t KT PS GT) as (t' & M & Q).
  exists t'. pose proof (C77_exact W v t FW E) as X.
  pose proof (exact_eq v t t' X Q) as X'. repeat split.
  - exact M.
  - exact X'.
  - apply exact_has, X'.
  - intros t'' M''. destruct KT as (_ & _ & KE). eapply means_one; eauto.
Qed.
Print Assumptions C78_partial.

(** ** Cases that meet the hypotheses *)

Definition W0 : world := mkWorld (@rev ty) (fun t => t).

Example W0_fair : fair W0 /\ plain_cache W0.
Proof.
  repeat split.
  - intros l. apply Permutation_rev.
  - intros t. apply eq_refl_ty.
Qed.

Definition cFoo : user := mkUser "lib.shapes" [] "Foo".

(** A dictionary of lists, with [None], numbers of both kinds, a class and an
    instance of it. *)
Definition v0 : value :=
  VDict [(VStr "a", VList [VInt 1; VNone; VFloat 2]);
         (VStr "b", VTuple [VInst cFoo; VClass (CUser cFoo)]);
         (VInt 3, VTuple [VInt 1; VInt 2; VStr "s"; VFloat 4])].

Definition G0 : scope := fun m n =>
  match m with
  | Some m => if String.eqb m "lib.shapes" && String.eqb n "Foo"
              then Some (MClass (CUser cFoo)) else None
  | None =>
      if String.eqb n "List" then Some (MHead HList)
      else if String.eqb n "Set" then Some (MHead HSet)
      else if String.eqb n "Dict" then Some (MHead HDict)
      else if String.eqb n "Tuple" then Some (MHead HTuple)
      else if String.eqb n "Type" then Some (MHead HType)
      else if String.eqb n "Union" then Some (MHead HUnion)
      else if String.eqb n "Optional" then Some MOptional
      else if String.eqb n "int" then Some (MClass CInt)
      else if String.eqb n "float" then Some (MClass CFloat)
      else if String.eqb n "str" then Some (MClass CStr)
      else None
  end.

Example C77_ex : annotation W0 v0 = Some
  (TApp HDict
     [TApp HUnion [TCls CInt; TCls CStr];
      TApp HUnion
        [TApp HTuple [TApp HUnion [TCls CFloat; TCls CStr]; TEll];
         TApp HTuple [TCls (CUser cFoo); TApp HType [TCls (CUser cFoo)]];
         TApp HList [TApp HUnion [TCls CFloat; TCls CNone]]]]).
Proof. vm_compute. reflexivity. Qed.

Example C78_ex : perms (@rev (list tok)) /\ knows_typing G0 /\
  (forall c, class_in c v0 -> c <> CNone -> sees_class G0 c) /\
  render (@rev _) (TApp HList [TApp HUnion [TCls CFloat; TCls CNone]])
  = [Nm None "List"; LB; Nm None "Optional"; LB; Nm None "float"; RB; RB].
Proof.
  refine (conj _ (conj _ (conj _ _))).
  - intros l. apply Permutation_rev.
  - refine (conj _ (conj _ _)); [intros []| |]; reflexivity.
  - assert (P : forall v, In v [v0] -> forall c, class_in c v ->
                c = CInt \/ c = CFloat \/ c = CStr \/ c = CNone \/ c = CUser cFoo).
    { intros v [<-|[]] c H. unfold v0 in H.
      repeat match goal with
        | H : False |- _ => destruct H
        | H : In _ [] |- _ => destruct H
        | H : In _ (_ :: _) |- _ => destruct H as [H|H]; [subst; cbn [fst snd] in *|]
        | H : class_in _ _ |- _ => inversion H; subst; clear H
        end; auto 6. }
    intros c H N. destruct (P v0 (or_introl eq_refl) c H) as [-> | [-> | [-> | [-> | -> ]]]];
      (split; [discriminate|reflexivity]) || (exfalso; apply N; reflexivity).
  - vm_compute. reflexivity.
Qed.

(** ** Where it fails *)

Definition cInner : user := mkUser "__main__" ["Outer"] "Inner".

(** An instance of a class that is nested in another: the text has the inner name
    alone, which is no name of that class anywhere. *)
Theorem C78_nested_refuted : exists v, forall W G srt,
  fair W -> plain_cache W -> no_nested G ->
  exists t, annotation W v = Some t /\
    forall t', means G (render srt t) t' -> ~ has_type v t'.
Proof.
  exists (VInst cInner). intros W G srt _ _ NN. eexists. split; [reflexivity|].
  intros t' M H. cbn in M. inversion M; subst; inversion H; subst.
  match goal with E : G _ _ = _ |- _ => apply NN in E; discriminate E end.
Qed.
Print Assumptions C78_nested_refuted.

(** A class of the notebook called like a built in one: the texts for an instance
    of it and for an integer are the same, so that no scope serves both. *)
Theorem C78_shadow_refuted : exists v v', forall W srt, fair W ->
  exists t t', annotation W v = Some t /\ annotation W v' = Some t' /\
    render srt t = render srt t' /\
    forall G s, means G (render srt t) s -> ~ (has_type v s /\ has_type v' s).
Proof.
  exists (VInst (mkUser "__main__" [] "int")), (VInt 0). intros W srt _.
  do 2 eexists. refine (conj eq_refl (conj eq_refl (conj eq_refl _))).
  intros G s M [H1 H2]. cbn in M. inversion M; subst; inversion H1; subst; inversion H2.
Qed.
Print Assumptions C78_shadow_refuted.

(** A cache that has seen [List[Union[None, int]]] before, which equals
    [List[Optional[int]]]: the text is "List[Optional[None, int]]", which means
    nothing. *)
Definition seen_before : ty := TApp HList [TApp HUnion [TCls CNone; TCls CInt]].

Definition W1 : world :=
  mkWorld (fun l => l) (fun t => if ty_eq t seen_before then seen_before else t).

Theorem C78_cache_refuted : exists W v, fair W /\ forall G srt, knows_typing G ->
  exists t, annotation W v = Some t /\ has_type v t /\ forall t', ~ means G (render srt t) t'.
Proof.
  exists W1, (VList [VInt 1; VNone]).
  assert (FW : fair W1).
  { split; [intros l; apply Permutation_refl|]. intros t. cbn [cached W1].
    destruct (ty_eq t seen_before) eqn:E; [exact E|apply eq_refl_ty]. }
  split; [exact FW|]. intros G srt (KH & KO & KE).
  exists (TApp HList [TApp HUnion [TCls CNone; TCls CInt]]).
  split; [vm_compute; reflexivity|].
  assert (A : annotation W1 (VList [VInt 1; VNone])
              = Some (TApp HList [TApp HUnion [TCls CNone; TCls CInt]])) by (vm_compute; reflexivity).
  split; [apply exact_has; eapply C77_exact; eauto|].
  intros t' M.
  change (means G [Nm None "List"; LB; Nm None "Optional"; LB; Nm None "None"; CM;
                   Nm None "int"; RB; RB] t') in M.
  assert (SPLIT : forall (s : list tok) q, s ++ [RB] = q ++ [RB] -> s = q)
    by (intros s q E; apply app_inv_tail in E; exact E).
  destruct (means_net G) as [NET _].
  assert (CUT : forall s u q, means G s u ->
            s ++ CM :: q <> [Nm None "Optional"; LB; Nm None "None"; CM; Nm None "int"; RB]).
  { intros s u q MS E. apply NET in MS.
    destruct s as [|a [|b [|c [|d [|e [|g s]]]]]]; cbn in E; inversion E; subst;
      cbn in MS; try discriminate MS.
    destruct s; discriminate. }
  inversion M as [| | |m n h s ts GH MA [E0 E1 E2] E3|m n s u GO MS [E0 E1 E2] E3]; subst.
  - apply (SPLIT s [Nm None "Optional"; LB; Nm None "None"; CM; Nm None "int"; RB]) in E2.
    subst s.
    inversion MA as [? s1 t1 M1|? s1 t1 s2 ts2 M1 M2 X1 X2|s1 t1 M1 X1 X2]; subst.
    + inversion M1 as [| | |m n h' s ts GO MA' [E0 E1 E2] E3|m n s u GO MS [E0 E1 E2] E3]; subst.
      * congruence.
      * apply (SPLIT s [Nm None "None"; CM; Nm None "int"]) in E2. subst s. inversion MS.
    + eapply CUT; [exact M1|]. eassumption.
    + eapply (CUT s1 t1 [Nm None "..."]); [exact M1|]. eassumption.
  - pose proof (KH HList) as KL. cbn [head_name] in KL. congruence.
Qed.
Print Assumptions C78_cache_refuted.

(** Where [List] is not in sight the text for a list of integers means nothing.  The
    program that is given to the type checker is made of such declarations and the
    contents of cells (cell.py 888-900); nothing is imported for them. *)
Theorem C78_import_refuted : exists v, forall W G srt, fair W -> plain_cache W ->
  G None "List" = None ->
  exists t, annotation W v = Some t /\ forall t', ~ means G (render srt t) t'.
Proof.
  exists (VList [VInt 1]). intros W G srt _ PC GL.
  exists (TApp HList [TCls CInt]). split.
  - cbn. unfold subscript. rewrite PC. reflexivity.
  - intros t' M. cbn in M. inversion M; congruence.
Qed.
Print Assumptions C78_import_refuted.
