(** Property theorems: the names a statement binds (C66) and what they are recorded to depend on
    (C67). *)
From Coq Require Import List Arith Bool Lia.
From Verif Require Import Base BindModel BindSpec BindProofs.
Import ListNotations.

(** * C66: every name that a statement binds has a symbol, updated at that statement *)

(** For statements with [:=] only where it is looked for: whatever has been bound has a symbol, and the
    symbol is at least as new as the last binding. *)
Theorem C66_seen_partial : forall I ss g t log,
  Forall seen ss -> session I 1 ss [] [] = Some (g, t, log) ->
  (forall x, dget g x <> None <-> exists i, In (i, x) log)
  /\ forall i x, In (i, x) log -> exists r, dget t x = Some r /\ i <= stamp r.
Proof.
  intros I ss g t log S H.
  assert (good [] [] [] 1) as G.
  { split; [intros i x []|]. split; [|intros i x []]. intros x. cbn. split; [tauto|intros [i []]]. }
  destruct (session_good I ss 1 [] [] g t log [] S G H) as [(n & G1 & G2 & G3) _]. cbn in *.
  split; [auto|]. intros i x Hi. destruct (G3 i x Hi) as (r & E & K). exists r. split; [auto|lia].
Qed.
Print Assumptions C66_seen_partial.

(** And if it is surely evaluated there, the symbols are those of the names that are bound, each updated
    exactly at the last statement that bound its name. *)
Theorem C66_partial : forall I ss g t log,
  Forall firm ss -> session I 1 ss [] [] = Some (g, t, log) ->
  (forall x, dget g x <> None <-> dget t x <> None)
  /\ forall x r, dget t x = Some r ->
       In (stamp r, x) log /\ forall i, In (i, x) log -> i <= stamp r.
Proof.
  intros I ss g t log F H.
  assert (S : Forall seen ss) by (eapply Forall_impl; [exact firm_seen|exact F]).
  assert (good [] [] [] 1) as G.
  { split; [intros i x []|]. split; [|intros i x []]. intros x. cbn. split; [tauto|intros [i []]]. }
  assert (exact [] []) as X by (intros x r K; discriminate).
  destruct (session_good I ss 1 [] [] g t log [] S G H) as [(n & G1 & G2 & G3) E]. cbn in *.
  specialize (E F X).
  split.
  - intros x. rewrite G2. split.
    + intros [i Hi]. destruct (G3 i x Hi) as (r & Er & _). congruence.
    + intros Hx. destruct (dget t x) as [r|] eqn:Er; [|congruence]. exists (stamp r). auto.
  - intros x r Er. split; [auto|]. intros i Hi. destruct (G3 i x Hi) as (r' & Er' & K).
    rewrite Er in Er'. inversion Er'; subst. lia.
Qed.
Print Assumptions C66_partial.

Definition ex_interp : interp := fun k v w => k + v + w + 1.

(** a = 1; b: int = (c := a); if (d := b): e = d; print((a := c), e); with e as f: f += (g := 3);
    def h(x=a): ... *)
Definition ex_prog : list stmt :=
  [SAssign [1] (EConst 1);
   SAnn 2 (EConst 0) (Some (ENamed 3 (EName 1)));
   SIf (ENamed 4 (EName 2)) (SAssign [5] (EName 4)) SSkip;
   SExpr (EOp 7 (ENamed 1 (EName 3)) (EName 5));
   SWith (EName 5) (Some 6) (SAug 6 8 (ENamed 7 (EConst 3)));
   SDef 8 9 (EName 1) (EConst 0)].

Example C66_partial_nonvacuous :
  Forall firm ex_prog
  /\ exists g t log, session ex_interp 1 ex_prog [] [] = Some (g, t, log)
     /\ dget t 1 = Some {| deps := [3]; stamp := 4 |}
     /\ dget t 5 = Some {| deps := [4]; stamp := 3 |}
     /\ dget t 6 = Some {| deps := [5; 7]; stamp := 5 |}
     /\ log = [(1, 1); (2, 3); (2, 2); (3, 4); (3, 5); (4, 1); (5, 6); (5, 7); (5, 6); (6, 8)].
Proof.
  split; [repeat constructor|].
  eexists _, _, _. split; [vm_compute; reflexivity|]. vm_compute. auto.
Qed.

(** A statement with a conditional [:=]. *)
Example C66_seen_partial_nonvacuous :
  seen (SExpr (EAnd (EConst 1) (ENamed 1 (EConst 5))))
  /\ exists g t log, session ex_interp 1 [SExpr (EAnd (EConst 1) (ENamed 1 (EConst 5)))] [] [] = Some (g, t, log)
     /\ log = [(1, 1)] /\ dget t 1 = Some {| deps := []; stamp := 1 |}.
Proof. split; [exact Logic.I|]. eexists _, _, _. split; [vm_compute; reflexivity|]. auto. Qed.

(** [y = (x := 5)] binds [x], which gets no symbol; likewise a [:=] in what a for loop goes over, in the
    expression of a with statement, in a keyword of a class, in an annotation. *)
Theorem C66_unseen_refuted :
  Forall (fun s => exists g t log,
      session ex_interp 1 [s] [] [] = Some (g, t, log) /\ dget g 1 = Some 5 /\ In (1, 1) log
      /\ dget t 1 = None)
    [SAssign [2] (ENamed 1 (EConst 5));
     SFor 2 (ENamed 1 (EConst 5)) SSkip;
     SWith (ENamed 1 (EConst 5)) None SSkip;
     SClass 2 3 (EConst 0) (ENamed 1 (EConst 5)) (EConst 0);
     SAnn 2 (ENamed 1 (EConst 5)) (Some (EConst 0))].
Proof.
  repeat constructor; eexists _, _, _; (split; [vm_compute; reflexivity|]); vm_compute; auto.
Qed.
Print Assumptions C66_unseen_refuted.

(** [def f(x=(y := 5))], and a class with [:=] among its bases: an assertion fails, and not even the
    function or the class has a symbol. *)
Theorem C66_assert_refuted :
  Forall (fun s => exists g t log,
      session ex_interp 1 [s] [] [] = Some (g, t, log) /\ dget g 1 = Some 5 /\ dget g 2 <> None
      /\ t = [])
    [SDef 2 3 (ENamed 1 (EConst 5)) (EConst 0);
     SDef 2 3 (EConst 0) (ENamed 1 (EConst 5));
     SClass 2 3 (ENamed 1 (EConst 5)) (EConst 0) (EConst 0)].
Proof.
  repeat constructor; eexists _, _, _; (split; [vm_compute; reflexivity|]); vm_compute; repeat split;
    discriminate.
Qed.
Print Assumptions C66_assert_refuted.

(** After [x = a], none of these binds [x], but each marks it as updated: [x: int], [c and (x := 1)]
    with [c] false, [f = print(lambda: (x := 1))]. The first also forgets what [x] depends on. *)
Theorem C66_untouched_refuted :
  Forall (fun s => exists g t log r,
      session ex_interp 1 [SAssign [3] (EConst 1); SAssign [1] (EName 3); s] [] [] = Some (g, t, log)
      /\ ~ In (3, 1) log /\ dget t 1 = Some r /\ stamp r = 3 /\ deps r = [])
    [SAnn 1 (EConst 0) None;
     SExpr (EAnd (EConst 0) (ENamed 1 (EConst 1)));
     SExpr (EOp 4 (EConst 0) (ELambda 5 (EConst 0) (ENamed 1 (EConst 1))))].
Proof.
  repeat constructor; eexists _, _, _, _; (split; [vm_compute; reflexivity|]);
    (split; [vm_compute; intuition discriminate|]); vm_compute; auto.
Qed.
Print Assumptions C66_untouched_refuted.

(** The test of a while loop is recorded only when the loop is over: in
    [while (n := n0 - ...): y = n] the body does not find a symbol for [n]. *)
Theorem C66_while_refuted : exists I s g t log r,
  session I 1 [SAssign [5] (EConst 2); s] [] [] = Some (g, t, log)
  /\ s = SWhile (ENamed 1 (EOp 7 (EName 5) (EConst 0)))
           (SSeq (SAssign [2] (EName 1)) (SAug 5 9 (EConst 0)))
  /\ In (2, 2) log /\ dget t 2 = Some r /\ deps r = [].
Proof.
  exists (fun k v _ => if k =? 9 then 0 else v).
  eexists _, _, _, _, _. split; [|split; [reflexivity|]]; [vm_compute; reflexivity|].
  vm_compute. auto 8.
Qed.
Print Assumptions C66_while_refuted.

(** * C67: a name depends on everything its value was computed from, and on nothing else *)

(** If two states agree on what a name is recorded to be computed from, then the statement gives it the
    same value in both. For statements that are firm, without lambdas, with no name set twice, and
    where names set by the statement are used by another part of it only if they have a symbol. *)
Theorem C67_partial : forall I now s t g1 g2 g1' g2' l1 l2 y,
  firm s -> heads_ok s -> tidy t s -> tracks t g1 -> tracks t g2 ->
  head I s g1 = Some (g1', l1) -> head I s g2 = Some (g2', l2) ->
  let t' := finish now (live g1') s t in
  In y (stmt_targets s) ->
  (forall d, source t' s y d -> dget g1 d = dget g2 d) ->
  (needs_self s y -> dget g1 y = dget g2 y) ->
  dget g1' y = dget g2' y.
Proof.
  intros I now s t g1 g2 g1' g2' l1 l2 y F O T T1 T2 H1 H2 t' Hy Gs Gy.
  assert (not_block s) as N by (destruct s; cbn in *; tauto).
  exact (value_determined I now s g1 g2 g1' g2' l1 l2 t y N F O T T1 T2 H1 H2 Gs Gy Hy).
Qed.
Print Assumptions C67_partial.

(** Nothing else: a dependency is a name written in the expression, or an old one, kept because the old
    value is needed, or the statement is an augmented assignment, or what is read depends on the
    name. *)
Theorem C67_only_partial : forall I now s t g g' l y r d,
  firm s -> heads_ok s -> NoDup (stmt_targets s) -> head I s g = Some (g', l) ->
  let t' := finish now (live g') s t in
  In y (stmt_targets s) -> dget t' y = Some r -> In d (deps r) ->
  (exists e, sets s y e /\ mentions e d)
  \/ (exists r0, dget t y = Some r0 /\ In d (deps r0)
      /\ (needs_self s y \/ (exists x k e, s = SAug x k e)
          \/ exists e c rc, sets s y e /\ mentions e c /\ (dget t c = Some rc \/ dget t' c = Some rc)
               /\ In y (deps rc))).
Proof.
  intros I now s t g g' l y r d F O D H t' Hy Hr Hd.
  assert (not_block s) as N by (destruct s; cbn in *; tauto).
  exact (deps_only I now s g g' l t y N F O D H Hy r d Hr Hd).
Qed.
Print Assumptions C67_only_partial.

(** And where the old value is needed, what it depended on is kept. *)
Theorem C67_kept_partial : forall I now s t g g' l y r0 d,
  firm s -> heads_ok s -> NoDup (stmt_targets s) -> head I s g = Some (g', l) ->
  In y (stmt_targets s) -> needs_self s y -> dget t y = Some r0 -> In d (deps r0) ->
  exists r, dget (finish now (live g') s t) y = Some r /\ In d (deps r).
Proof.
  intros I now s t g g' l y r0 d F O D H Hy NS Hr Hd.
  assert (not_block s) as N by (destruct s; cbn in *; tauto).
  exact (deps_kept I now s g g' l t y N F O D H Hy r0 d NS Hr Hd).
Qed.
Print Assumptions C67_kept_partial.

(** [y += (x := a) + b] in a state where [x] and [y] have symbols or not. *)
Example C67_partial_nonvacuous :
  let s := SAug 2 9 (EOp 7 (ENamed 1 (EName 3)) (EName 4)) in
  let t := [(2, {| deps := [5]; stamp := 1 |}); (3, {| deps := []; stamp := 1 |});
            (4, {| deps := []; stamp := 1 |}); (5, {| deps := []; stamp := 1 |})] in
  let g1 := [(2, 0); (3, 1); (4, 2); (5, 7)] in
  let g2 := [(2, 0); (3, 1); (4, 2); (5, 8)] in
  firm s /\ heads_ok s /\ tidy t s /\ tracks t g1 /\ tracks t g2 /\ needs_self s 2
  /\ (exists g1' l1, head ex_interp s g1 = Some (g1', l1)
      /\ finish 2 (live g1') s t =
         [(2, {| deps := [5; 1; 3; 4]; stamp := 2 |}); (3, {| deps := []; stamp := 1 |});
          (4, {| deps := []; stamp := 1 |}); (5, {| deps := []; stamp := 1 |});
          (1, {| deps := [3]; stamp := 2 |})]).
Proof.
  assert (K : forall (u v w z : sym) (a b c d : nat),
    tracks [(2, u); (3, v); (4, w); (5, z)] [(2, a); (3, b); (4, c); (5, d)]).
  { intros u v w z a b c d x. cbn.
    destruct (Nat.eqb x 2); [split; congruence|]. destruct (Nat.eqb x 3); [split; congruence|].
    destruct (Nat.eqb x 4); [split; congruence|]. destruct (Nat.eqb x 5); [split; congruence|].
    split; congruence. }
  cbn zeta. split; [cbn; auto|]. split; [cbn; auto|]. split.
  { split; [cbn; repeat constructor; cbn; intuition discriminate|].
    intros x d y e Hs Hm He.
    cbn in He. destruct He as [[-> _]|[[[-> ->]|[]]|[]]]; [left; cbn; discriminate|].
    cbn in Hs. destruct Hs as [[-> ->]|[[[-> ->]|[]]|[]]].
    - right. cbn. auto.
    - cbn in Hm. discriminate. }
  split; [apply K|]. split; [apply K|]. split; [left; reflexivity|].
  eexists _, _. split; vm_compute; reflexivity.
Qed.

(** [print((x := a), (x := b))]: the value of [x] is that of [b]; the table says it comes from [a],
    because edges are recorded in reverse order. *)
Theorem C67_order_refuted : exists g t log,
  session ex_interp 1 [SAssign [3] (EConst 1); SAssign [4] (EConst 2);
                       SExpr (EOp 7 (ENamed 1 (EName 3)) (ENamed 1 (EName 4)))] [] [] = Some (g, t, log)
  /\ dget g 1 = dget g 4 /\ dget g 1 <> dget g 3
  /\ dget t 1 = Some {| deps := [3]; stamp := 3 |}.
Proof.
  eexists _, _, _. split; [vm_compute; reflexivity|]. vm_compute. repeat split; discriminate.
Qed.
Print Assumptions C67_order_refuted.

(** [print((x := a), (y := x))] with [x] new: [y] is recorded to depend on nothing. *)
Theorem C67_sibling_refuted : exists g t log,
  session ex_interp 1 [SAssign [3] (EConst 1);
                       SExpr (EOp 7 (ENamed 1 (EName 3)) (ENamed 2 (EName 1)))] [] [] = Some (g, t, log)
  /\ dget g 2 = dget g 3 /\ dget t 2 = Some {| deps := []; stamp := 2 |}.
Proof. eexists _, _, _. split; [vm_compute; reflexivity|]. vm_compute. auto. Qed.
Print Assumptions C67_sibling_refuted.

(** [while (n := n - 1): total += n], with one round: the loop as a whole is recorded as if it had
    assigned to [total], which no longer depends on what it did before. *)
Theorem C67_while_refuted : exists I g t log g0 t0 log0 r0,
  let init := [SAssign [3] (EConst 1); SAssign [2] (EName 3); SAssign [1] (EConst 2)] in
  session I 1 init [] [] = Some (g0, t0, log0)
  /\ dget t0 2 = Some r0 /\ deps r0 = [3]
  /\ session I 1 (init ++ [SWhile (ENamed 1 (EOp 7 (EName 1) (EConst 1))) (SAug 2 8 (EName 1))]) [] []
     = Some (g, t, log)
  /\ dget t 2 = Some {| deps := [1]; stamp := 4 |}.
Proof.
  exists (fun k v w => if k =? 7 then v - w else v + w).
  eexists _, _, _, _, _, _, _. cbn zeta. split; [vm_compute; reflexivity|].
  split; [vm_compute; reflexivity|]. split; [reflexivity|]. split; [vm_compute; reflexivity|]. reflexivity.
Qed.
Print Assumptions C67_while_refuted.

(** [class A(B, opt=x)]: the value depends on [x], the symbol does not. *)
Theorem C67_keyword_refuted : exists I s t t' g1 g2 g1' g2' l1 l2,
  s = SClass 1 9 (EName 2) (EName 3) (EConst 0)
  /\ tracks t g1 /\ tracks t g2 /\ head I s g1 = Some (g1', l1) /\ head I s g2 = Some (g2', l2)
  /\ t' = finish 1 (live g1') s t
  /\ (forall d, source t' s 1 d -> dget g1 d = dget g2 d)
  /\ dget g1' 1 <> dget g2' 1.
Proof.
  exists ex_interp. eexists.
  exists [(2, {| deps := []; stamp := 0 |}); (3, {| deps := []; stamp := 0 |})].
  eexists. exists [(2, 4); (3, 5)], [(2, 4); (3, 6)].
  eexists _, _, _, _. split; [reflexivity|].
  assert (K : forall (u v : sym) a b, tracks [(2, u); (3, v)] [(2, a); (3, b)]).
  { intros u v a b x. cbn. destruct (Nat.eqb x 2); [split; congruence|].
    destruct (Nat.eqb x 3); split; congruence. }
  split; [apply K|]. split; [apply K|]. split; [vm_compute; reflexivity|].
  split; [vm_compute; reflexivity|]. split; [reflexivity|]. split; [|vm_compute; discriminate].
  intros d Hd.
  assert (d = 2) as ->; [|reflexivity].
  assert (Q : forall x r, dget (finish 1 (live [(2, 4); (3, 5); (1, 29)])
      (SClass 1 9 (EName 2) (EName 3) (EConst 0))
      [(2, {| deps := []; stamp := 0 |}); (3, {| deps := []; stamp := 0 |})]) x = Some r ->
      forall c, In c (deps r) -> x = 1 /\ c = 2).
  { intros x r Hr c Hc.
    destruct x as [|[|[|[|x]]]]; vm_compute in Hr; inversion Hr; subst; cbn in Hc; try tauto.
    destruct Hc as [<-|[]]. auto. }
  assert (W : forall x c, source (finish 1 (live [(2, 4); (3, 5); (1, 29)])
      (SClass 1 9 (EName 2) (EName 3) (EConst 0))
      [(2, {| deps := []; stamp := 0 |}); (3, {| deps := []; stamp := 0 |})])
      (SClass 1 9 (EName 2) (EName 3) (EConst 0)) x c -> c = 2).
  { intros x c Hc. induction Hc as [x r c Hr Hc|x r c y Hr Hc Hs Hy IH]; [|exact IH].
    apply (Q x r Hr c Hc). }
  apply (W 1 d Hd).
Qed.
Print Assumptions C67_keyword_refuted.
