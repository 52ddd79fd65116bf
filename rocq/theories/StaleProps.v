(** C54: the kernel tells the frontend which parents are stale. *)
Require Import List Arith ZArith Bool Lia.
Import ListNotations.
Require Import Verif.Base Verif.Loops Verif.StaleModel Verif.StaleSpec Verif.StaleProofs Verif.StoreModel Verif.StoreSpec Verif.StoreProps.
Local Open Scope nat_scope.

(** Cell 1 binds [a] (symbol 20), cell 2 sets [a.b] (symbol 21), cell 3 uses [a.b]; cell 4 is above them and is known to have once
    written [a], but its text no longer does. Cell 1 ran after cell 2. *)
Definition c1 := mkCell 1 7 [[]; []] [20; 22] (Some [20; 23]) [].
Definition c2 := mkCell 2 5 [[]; [(1, [20])]] [] None [21].
Definition c3 := mkCell 3 6 [[]; [(2, [21])]] [] None [].
Definition c4 := mkCell 0 4 [[]; []] [20] (Some []) [].
Definition nb : world := mkW true [(1, c1); (2, c2); (3, c3); (4, c4)] [(2, 2); (0, 4); (3, 3); (1, 1)] [(20, None); (21, Some 20); (22, None); (23, None)] [(20, 7%Z); (21, 5%Z); (22, 7%Z); (23, 1%Z)].
Example nb_tables : checks 3 [(nb, 3); (nb, 2)] = Ok (mkT [(3, [2])] [(2, [(1, [1])]); (3, [(2, [2]); (1, [2])])] [(1, [(2, [1]); (3, [2])]); (2, [(3, [2])])]).
Proof. vm_compute. reflexivity. Qed.
Example nb_wf : dwf (w_pos nb).
Proof. unfold dwf. simpl. repeat constructor; simpl; intuition discriminate. Qed.
Example nb_uses : forall x p q, uses nb x p q <-> x = 2 /\ p = 1 /\ q = 20 \/ x = 3 /\ p = 2 /\ q = 21.
Proof.
  intros x p q. split.
  - intros (c & d & l & C & I1 & I2 & I3). apply dget_In in C. simpl in C.
    destruct C as [C|[C|[C|[C|[]]]]]; injection C as <- <-; simpl in I1; destruct I1 as [<-|[<-|[]]]; simpl in I2; try contradiction;
      destruct I2 as [I2|[]]; injection I2 as <- <-; simpl in I3; destruct I3 as [<-|[]]; auto.
  - intros [(-> & -> & ->)|(-> & -> & ->)].
    + exists c2, [(1, [20])], [20]. simpl. auto.
    + exists c3, [(2, [21])], [21]. simpl. auto.
Qed.
Example nb_stale : stale_once nb 3 1 2 /\ stale_now nb 3 2.
Proof.
  split.
  - exists 21, 20. split; [apply nb_uses; auto|]. split; [eapply part_up; [reflexivity|eapply part_self; reflexivity]|].
    split; [exists 1, 3; auto|]. exists c1. split; auto. right. split; [simpl; auto|]. intros m [= <-]. simpl. auto.
  - exists 21, 20, 7%Z, c3, c2. split; [apply nb_uses; auto|]. repeat (split; [reflexivity|]). split; [|split; reflexivity].
    eapply part_up; [reflexivity|eapply part_self; reflexivity].
Qed.

(** After any sequence of checks, each made in whatever state, exactly those parents are listed as stale for a cell that were so at a
    check of this cell. *)
Theorem C54_now : forall fuel l t, (forall w x, In (w, x) l -> dwf (w_pos w)) -> checks fuel l = Ok t ->
  forall x p, listed1 (r_stale t) x p <-> exists w, In (w, x) l /\ w_applies w = true /\ stale_now w x p.
Proof.
  intros fuel l t W H. apply (checks_spec fuel); auto. intros (w, x) I. exact (W w x I).
Qed.
Print Assumptions C54_now.

(** The same of those that become stale once another cell has run: whichever cell was checked. *)
Theorem C54_once : forall fuel l t, (forall w x, In (w, x) l -> dwf (w_pos w)) -> checks fuel l = Ok t ->
  forall x e p, listed2 (r_exec t) x e p <-> exists w y, In (w, y) l /\ w_applies w = true /\ stale_once w x e p.
Proof.
  intros fuel l t W H. apply (checks_spec fuel); auto. intros (w, x) I. exact (W w x I).
Qed.
Print Assumptions C54_once.

(** The table by executed cell says the same as that by child. *)
Theorem C54_agree : forall fuel l t, (forall w x, In (w, x) l -> dwf (w_pos w)) -> checks fuel l = Ok t ->
  forall x e p, listed2 (r_child t) e x p <-> listed2 (r_exec t) x e p.
Proof.
  intros fuel l t W H x e p. assert (W' : forall c, In c l -> dwf (w_pos (fst c))) by (intros (w, y) I; exact (W w y I)).
  destruct (checks_spec _ _ _ W' H) as (_ & A & B). rewrite (A x e p), (B x e p). reflexivity.
Qed.
Print Assumptions C54_agree.

(** No check fails if all that the cells refer to exists and symbols are not nested deeper than Python's stack. *)
Theorem C54_total : forall fuel l, (forall w x, In (w, x) l -> sound w /\ shallow fuel w /\ dget (w_cells w) x <> None) ->
  exists t, checks fuel l = Ok t.
Proof. exact checks_total. Qed.
Print Assumptions C54_total.
Example nb_sound : sound nb /\ shallow 2 nb /\ dget (w_cells nb) 3 <> None.
Proof.
  split; [split|split; [|discriminate]].
  - intros i x D. apply dget_In in D. simpl in D. destruct D as [D|[D|[D|[D|[]]]]]; injection D as <- <-; discriminate.
  - intros x c d p l C I1 I2. apply dget_In in C. simpl in C.
    destruct C as [C|[C|[C|[C|[]]]]]; injection C as <- <-; simpl in I1; destruct I1 as [<-|[<-|[]]]; simpl in I2; try contradiction;
      destruct I2 as [I2|[]]; injection I2 as <- <-; discriminate.
  - intros x p q s U P. assert (K : q = 20 \/ q = 21) by (apply nb_uses in U; intuition).
    assert (forall s, part_of nb 20 s -> s = 20) by (intros s' P'; inversion P' as [? ? D|? ? ? D P2]; subst; auto; discriminate).
    destruct K as [->| ->].
    + rewrite (H _ P). discriminate.
    + inversion P as [? ? D|? z ? D P2]; subst; [discriminate|]. injection D as <-. rewrite (H _ P2). discriminate.
  - intros x p q U. apply nb_uses in U. destruct U as [(_ & _ & ->)|(_ & _ & ->)].
    + exists 1. split; auto. apply depth_top. reflexivity.
    + exists 2. split; auto. eapply depth_in; [reflexivity|]. apply depth_top. reflexivity.
Qed.

(** If nothing happens between the checks but that usages are recorded, then once the cells have been checked the tables say
    what holds in the last of the states; for the first table of the cell checked last.
    Missing: the states are taken as given, that checking records nothing else is not derived. *)
Theorem C54_last_partial : forall fuel l w x t, (forall w' y, In (w', y) (l ++ [(w, x)]) -> dwf (w_pos w')) ->
  (forall w' y, In (w', y) l -> grows w' w) -> checks fuel (l ++ [(w, x)]) = Ok t ->
  (forall y e p, listed2 (r_exec t) y e p <-> w_applies w = true /\ stale_once w y e p) /\
  (forall p, listed1 (r_stale t) x p <-> w_applies w = true /\ stale_now w x p).
Proof.
  intros fuel l w x t W G H. split.
  - intros y e p. rewrite (C54_once _ _ _ W H). split.
    + intros (w' & z & I & A & SO). rewrite in_app_iff in I. destruct I as [I|[I|[]]]; [|injection I as <- <-; auto].
      specialize (G _ _ I). split; [rewrite (same_applies _ _ G); auto|]. eapply grows_once; eauto.
    + intros (A & SO). exists w, x. rewrite in_app_iff. simpl. auto.
  - intros p. rewrite (C54_now _ _ _ W H). split.
    + intros (w' & I & A & SO). rewrite in_app_iff in I. destruct I as [I|[I|[]]]; [|injection I as <-; auto].
      specialize (G _ _ I). split; [rewrite (same_applies _ _ G); auto|]. eapply grows_now; eauto.
    + intros (A & SO). exists w. rewrite in_app_iff. simpl. auto.
Qed.
Print Assumptions C54_last_partial.
(** Before cell 3 was checked, its usage of [a.b] was not known. *)
Definition nb0 : world := mkW true [(1, c1); (2, c2); (3, mkCell 3 6 [[]; []] [] None []); (4, c4)] (w_pos nb) (w_up nb) (w_time nb).
Example nb0_grows : grows nb0 nb.
Proof.
  split; auto.
  - intros x c C. apply dget_In in C. simpl in C.
    destruct C as [C|[C|[C|[C|[]]]]]; injection C as <- <-; eexists; (split; [reflexivity|]); auto 10.
  - intros x p q (c & d & l & C & I1 & I2 & I3). apply dget_In in C. simpl in C.
    destruct C as [C|[C|[C|[C|[]]]]]; injection C as <- <-; simpl in I1; destruct I1 as [<-|[<-|[]]]; simpl in I2; try contradiction;
      destruct I2 as [I2|[]]; injection I2 as <- <-; simpl in I3; destruct I3 as [<-|[]]; apply nb_uses; auto.
Qed.
Example nb0_tables : checks 3 [(nb0, 2); (nb, 3)] = Ok (mkT [(3, [2])] [(2, [(1, [1])]); (3, [(2, [2]); (1, [2])])] [(1, [(2, [1]); (3, [2])]); (2, [(3, [2])])]).
Proof. vm_compute. reflexivity. Qed.

(** Under a schedule or an order for which there is no such notion the tables stay empty. *)
Theorem C54_elsewhere : forall fuel l, (forall w x, In (w, x) l -> w_applies w = false) -> checks fuel l = Ok (mkT [] [] []).
Proof.
  intros fuel l H. unfold checks. generalize (mkT [] [] []). induction l as [|(w, x) l IH]; intros t; auto. cbn [rfold fst snd].
  unfold stale_parents, stale_makers at 1. rewrite (H w x) by (simpl; auto). cbn [negb rbind]. apply IH. intros w' y I. apply (H w' y). simpl. auto.
Qed.
Print Assumptions C54_elsewhere.
Example elsewhere_run : checks 3 [(mkW false (w_cells nb) (w_pos nb) (w_up nb) (w_time nb), 3)] = Ok (mkT [] [] []).
Proof. reflexivity. Qed.

(** From the kernel to the frontend: with the tables that the kernel sent, the cells run for pulled updates include every parent of a
    cell run that is stale for it, or becomes so by another of the cells run. *)
Theorem C54_pull : forall fuel l t, (forall w x, In (w, x) l -> dwf (w_pos w)) -> checks fuel l = Ok t ->
  forall S fuel' start C, s_stale S = r_stale t -> s_by_exec S = r_exec t -> s_by_child S = r_child t ->
  s_pull S = true -> raw_closure S fuel' start true false = Ok C ->
  (forall w x p, In (w, x) l -> w_applies w = true -> stale_now w x p -> parent S x p -> In x C -> In p C) /\
  (forall w y x e p, In (w, y) l -> w_applies w = true -> stale_once w x e p -> parent S x p -> (exists ps, dget (s_parents S) e = Some ps) ->
     In x C -> In e C -> In p C).
Proof.
  intros fuel l t W H S fuel' start C E1 E2 E3 P R. destruct (C36_pull_complete _ _ _ _ P R) as (_ & _ & K1 & K2).
  destruct (checks_wf _ _ _ H) as (W1 & W2).
  assert (Q : forall d, rows_wf d -> forall x e p, (exists r ps, dget d x = Some r /\ In (e, ps) r /\ In p ps) <-> listed2 d x e p).
  { intros d Wd x e p. split; intros (r & ps & D & I & Ip); exists r, ps; (split; [auto|]); (split; [|auto]).
    - apply In_dget; auto. eapply Wd; eauto.
    - apply dget_In. auto. }
  assert (A : forall x e p, stale_once_a S x e p <-> listed2 (r_exec t) x e p) by (intros x e p; unfold stale_once_a; rewrite E2; apply Q; auto).
  assert (B : forall x e p, stale_once_b S x e p <-> listed2 (r_child t) e x p) by (intros x e p; unfold stale_once_b; rewrite E3; apply Q; auto).
  assert (MA : maps_agree S) by (intros x e p; rewrite A, B, (C54_agree _ _ _ W H); reflexivity).
  split.
  - intros w x p I Ap SN PP X. apply (K1 x p X PP). unfold stale_for. rewrite E1. apply (C54_now _ _ _ W H). eauto.
  - intros w y x e p I Ap SO PP EP X E. apply (K2 MA x e p X E PP EP). apply A. apply (C54_once _ _ _ W H). eauto.
Qed.
Print Assumptions C54_pull.
(** Cell 1 runs: 2 and 3 follow, and of 3 the parent 2. *)
Definition pulled : store :=
  mkStore [(1, [3]); (2, [3])] [(1, []); (2, [1]); (3, [2]); (4, [])] [1; 2; 3; 4] [] [] []
    [(3, [2])] [(2, [(1, [1])]); (3, [(2, [2]); (1, [2])])] [(1, [(2, [1]); (3, [2])]); (2, [(3, [2])])]
    [(1, true); (2, true); (3, true); (4, true)] [(4, 0); (1, 1); (2, 2); (3, 3)] true false false.
Example pulled_run : raw_closure pulled 10 [1] true false = Ok [1; 3; 2].
Proof. vm_compute. reflexivity. Qed.
