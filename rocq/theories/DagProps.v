(** C44: the exported metadata about cells. *)
Require Import List Arith Bool Lia.
Import ListNotations.
Require Import Verif.Base Verif.Loops Verif.DagModel Verif.DagSpec Verif.DagProofs.

(** Parents and children are inverse, over all cells of the export. *)
Theorem C44_inverse : forall fuel st md, create_dag_metadata fuel st = Ok md -> forall c p, parent md c p <-> child md p c.
Proof.
  intros fuel st md H c p. destruct (exact _ _ _ H) as (_ & _ & _ & D & E). rewrite D, E. tauto.
Qed.
Print Assumptions C44_inverse.

(** No cell is its own parent. *)
Theorem C44_no_self : forall fuel st md, create_dag_metadata fuel st = Ok md -> forall c, ~ parent md c c.
Proof.
  intros fuel st md H c P. destruct (exact _ _ _ H) as (_ & _ & _ & D & _). apply D in P. tauto.
Qed.
Print Assumptions C44_no_self.

(** Each input of a cell is an output of one of its parents; each parent gives an input. *)
Theorem C44_inputs : forall fuel st md, create_dag_metadata fuel st = Ok md ->
  (forall c n, input md c n -> exists p, parent md c p /\ output md p n) /\
  (forall c p, parent md c p -> exists n, input md c n /\ output md p n).
Proof.
  intros fuel st md H. destruct (exact _ _ _ H) as (_ & B & C & D & _). split.
  - intros c n I. apply B in I. destruct I as (t & p & U & K & I & N). exists p. split.
    + apply D. split; auto. exists t. auto.
    + apply C. exists t. split; auto. split; auto. right. exists c. auto.
  - intros c p P. apply D in P. destruct P as (K & t & U & I). destruct U as (i & s & U1 & U2 & U3 & U4 & U5).
    assert (U : uses st c p t) by (exists i, s; auto). destruct U4 as (ts & TS & _). exists (s_name ts). split.
    + apply B. exists t, p. repeat (split; [auto|]). exists ts. auto.
    + apply C. exists t. split; auto. split; [exists ts; auto|]. right. exists c. auto.
Qed.
Print Assumptions C44_inputs.

(** Everything in the export, from the recorded usages alone. *)
Theorem C44_exact : forall fuel st md, create_dag_metadata fuel st = Ok md ->
  (forall c p, parent md c p <-> c <> p /\ exists t, uses st c p t /\ ~ imported st t) /\
  (forall c n, input md c n <-> exists t p, uses st c p t /\ c <> p /\ ~ imported st t /\ named st t n) /\
  (forall c n, output md c n <-> exists t, ~ imported st t /\ named st t n /\ (updates st c t \/ exists d, uses st d c t /\ d <> c)) /\
  (forall c x, imports md c x <-> exists t s p, uses st c p t /\ imported st t /\ dget (symbols st) t = Some s /\ import_of s = Ok x).
Proof.
  intros fuel st md H. destruct (exact _ _ _ H) as (A & B & C & D & _). auto.
Qed.
Print Assumptions C44_exact.

(** The export succeeds if the tables of symbols are sound and not nested deeper than Python's bound on recursion. *)
Theorem C44_total : forall st rank fuel, sound st rank -> (forall i, In i (all_symbols st) -> rank i < fuel) ->
  exists md, create_dag_metadata fuel st = Ok md.
Proof. exact create_total. Qed.
Print Assumptions C44_total.

(** Each import that is listed binds the name to what the statement of the symbol binds it to.
    Missing: statements that bind a name twice (C44_import_refuted). *)
Theorem C44_import_partial : forall s stmt x, s_kind s = KImport (Some stmt) -> NoDup (map bound_name (names_in stmt)) ->
  import_of s = Ok x -> recreates stmt (s_name s) x.
Proof.
  intros s stmt x K N H. unfold import_of in H. rewrite K in H. destruct stmt as [l|[m|] l]; [| |discriminate];
    apply (proj1 (rmap_Ok _ _ _)) in H; destruct H as (y & Y & <-); cbn [names_in] in N; pose proof (original_unique _ _ _ N Y) as B; cbn [recreates].
  - split; auto. destruct (Nat.eqb_spec y (s_name s)); auto.
  - split; auto. split; auto. destruct (Nat.eqb_spec y (s_name s)); auto.
Qed.
Print Assumptions C44_import_partial.

(** Cells only have earlier parents, and so there are no cycles, if all usages are of things that were there before.
    Missing: liveness that is recomputed for an edited cell (C44_cycle_refuted). *)
Theorem C44_acyclic_partial : forall fuel st md, create_dag_metadata fuel st = Ok md ->
  (forall i s c p, dget (symbols st) i = Some s -> In (c, p) (s_used s ++ s_live s) -> p <= c) ->
  forall p c, leads md p c -> p < c.
Proof.
  intros fuel st md H O. destruct (exact _ _ _ H) as (_ & _ & _ & D & _).
  assert (P : forall c p, parent md c p -> p < c).
  { intros c p P. apply D in P. destruct P as (K & t & (i & s & _ & S & _ & _ & U) & _).
    assert (p <= c) by (apply (O i s); auto; rewrite in_app_iff; auto). lia. }
  intros p c L. induction L as [p c X|p c d L IH X]; apply P in X; lia.
Qed.
Print Assumptions C44_acyclic_partial.

(** Cell 2 made y and used x of cell 1; then cell 3 made z from an element of y. The element is symbol 4. numpy is imported as np. *)
Definition ex : state := mkSt
  [(1, mkSym 11 101 None true false KOther 7 [(2, 1)] [] [1]);
   (2, mkSym 12 102 None true false KOther 7 [(3, 2)] [] [2]);
   (3, mkSym 13 103 None true false KOther 7 [] [] [3]);
   (4, mkSym 14 104 (Some 102) true false KOther 7 [(3, 2)] [] [2]);
   (5, mkSym 15 105 None true false (KImport (Some (SImport [(16, None); (17, Some 15)]))) 8 [(2, 1)] [] [1])]
  [(101, [1]); (102, [2]); (103, [3]); (104, [4]); (105, [5])].
Example C44_case : exists md, create_dag_metadata 5 ex = Ok md /\ parent md 3 2 /\ parent md 2 1 /\ input md 3 12 /\ output md 3 13 /\
  imports md 2 (IImport 17 (Some 15)).
Proof.
  eexists. split; [vm_compute; reflexivity|]. repeat split; eexists; (split; [reflexivity|simpl; auto]).
Qed.
Example C44_total_case : sound ex (fun i => if i =? 4 then 1 else 0).
Proof.
  split; [|split].
  - intros i I. simpl in I. repeat (destruct I as [<-|I]; [simpl; eauto|]). destruct I.
  - intros i s k S K. apply dget_In in S. simpl in S.
    repeat (destruct S as [S|S]; [injection S as <- <-; simpl in K; try discriminate|]); [|destruct S].
    injection K as <-. exists (SImport [(16, None); (17, Some 15)]), (17, Some 15). split; auto. split; [discriminate|]. simpl. auto.
  - intros i s o j S N J. apply dget_In in S. simpl in S.
    repeat (destruct S as [S|S]; [injection S as <- <-; simpl in N; try discriminate|]); [|destruct S].
    injection N as <-. simpl in J. destruct J as [<-|[]]. simpl. lia.
Qed.
Example C44_acyclic_case : forall i s c p, dget (symbols ex) i = Some s -> In (c, p) (s_used s ++ s_live s) -> p <= c.
Proof.
  intros i s c p S U. apply dget_In in S. simpl in S. repeat (destruct S as [S|S]; [injection S as <- <-; simpl in U; lia || (destruct U as [U|[]]; injection U as <- <-; lia) |]).
  destruct S.
Qed.
Example C44_import_case : NoDup (map bound_name [(16, None); (17, Some 15)]).
Proof. change (NoDup [16; 15]). constructor; [intros [H|[]]; discriminate|]. constructor; [intros []|constructor]. Qed.

(** What is false. *)

(** A list that contains itself ([x = []; x.append(x)]): if its element comes first among the names of the list, the
    export runs into Python's bound on recursion, whatever the bound. *)
Definition own : state := mkSt
  [(1, mkSym 11 101 None true false KOther 7 [] [] [1]); (2, mkSym 12 101 (Some 101) true false KOther 7 [] [] [1])] [(101, [2; 1])].
Theorem C44_recursion_refuted : forall fuel, create_dag_metadata fuel own = Err OutOfFuel.
Proof.
  intros fuel. unfold create_dag_metadata. replace (rfold (on_symbol fuel own) (all_symbols own) (mkTab [] [] [] [] [])) with (@Err tables OutOfFuel); [reflexivity|].
  symmetry. cbn [all_symbols own aliases dvals map concat app rfold snd]. unfold on_symbol at 1. cbn [sym own symbols dget Nat.eqb of_option rbind].
  assert (T : top_level fuel own 2 = Err OutOfFuel).
  { induction fuel as [|fuel IH]; [reflexivity|]. cbn [top_level]. change (sym own 2) with (Ok (mkSym 12 101 (Some 101) true false KOther 7 [] [] [1])).
    cbn [rbind s_ns]. change (first_accessible own (aliases_of own 101)) with (@Ok (option nat) (Some 2)). cbn [rbind]. exact IH. }
  fold own. rewrite T. reflexivity.
Qed.
Print Assumptions C44_recursion_refuted.

(** [import a as x, b as x]: the export lists [import a as x], Python binds x to b. *)
Theorem C44_import_refuted : forall x a b s, a <> b -> a <> x -> s_name s = x -> s_kind s = KImport (Some (SImport [(a, Some x); (b, Some x)])) ->
  import_of s = Ok (IImport a (Some x)) /\ binds_in [(a, Some x); (b, Some x)] x b /\ ~ recreates (SImport [(a, Some x); (b, Some x)]) x (IImport a (Some x)).
Proof.
  intros x a b s N X E K. split; [|split].
  - unfold import_of. rewrite K, E. unfold original. cbn [find bound_name snd]. rewrite Nat.eqb_refl. cbn. apply Nat.eqb_neq in X. rewrite X. reflexivity.
  - exists [(a, Some x)], (Some x), []. split; [reflexivity|]. split; [reflexivity|intros ? []].
  - intros ((l1 & c & l2 & L & B & F) & _). destruct l1 as [|y l1].
    + injection L as _ L. apply (F (b, Some x)); [rewrite <- L; left; reflexivity|reflexivity].
    + injection L as _ L. destruct l1 as [|y' l1]; [|destruct l1; discriminate]. injection L as <- _ _. congruence.
Qed.
Print Assumptions C44_import_refuted.

(** A cycle: cell 1 made x, cell 2 made y from x; then the user edits cell 1 so that it mentions y, and its liveness is
    recomputed (comm_manager.py:228-276). Each is a parent of the other. *)
Definition edited : state := mkSt
  [(1, mkSym 11 101 None true false KOther 7 [(2, 1)] [] [1]); (2, mkSym 12 102 None true false KOther 7 [] [(1, 2)] [2])] [(101, [1]); (102, [2])].
Theorem C44_cycle_refuted : exists md, create_dag_metadata 2 edited = Ok md /\ parent md 2 1 /\ parent md 1 2.
Proof. eexists. split; [vm_compute; reflexivity|]. split; eexists; (split; [reflexivity|simpl; auto]). Qed.
Print Assumptions C44_cycle_refuted.
