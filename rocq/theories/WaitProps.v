(** C57: waiting symbols, and the cached answers. *)
Require Import List Arith ZArith Bool Lia Relations.
Import ListNotations.
Require Import Verif.Base Verif.Loops Verif.WaitModel Verif.WaitSpec Verif.WaitProofs.
Local Open Scope Z_scope.

(** Cell 1 wrote [x] (symbol 0) and is at position 1; cell 2, below it, then made [y] (1) of [x]; cell 3, below, made [z] (2) of [y]; then
    the first was run again, as 4. The list [l] (3) has [z] as an item. *)
Definition syms (s : nat) : sy :=
  match s with
  | 0%nat => mkY false 4 (-1) [] [] [1; 4]
  | 1%nat => mkY false 2 4 [] [(0%nat, [2])] [2]
  | 2%nat => mkY false 3 4 [] [(1%nat, [3])] [3]
  | _ => mkY false 3 (-1) [2%nat] [] [3]
  end.
Definition places (c : Z) : option Z := if c =? 1 then Some 1 else if c =? 2 then Some 2 else if c =? 3 then Some 3 else if c =? 4 then Some 1 else None.
Definition nb : world := mkW syms places false (-1) 4.
Example nb_asked : exists c, asks 9 [mkQ nb 3%nat 3 true; mkQ nb 2%nat 2 true; mkQ nb 2%nat 3 true; mkQ nb 1%nat 2 false; mkQ nb 0%nat 3 true; mkQ nb 3%nat 3 true; mkQ nb 3%nat 3 false] empty
  = Ok ([true; false; true; true; false; true; false], c).
Proof. eexists. vm_compute. reflexivity. Qed.
Lemma nb_from : forall s pos p q ts u, from nb s pos p q ts u -> s = 1%nat /\ p = 0%nat \/ s = 2%nat /\ p = 1%nat.
Proof. intros s pos p q ts u (l & r & I & _). destruct s as [|[|[|s]]]; simpl in I; try contradiction; destruct I as [I|[]]; injection I as <- <-; auto. Qed.
Example nb_acyclic : acyclic nb.
Proof.
  assert (E : forall a b, edge nb a b -> (fst (fst b) < fst (fst a))%nat).
  { intros a b (_ & _ & _ & [(ts & u & F)|(_ & I & _)]); [apply nb_from in F; lia|]. destruct a as ((a, pa), da), b as ((b, pb), db). simpl in *. destruct a as [|[|[|a]]]; simpl in I; try contradiction. destruct I as [<-|[]]. lia. }
  assert (T : forall a b, clos_trans node (edge nb) a b -> (fst (fst b) < fst (fst a))%nat) by (intros a b H; induction H as [a b H|a b c H1 IH1 H2 IH2]; [auto|lia]).
  intros n H. apply T in H. lia.
Qed.
Example nb_from_x : from nb 1 2 0 2 2 4.
Proof. exists [2], 1. simpl. repeat (split; [auto; try lia; reflexivity|]). lia. Qed.
Example nb_waits : waits nb 3 3 true.
Proof.
  assert (S1 : stale nb 1) by (repeat split; reflexivity). assert (S2 : stale nb 2) by (repeat split; reflexivity).
  apply inside with (m := 2%nat); [|simpl; auto|].
  - apply by_member with (m := 2%nat); simpl; auto. apply by_itself. auto.
  - apply older with (p := 1%nat) (q := 3) (ts := 3) (u := 2); [apply by_itself; auto| |].
    + exists [3], 2. simpl. repeat (split; [auto; try lia; reflexivity|]). lia.
    + apply newer with (p := 0%nat) (q := 2) (ts := 2) (u := 4); [apply by_itself; auto| |lia]. exists [2], 1. simpl. repeat (split; [auto; try lia; reflexivity|]). lia.
Qed.

(** Whether a symbol is waiting at all. *)
Theorem C57_waiting : forall fuel w s b, is_waiting fuel w s = Ok b -> (b = true <-> waiting w s).
Proof. intros fuel w s b H. eapply is_waiting_spec. eauto. Qed.
Print Assumptions C57_waiting.
Example C57_waiting_ex : is_waiting 5 nb 3 = Ok true /\ is_waiting 5 nb 0 = Ok false /\ is_waiting 5 (mkW syms places false 4 4) 3 = Ok false /\ is_waiting 5 (mkW syms places false 3 4) 3 = Ok true.
Proof. repeat split; vm_compute; reflexivity. Qed.
(** In whatever order the questions are asked, a symbol said to be waiting at a position is. *)
Theorem C57_sound : forall fuel l bs c, in_time (-1) l -> asks fuel l empty = Ok (bs, c) -> Forall2 (fun q b => b = true -> waits (q_w q) (q_s q) (q_pos q) (q_deep q)) l bs.
Proof.
  intros fuel l bs c T H. refine (asks_inv fuel sound (fun w n b => b = true -> holds w n) l (-1) empty bs c _ _ _ _ T H).
  - intros q d _ E n V. congruence.
  - intros q d b d' _ S Q. eapply at_sound; eauto.
  - intros s. simpl. lia.
  - intros q _ E n V. exfalso. unfold view, empty in V. simpl in V. rewrite E in V. discriminate.
Qed.
Print Assumptions C57_sound.
(** If in addition no answer depends on itself, every answer is right: none depends on what was asked before. *)
Theorem C57_exact : forall fuel l bs c, in_time (-1) l -> (forall q, In q l -> acyclic (q_w q)) -> asks fuel l empty = Ok (bs, c) -> Forall2 (fun q b => b = true <-> waits (q_w q) (q_s q) (q_pos q) (q_deep q)) l bs.
Proof.
  intros fuel l bs c T A H. refine (asks_inv fuel (fun w c => forall m v, view w c m = Some v -> (v = true <-> holds w m)) (fun w n b => b = true <-> holds w n) l (-1) empty bs c _ _ _ _ T H).
  - intros q d _ E n v V. congruence.
  - intros q d b d' I S Q. destruct (at_acyclic fuel (q_w q) (A q I) d (qn q) b d' (fun _ => False) Q) as (R1 & R2); auto; intros m [].
  - intros s. simpl. lia.
  - intros q _ E n v V. exfalso. unfold view, empty in V. simpl in V. rewrite E in V. discriminate.
Qed.
Print Assumptions C57_exact.
Example C57_exact_ex : in_time (-1) [mkQ nb 3%nat 3 true; mkQ nb 2%nat 2 true; mkQ nb 2%nat 3 true] /\ acyclic nb /\ exists c, asks 9 [mkQ nb 3%nat 3 true; mkQ nb 2%nat 2 true; mkQ nb 2%nat 3 true] empty = Ok ([true; false; true], c).
Proof. split; [simpl; split; [lia|split; [intros q [<-|[<-|[]]] _; reflexivity|split; [lia|split; [intros q [<-|[]] _; reflexivity|split; [lia|split; [intros q []|auto]]]]]]|split; [apply nb_acyclic|eexists; vm_compute; reflexivity]]. Qed.
(** The first question after a cell was run is answered rightly whatever depends on what. *)
Theorem C57_first : forall fuel l q bs c, in_time (-1) (l ++ [q]) -> (forall q', In q' l -> w_now (q_w q') < w_now (q_w q)) -> -1 < w_now (q_w q) -> asks fuel (l ++ [q]) empty = Ok (bs, c) ->
  exists bs' b, bs = bs' ++ [b] /\ (b = true <-> waits (q_w q) (q_s q) (q_pos q) (q_deep q)).
Proof.
  intros fuel l q bs c T Old Now H. apply asks_app in H. destruct H as (bs1 & b & c1 & -> & H1 & H2). exists bs1, b. split; auto. apply (at_first fuel (q_w q) c1 (qn q) b c H2). apply view_old. intros s.
  assert (T1 : in_time (-1) l). { clear -T. revert T. generalize (-1). induction l as [|x l IH]; intros t; simpl; auto. intros (A & B & C). split; auto. split; [intros q' I; apply B; apply in_or_app; auto|]. apply IH. auto. }
  assert (B : fst (c1 s) <= w_now (q_w q) - 1); [|lia]. apply (asks_bound fuel l (-1) empty bs1 c1 (w_now (q_w q) - 1)); auto; [intros; simpl; lia|lia|]. intros q' I. specialize (Old q' I). lia.
Qed.
Print Assumptions C57_first.
Definition later : world := mkW syms places false (-1) 5.
Example C57_first_ex : in_time (-1) [mkQ nb 2%nat 2 true; mkQ later 2%nat 3 true] /\ exists c, asks 9 [mkQ nb 2%nat 2 true; mkQ later 2%nat 3 true] empty = Ok ([false; true], c).
Proof. split; [simpl; split; [lia|split; [intros q [<-|[]] E; discriminate|split; [lia|split; [intros q []|auto]]]]|eexists; vm_compute; reflexivity]. Qed.
(** Every question is answered, also where answers depend on themselves, as long as no namespace contains itself or [min_timestamp] is
    not set. *)
Theorem C57_total : forall w L, complete w L -> w_min w = -1 \/ nested w -> forall pos, exists d, forall fuel, (d <= fuel)%nat -> forall s c deep, In s L -> exists b c', at_position fuel w c s pos deep = Ok (b, c').
Proof. exact ask_total. Qed.
Print Assumptions C57_total.
Example C57_total_ex : complete nb [0; 1; 2; 3]%nat /\ nested nb.
Proof.
  split.
  - intros s I. split.
    + intros p l ts J. destruct I as [<-|[<-|[<-|[<-|[]]]]]; simpl in J; try contradiction; destruct J as [J|[]]; injection J as <- <-; (split; [simpl; auto|]); simpl; intros [[<-|[]]|K]; try discriminate; repeat (destruct K as [<-|K]; [discriminate|]); destruct K.
    + intros m J. destruct I as [<-|[<-|[<-|[<-|[]]]]]; simpl in J; try contradiction. destruct J as [<-|[]]. simpl. auto.
  - exists (fun s => s). intros [|[|[|s]]] m; simpl; intros I; try contradiction. destruct I as [<-|[]]. lia.
Qed.

(** Where answers depend on themselves a later one can be wrong: [a = b + c; b = a] in one cell (2, run after the first cell wrote [c], which
    was then run again as 3). Asked about [a] first, [b] is then said not to be waiting. *)
Definition loop (s : nat) : sy :=
  match s with
  | 0%nat => mkY false 2 3 [] [(1%nat, [2]); (2%nat, [2])] [2]
  | 1%nat => mkY false 2 3 [] [(0%nat, [2])] [2]
  | _ => mkY false 3 (-1) [] [] [1; 3]
  end.
Definition round : world := mkW loop (fun c => if c =? 2 then Some 2 else Some 1) false (-1) 3.
Theorem C57_cycle_refuted : exists fuel w s t pos c, asks fuel [mkQ w s pos true; mkQ w t pos true] empty = Ok ([true; false], c) /\ waits w t pos true /\ exists c', asks fuel [mkQ w t pos true] empty = Ok ([true], c').
Proof.
  exists 9%nat, round, 0%nat, 1%nat, 2. eexists. split; [vm_compute; reflexivity|]. split; [|eexists; vm_compute; reflexivity].
  assert (S0 : stale round 0) by (repeat split; reflexivity). assert (S1 : stale round 1) by (repeat split; reflexivity).
  apply older with (p := 0%nat) (q := 2) (ts := 2) (u := 2); [apply by_itself; auto| |].
  - exists [2], 2. simpl. repeat (split; [auto; try lia; reflexivity|]). lia.
  - apply newer with (p := 2%nat) (q := 2) (ts := 2) (u := 3); [apply by_itself; auto| |lia]. exists [2], 1. simpl. repeat (split; [auto; try lia; reflexivity|]). lia.
Qed.
Print Assumptions C57_cycle_refuted.
(** A cell is checked before it runs, when it already has its counter, and again after it has run: the answers of the first check are kept. Here
    cell 3, at position 2 where [s] (1) had been made of [x] (0), writes [x]. *)
Definition before (s : nat) : sy := match s with 0%nat => mkY false 2 (-1) [] [] [1; 2] | _ => mkY false 1 2 [] [(0%nat, [1])] [1] end.
Definition after (s : nat) : sy := match s with 0%nat => mkY false 3 (-1) [] [] [1; 2; 3] | _ => mkY false 1 3 [] [(0%nat, [1])] [1] end.
Definition spots (c : Z) : option Z := if c =? 2 then Some 3 else Some 2.
Theorem C57_precheck_refuted : exists fuel w w' s pos c, w_now w = w_now w' /\ acyclic w /\ acyclic w' /\ asks fuel [mkQ w s pos true; mkQ w' s pos true] empty = Ok ([false; false], c) /\ waits w' s pos true /\
  exists c', asks fuel [mkQ w' s pos true] empty = Ok ([true], c').
Proof.
  assert (A : forall f, (f = before \/ f = after) -> acyclic (mkW f spots false (-1) 3)).
  { intros f Ef. assert (E : forall a b, edge (mkW f spots false (-1) 3) a b -> fst (fst a) <> 0%nat /\ fst (fst b) = 0%nat).
    { intros ((a, pa), da) ((b, pb), db) (_ & _ & _ & [(ts & u & l & r & I & _)|(_ & I & _)]); destruct Ef as [-> | ->]; destruct a; simpl in *; try contradiction; destruct I as [I|[]]; injection I as <- <-; auto. }
    assert (T : forall a b, clos_trans node (edge (mkW f spots false (-1) 3)) a b -> fst (fst a) <> 0%nat /\ fst (fst b) = 0%nat) by (intros a b H; induction H as [a b H|a b c H1 IH1 H2 IH2]; [auto|tauto]).
    intros n H. apply T in H. tauto. }
  exists 9%nat, (mkW before spots false (-1) 3), (mkW after spots false (-1) 3), 1%nat, 2. eexists. split; auto. split; [apply A; auto|]. split; [apply A; auto|]. split; [vm_compute; reflexivity|]. split; [|eexists; vm_compute; reflexivity].
  apply newer with (p := 0%nat) (q := 2) (ts := 1) (u := 3); [apply by_itself; repeat split; reflexivity| |lia]. exists [1], 2. simpl. repeat (split; [auto; try lia; reflexivity|]). lia.
Qed.
Print Assumptions C57_precheck_refuted.
(** And once [min_timestamp] is set, a list that contains itself makes the question go on for ever. *)
Theorem C57_endless_refuted : exists w s, forall fuel, is_waiting fuel w s = Err OutOfFuel.
Proof.
  exists (mkW (fun _ => mkY false 1 2 [0%nat] [] []) (fun _ => Some 1) false 3 3), 0%nat. induction fuel as [|f IH]; auto. cbn [is_waiting w_sym y_quiet y_ts y_req y_members w_min any]. simpl. cbn [any]. rewrite IH. reflexivity.
Qed.
Print Assumptions C57_endless_refuted.
