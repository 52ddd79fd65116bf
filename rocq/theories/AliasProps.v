(** C55, C56: the table of aliases, and the collection of what is gone. *)
Require Import List Arith ZArith Bool Lia.
Import ListNotations.
Require Import Verif.Base Verif.Loops Verif.AliasModel Verif.AliasSpec Verif.AliasProofs.
Local Open Scope nat_scope.

Definition nolook : nat -> nat -> bool -> got := fun _ _ _ => Missing.
(** [x = [y0]] with [y0] in position 0: object 10 has namespace 1 with the item symbol 2, held by 3 ([x]); then [z = x] (symbol 4). *)
Definition made : list op :=
  [MakeSpace 10 false false [7]; Store 1 true 0 false 1%Z 20 nolook; Store 0 false 7 false 1%Z 10 nolook; Store 0 false 8 false 1%Z 10 nolook].
(** [x] becomes another list whose first item is the object 21. The old list is still held by [z]. *)
Definition other : list op := [Repath 0 []; Store 0 false 7 false 2%Z 11 (fun _ _ _ => Found 21)].
Example made_ok : exists st, run 9 (made ++ other) = Ok st /\ aliases st = [(10, [4]); (21, [2]); (11, [3])] /\ spaces st = [(10, 1); (11, 5)].
Proof. eexists. split; [vm_compute; reflexivity|split; reflexivity]. Qed.
Example made_completes : always completes 9 (made ++ other) start.
Proof. cbn [always app made other completes]. repeat (split; [exact Logic.I|]; intros ? _). exact Logic.I. Qed.

(** After any history in which no update is interrupted the table lists under an object exactly the symbols that hold it. *)
Theorem C55_exact : forall fuel l st, always completes fuel l start -> run fuel l = Ok st -> forall o s, listed st o s <-> holds st s o.
Proof.
  intros fuel l st A H o s. pose proof (run_inv _ _ _ _ start_inv A H) as I. split; intros Q; [eapply listed_holds; eauto|eapply holds_listed; eauto]; intros [].
Qed.
Print Assumptions C55_exact.
Example C55_exact_ex : exists st, run 9 (made ++ other) = Ok st /\ holds st 2 21 /\ holds st 4 10 /\ ~ listed st 10 3.
Proof.
  eexists. split; [vm_compute; reflexivity|]. split; [eexists; split; reflexivity|]. split; [eexists; split; reflexivity|]. intros (l & D & Q). injection D as <-. destruct Q as [Q|[]]. discriminate.
Qed.
(** Each name and each position leads to a symbol that is kept, is listed under its object and no other, and says itself where
    it is. *)
Theorem C55_bound : forall fuel l st, always completes fuel l start -> run fuel l = Ok st -> forall n sub k s, bound st n sub k s ->
  placed st n sub k s /\ exists o, holds st s o /\ listed st o s /\ forall o', listed st o' s -> o' = o.
Proof.
  intros fuel l st A H n sub k s B. pose proof (run_inv _ _ _ _ start_inv A H) as I. pose proof (i_place _ _ I _ _ _ _ B) as P. split; auto. destruct P as (y & Y & _). exists (y_obj y).
  assert (Q : holds st s (y_obj y)) by (exists y; auto). split; auto. split; [eapply holds_listed; eauto|]. intros o' L. eapply (listed_holds none) in L; eauto. destruct L as (z & Z & <-). congruence.
Qed.
Print Assumptions C55_bound.
Example C55_bound_ex : exists st, run 9 (made ++ other) = Ok st /\ bound st 5 true 0 2 /\ bound st 0 false 7 3.
Proof. eexists. split; [vm_compute; reflexivity|]. split; eexists; split; reflexivity. Qed.
(** The namespace kept for an object is one of this object, so no namespace is kept for two. *)
Theorem C55_space : forall fuel l st, always completes fuel l start -> run fuel l = Ok st ->
  (forall o n, dget (spaces st) o = Some n -> exists c, dget (scopes st) n = Some c /\ s_ns c = true /\ s_obj c = o) /\
  (forall o o' n, dget (spaces st) o = Some n -> dget (spaces st) o' = Some n -> o = o').
Proof.
  intros fuel l st A H. pose proof (run_inv _ _ _ _ start_inv A H) as I. split.
  - intros o n D. destruct (i_space _ _ I _ _ D) as (c & C & O & N). eauto.
  - intros o o' n D D'. destruct (i_space _ _ I _ _ D) as (c & C & O & _). destruct (i_space _ _ I _ _ D') as (c' & C' & O' & _). congruence.
Qed.
Print Assumptions C55_space.
Example C55_space_ex : exists st, run 9 (made ++ other) = Ok st /\ dget (spaces st) 10 = Some 1 /\ dget (spaces st) 11 = Some 5.
Proof. eexists. split; [vm_compute; reflexivity|]. split; reflexivity. Qed.

(** It does not hold when a store is interrupted: after [x = a], a store of [x] that raises, and [x = c], the symbol is still listed under
    the object of the store that failed. *)
Definition broken : list op := [Store 0 false 7 false 1%Z 10 nolook; StoreFails 0 false 7 false 2%Z 11 nolook; Store 0 false 7 false 3%Z 12 nolook].
Theorem C55_aborted_refuted : exists fuel l st s o o', (forall e, In e l -> match e with Store 0 false _ _ _ _ _ | StoreFails 0 false _ _ _ _ _ => True | _ => False end) /\
  run fuel l = Ok st /\ holds st s o /\ o' <> o /\ listed st o' s.
Proof.
  exists 9, broken. eexists. exists 1, 12, 11. split; [simpl; intros e [<-|[<-|[<-|[]]]]; exact Logic.I|]. split; [vm_compute; reflexivity|]. split; [eexists; split; reflexivity|]. split; [discriminate|].
  eexists. split; [reflexivity|]. simpl. auto.
Qed.
Print Assumptions C55_aborted_refuted.
(** Nor when a mutated item counts as several: the update protocol adds these to the set in the table. *)
Definition several : list op := [Store 0 false 7 false 1%Z 10 nolook; Store 0 false 8 false 1%Z 11 nolook; Mutate 1 [2]].
Theorem C55_duped_refuted : exists fuel l st s o o', (forall e, In e l -> match e with StoreFails _ _ _ _ _ _ _ => False | _ => True end) /\
  run fuel l = Ok st /\ holds st s o /\ o' <> o /\ listed st o' s.
Proof.
  exists 9, several. eexists. exists 2, 11, 10. split; [simpl; intros e [<-|[<-|[<-|[]]]]; exact Logic.I|]. split; [vm_compute; reflexivity|]. split; [eexists; split; reflexivity|]. split; [discriminate|].
  eexists. split; [reflexivity|]. simpl. auto.
Qed.
Print Assumptions C55_duped_refuted.

(** When a symbol is deleted, marked are it, the namespaces of objects that no unmarked symbol holds any more, and their members;
    nothing else, and nothing but the marks changes. *)
Theorem C56_mark : forall fuel l st f x st', always completes fuel l start -> run fuel l = Ok st -> mark_sym f st x = Ok st' ->
  (forall s, garbage st' s <-> garbage st s \/ goes st (eq x) (inl s)) /\
  (forall n, garbage_space st' n <-> garbage_space st n \/ goes st (eq x) (inr n)) /\
  (forall s, option_map (fun y => set_tomb y true) (dget (syms st') s) = option_map (fun y => set_tomb y true) (dget (syms st) s)) /\
  (forall n, option_map (fun c => set_stomb c true) (dget (scopes st') n) = option_map (fun c => set_stomb c true) (dget (scopes st) n)) /\
  aliases st' = aliases st /\ spaces st' = spaces st.
Proof.
  intros fuel l st f x st' A H M. pose proof (run_inv _ _ _ _ start_inv A H) as I. destruct (mark_exact _ _ _ _ I M) as (E1 & E2). split; auto. split; auto.
  pose proof (proj1 (mark_sim f) _ _ _ M) as S. split; [|split; [|split; [apply (sim_aliases _ _ S)|apply (sim_spaces _ _ S)]]].
  - intros s. pose proof (sim_syms _ _ S s) as Q. unfold rel_opt in Q. destruct (dget (syms st) s), (dget (syms st') s); simpl; [unfold sim_y in Q; congruence|destruct Q|destruct Q|auto].
  - intros n. pose proof (sim_scopes _ _ S n) as Q. unfold rel_opt in Q. destruct (dget (scopes st) n), (dget (scopes st') n); simpl; [unfold sim_c in Q; congruence|destruct Q|destruct Q|auto].
Qed.
Print Assumptions C56_mark.
(** [x = [y0]], and [x] is deleted: its item goes too. *)
Definition made1 : list op := [MakeSpace 10 false false [7]; Store 1 true 0 false 1%Z 20 nolook; Store 0 false 7 false 1%Z 10 nolook].
Example C56_mark_ex : always completes 9 made1 start /\ exists st st', run 9 made1 = Ok st /\ mark_sym 9 st 3 = Ok st' /\ garbage st' 3 /\ garbage_space st' 1 /\ garbage st' 2 /\ goes st (eq 3) (inl 2).
Proof.
  split; [cbn [always made1 completes]; repeat (split; [exact Logic.I|]; intros ? _); exact Logic.I|]. eexists. eexists. split; [vm_compute; reflexivity|]. split; [vm_compute; reflexivity|].
  split; [eexists; split; reflexivity|]. split; [eexists; split; reflexivity|]. split; [eexists; split; reflexivity|].
  assert (N : forall n, n = 2 \/ n = 3 -> ~ garbage (mkSt [(2, mkY 0 true 1 20 (Some 20) false false 1); (3, mkY 7 false 0 10 (Some 10) false false 1)] [(0, mkS [(7, 3)] [] false 0 false false false []); (1, mkS [] [(0, 2)] true 10 false false false [7])] [(20, [2]); (10, [3])] [(10, 1)] 4) n).
  { intros n Q (y & Y & T). destruct Q as [-> | ->]; injection Y as <-; discriminate. }
  eapply goes_member with (n := 1) (sub := true) (k := 0); [|eexists; split; reflexivity|apply N; auto].
  assert (G3 : goes (mkSt [(2, mkY 0 true 1 20 (Some 20) false false 1); (3, mkY 7 false 0 10 (Some 10) false false 1)] [(0, mkS [(7, 3)] [] false 0 false false false []); (1, mkS [] [(0, 2)] true 10 false false false [7])] [(20, [2]); (10, [3])] [(10, 1)] 4) (eq 3) (inl 3)) by (apply goes_it; auto).
  eapply goes_space with (s := 3) (o := 10); [exact G3|eexists; split; reflexivity|reflexivity| |].
  - intros (c & C & T). injection C as <-. discriminate.
  - intros t (l & D & Q) _. injection D as <-. destruct Q as [<-|[]]. exact G3.
Qed.

(** What a collection does. A symbol is collected if it was marked, or goes with what the cell had left without a name when it last ran;
    and only if it was marked, or goes with this or with what the cell had put into arrays. The names and positions that are freed are
    those of collected symbols. A namespace is dropped only if it was marked or goes, and has nothing left in it. What remains is not
    changed, and no mark remains. *)
Theorem C56_gc : forall fuel l st f prev st', always completes fuel l start -> run fuel l = Ok st -> gc f prev st = Ok st' ->
  (forall s, garbage st s \/ (0 < prev)%Z /\ goes st (unnamed st prev) (inl s) -> dget (syms st') s = None) /\
  (forall s, dget (syms st) s <> None -> dget (syms st') s = None -> garbage st s \/ (0 < prev)%Z /\ goes st (fun x => unnamed st prev x \/ in_array st prev x) (inl s)) /\
  (forall s, dget (syms st') s <> None -> dget (syms st') s = dget (syms st) s) /\
  (forall n sub k t, bound st' n sub k t <-> bound st n sub k t /\ forall s, placed st n sub k s -> dget (syms st') s <> None) /\
  (forall o n, dget (spaces st') o = Some n -> dget (spaces st) o = Some n) /\
  (forall o n, dget (spaces st) o = Some n -> dget (spaces st') o <> Some n ->
     (garbage_space st n \/ (0 < prev)%Z /\ goes st (fun x => unnamed st prev x \/ in_array st prev x) (inr n)) /\ forall sub k s, ~ bound st' n sub k s) /\
  (forall s, ~ garbage st' s) /\ (forall o n, dget (spaces st') o = Some n -> ~ garbage_space st' n).
Proof.
  intros fuel l st f prev st' A H G. pose proof (run_inv _ _ _ _ start_inv A H) as I. destruct (gc_final _ _ _ _ I G) as (st1 & E1 & I1 & I' & Ks & Kb & Ksp & Ng & Ngs). destruct (gc_mark_ok _ _ _ _ I E1) as (M & J & U & _).
  assert (Col : forall s, dget (syms st) s <> None -> (dget (syms st') s = None <-> garbage st1 s)).
  { intros s K. destruct (dget (syms st) s) as [y|] eqn:Y; [|congruence]. split.
    - intros N. destruct (garbage_dec st1 s) as [Gs|Gs]; auto. assert (dget (syms st') s = Some y) by (apply Ks; auto). congruence.
    - intros Gs. destruct (dget (syms st') s) as [z|] eqn:Z; auto. apply Ks in Z. tauto. }
  assert (Kn : forall s, garbage st s -> dget (syms st) s <> None) by (intros s (y & Y & _); congruence).
  assert (wide : forall z, goes st (seeds st prev) z -> (0 < prev)%Z /\ goes st (fun x => unnamed st prev x \/ in_array st prev x) z).
  { intros z Gz. induction Gz as [x (Pz & Dx) N|s o n Gs (P1 & IHs) Ho Sp N Al IHa|n sub k s Gn (P1 & IHn) Bd N].
    - split; auto. apply goes_it; auto.
    - split; auto. eapply goes_space; eauto. intros t Lt Nt. apply (IHa t Lt Nt).
    - split; auto. eapply goes_member; eauto. }
  split; [|split; [|split; [|split; [|split; [|split; [|split]]]]]]; auto.
  - intros s Q. destruct Q as [Q|(Pz & Q)].
    + apply Col; auto. apply (m_sym _ _ M); auto.
    + pose proof (goes_marked st (unnamed st prev) st1 M (fun x Dx _ => U x Pz Dx) _ Q) as Gs. simpl in Gs. destruct (dget (syms st') s) as [z|] eqn:Z; auto. apply Ks in Z. tauto.
  - intros s K N. apply (Col s K) in N. apply (j_sym _ _ _ J) in N. destruct N as [N|N]; auto.
  - intros s N. destruct (dget (syms st') s) as [z|] eqn:Z; [|congruence]. apply Ks in Z. destruct Z as (-> & _). auto.
  - intros n sub k t. rewrite Kb. split; intros (B & Q); split; auto.
    + intros s P C. destruct P as (y & Y & P). apply (Q s); [|exists y; auto]. apply Col; auto. congruence.
    + intros s Gs P. apply (Q s P). destruct P as (y & Y & P). apply Col; auto. congruence.
  - intros o n D. apply Ksp in D. tauto.
  - intros o n D N. assert (Q : ~ ~ (garbage_space st1 n /\ forall sub k s, ~ bound st' n sub k s)) by (intros Q; apply N, Ksp; auto).
    assert (Gd : garbage_space st1 n). { destruct (garbage_space_dec st1 n) as [Q'|Q']; auto. exfalso. apply Q. tauto. }
    split.
    + apply (j_ns _ _ _ J) in Gd. destruct Gd as [Gd|Gd]; auto.
    + intros sub k s B. apply Q. intros (_ & W). apply (W sub k s B).
Qed.
Print Assumptions C56_gc.
(** [x = [y0]; z = x]; [del x]; a collection, which takes [x] only. Then [del z], and a collection takes it and the item. *)
Example C56_gc_ex : always completes 9 (made ++ [Delete 0 7]) start /\ exists st st' st'', run 9 (made ++ [Delete 0 7]) = Ok st /\ gc 9 (-1) st = Ok st' /\ dkeys (syms st') = [2; 4] /\ spaces st' = [(10, 1)] /\
  rfold (step 9) [Delete 0 8; Gc (-1)] st' = Ok st'' /\ syms st'' = [] /\ spaces st'' = [] /\ aliases st'' = [].
Proof.
  split; [cbn [always app made completes]; repeat (split; [exact Logic.I|]; intros ? _); exact Logic.I|]. eexists. eexists. eexists. split; [vm_compute; reflexivity|]. split; [vm_compute; reflexivity|]. repeat (split; [vm_compute; reflexivity|]). vm_compute. reflexivity.
Qed.
(** A name the rewritten code made up, stored by the first run of a cell (as 1) and not by the second: collected then. *)
Example C56_gc_ex2 : exists st st', run 9 [Store 0 false 7 true 1%Z 10 nolook; Store 0 false 8 false 1%Z 10 nolook; Store 0 false 9 true 2%Z 11 nolook] = Ok st /\ gc 9 1 st = Ok st' /\ dkeys (syms st') = [2; 3].
Proof. eexists. eexists. split; [vm_compute; reflexivity|]. split; vm_compute; reflexivity. Qed.

(** Marking and collecting come to an end, also where objects contain themselves: what they need depends on the state alone. *)
Theorem C56_total : forall fuel l st, always completes fuel l start -> run fuel l = Ok st -> exists d, forall f, d <= f ->
  (forall prev, exists st', gc f prev st = Ok st') /\ (forall n k, dget (scopes st) n <> None -> exists st', delete f st n k = Ok st').
Proof.
  intros fuel l st A H. pose proof (run_inv _ _ _ _ start_inv A H) as I. exists (S (cnt st)). intros f L. split; [intros prev; apply gc_total; auto; lia|].
  intros n k K. unfold delete, scope_of. destruct (dget (scopes st) n) as [c|] eqn:C; [|congruence]. cbn [of_option rbind]. destruct (dget (s_names c) k) as [s|] eqn:D; [|eauto].
  assert (B : bound st n false k s) by (exists c; auto). destruct (i_place _ _ I _ _ _ _ B) as (y & Y & _). unfold unput, scope_of. rewrite C. cbn [of_option rmap rbind].
  assert (U : unput st n false k = Ok (with_scope st n (set_table c false (dpop (table c false) k)))) by (unfold unput, scope_of; rewrite C; reflexivity).
  pose proof (unput_inv _ _ _ _ _ _ I U) as I1. set (t := with_scope st n (set_table c false (dpop (table c false) k))) in *.
  assert (R : refresh_cached t s = Ok (with_sym t s (set_cached y (Some (y_obj y))))) by (unfold refresh_cached, sym_of; simpl; rewrite Y; reflexivity). destruct (refresh_plain _ _ _ I1 R) as (I2 & _).
  rewrite R. cbn [rbind]. apply (proj1 (mark_total f)); auto; [|simpl; rewrite dget_dset_same; discriminate]. enough (E : cnt (with_sym t s (set_cached y (Some (y_obj y)))) = cnt st) by lia.
  unfold cnt. simpl. f_equal; f_equal; apply filter_ext; intros u; unfold clean, clean_ns; simpl.
  - destruct (Nat.eq_dec u s) as [->|N]; [rewrite dget_dset_same, Y; reflexivity|rewrite dget_dset_other by auto; reflexivity].
  - destruct (Nat.eq_dec u n) as [->|N]; [rewrite dget_dset_same, C; reflexivity|rewrite dget_dset_other by auto; reflexivity].
Qed.
Print Assumptions C56_total.
(** [x = [x]]: the list contains itself. *)
Definition cyclic : list op := [MakeSpace 10 false false [7]; Store 1 true 0 false 1%Z 10 nolook; Store 0 false 7 false 1%Z 10 nolook].
Example C56_total_ex : always completes 9 cyclic start /\ exists st st', run 9 cyclic = Ok st /\ delete 9 st 0 7 = Ok st' /\ holds st 2 10 /\ holds st 3 10.
Proof.
  split; [cbn [always cyclic completes]; repeat (split; [exact Logic.I|]; intros ? _); exact Logic.I|]. eexists. eexists. split; [vm_compute; reflexivity|]. split; [vm_compute; reflexivity|]. split; eexists; split; reflexivity.
Qed.
(** But then they are never collected: no variable is left, and still the item is kept. *)
Theorem C56_cycle_refuted : exists fuel l st s, always completes fuel l start /\ run fuel (l ++ [Gc (-1)]) = Ok st /\ (forall k t, ~ bound st 0 false k t) /\ dget (syms st) s <> None.
Proof.
  exists 9, (cyclic ++ [Delete 0 7]). eexists. exists 2. split; [cbn [always app cyclic completes]; repeat (split; [exact Logic.I|]; intros ? _); exact Logic.I|]. split; [vm_compute; reflexivity|]. split; [|discriminate].
  intros k t (c & C & D). injection C as <-. discriminate.
Qed.
Print Assumptions C56_cycle_refuted.

(** What the user relies on: a variable that was stored, and not deleted since, is still known after any number of collections. What is
    missing: it need not be when it was deleted and stored again before the collection that follows, see [C56_refuted]. *)
Theorem C56_variables_partial : forall fuel l st k, always completes fuel l start -> always reads_live fuel l start -> no_return l [] -> run fuel l = Ok st ->
  last_store k l false = true -> exists s o, bound st 0 false k s /\ holds st s o /\ ~ garbage st s.
Proof.
  intros fuel l st k A R N H Ls. destruct (run_hist _ k _ _ _ [] false start_inv A R N (start_hist k) H) as (gone & Hi). rewrite Ls in Hi. destruct (h_flag _ _ _ _ Hi eq_refl) as (s & y & B & Y & _).
  exists s, (y_obj y). split; auto. split; [exists y; auto|]. apply (h_bound _ _ _ _ Hi k s B).
Qed.
Print Assumptions C56_variables_partial.
Definition kept : list op := made ++ [Delete 0 7; Gc (-1); Store 0 false 7 false 2%Z 10 nolook; Delete 0 8; Refer 5 11 nolook; Gc 1].
Example C56_variables_ex : exists st, always completes 9 kept start /\ always reads_live 9 kept start /\ no_return kept [] /\ run 9 kept = Ok st /\ last_store 7 kept false = true /\ last_store 8 kept false = false /\ bound st 0 false 7 5.
Proof.
  eexists. split; [cbn [always app made kept completes]; repeat (split; [exact Logic.I|]; intros ? _); exact Logic.I|]. split.
  - unfold kept, made. cbn [app]. repeat (cbn [always reads_live]; split; [exact Logic.I|]; let H := fresh in intros ? H; vm_compute in H; injection H as <-).
    cbn [always reads_live]. split; [intros (y & Y & T); injection Y as <-; discriminate|]. intros ? _. split; [exact Logic.I|]. intros ? _. exact Logic.I.
  - split; [simpl; intuition discriminate|]. split; [vm_compute; reflexivity|]. split; [reflexivity|]. split; [reflexivity|]. eexists. split; reflexivity.
Qed.
(** [del x; x = 2] in one cell: the collection at its end takes away the new [x]. *)
Theorem C56_refuted : exists fuel l st k, always completes fuel l start /\ always reads_live fuel l start /\ run fuel l = Ok st /\ last_store k l false = true /\ forall s, ~ bound st 0 false k s.
Proof.
  exists 9, [Store 0 false 7 false 1%Z 10 nolook; Gc (-1); Delete 0 7; Store 0 false 7 false 2%Z 11 nolook; Gc (-1)]. eexists. exists 7.
  split; [cbn [always completes]; repeat (split; [exact Logic.I|]; intros ? _); exact Logic.I|]. split; [cbn [always reads_live]; repeat (split; [exact Logic.I|]; intros ? _); exact Logic.I|]. split; [vm_compute; reflexivity|]. split; [reflexivity|].
  intros s (c & C & D). injection C as <-. discriminate.
Qed.
Print Assumptions C56_refuted.
