(** C94, C95: uninstrumented copies of functions. *)
Require Import List Bool Arith Lia.
Import ListNotations.
Require Import Verif.Base Verif.StripModel Verif.StripSpec Verif.StripProofs.

(** ** C94: no instrumented code *)

(** The search ends: it goes no deeper than there are objects. *)
Theorem C94_ends src n h o : sound h -> o < nobj h -> nobj h < n -> uninstrument src n h [] o <> None.
Proof.
  intros S L N. apply (uninstrument_ends src h S n h [] o); auto; [apply ext_refl|].
  unfold left, unvisited.
  assert (G : forall l : list nat, length (filter (fun v => negb (memb v [])) l) <= length l).
  { induction l as [|a l IH]; [apply le_n|]. cbn [filter length]. destruct (negb _); cbn [length]; lia. }
  specialize (G (seq 0 (nobj h))). rewrite seq_length in G. lia.
Qed.
Print Assumptions C94_ends.

(** The copy itself is a new object that is not instrumented; nothing that was there has changed. *)
Theorem C94_own src n h o o' h' seen : sound h -> o < nobj h ->
  uninstrument src n h [] o = Some (Made o', h', seen) ->
  (exists f, dget (fns h') o' = Some f /\ instr f = false) /\ nobj h <= o' /\
  (forall g, g < nobj h -> dget (fns h') g = dget (fns h) g) /\
  (forall s, s < nns h -> dget (nss h') s = dget (nss h) s) /\
  (forall c, c < ncell h -> dget (cts h') c = dget (cts h) c).
Proof.
  intros S L H. destruct (uninstrument_good src n h [] o _ h' seen S L H) as ((_ & _ & _ & X) & _ & _ & A & _ & B & _).
  split; [exact B|]. split; [exact A|exact X].
Qed.
Print Assumptions C94_own.

(** Nor is anything that it calls, directly or not, if every function with a known source is used in
    one place only, the texts run, there are no closures, and what has no source is no instrumented
    code. *)
Theorem C94_partial src n h o s S r : sound h -> o < nobj h -> grows h src o (s :: S) ->
  uninstrument src n h [] o = Some r -> exists o' h' seen, r = (Made o', h', seen) /\ clean h' o'.
Proof.
  intros Sd L G H. destruct r as ((r, h'), seen).
  destruct (uninstrument_tidy src h Sd n h [] o (s :: S) r h' seen (ext_refl h) Sd L G) as (_ & o' & -> & C).
  - intros x _ [].
  - exact H.
  - now exists o', h', seen.
Qed.
Print Assumptions C94_partial.

(** Objects 0, 1, 2 are functions of the notebook, 3 is one of a library, 4 is a number. The
    variables 10 to 14 refer to them. *)
Definition nb : dict nat := [(10, 0); (11, 1); (12, 2); (13, 3); (14, 4)].
Definition world (a b c : fn) : heap :=
  mkH [(0, a); (1, b); (2, c); (3, mkFn false 3 1 [] [])] [(0, nb); (1, [])] [(0, 1)] 5 2 1.
Definition fun_ (c : nat) (names : list nat) : fn := mkFn true c 0 names [].
Definition all_known (o : nat) : source := if o <? 3 then mkSrc None [true] else mkSrc None [].

Lemma sound_by h :
  forallb (fun p => (fst p <? nobj h) && (ns (snd p) <? nns h) &&
                    forallb (fun q => snd q <? ncell h) (cells (snd p))) (fns h) = true ->
  forallb (fun p => (fst p <? nns h) && forallb (fun q => snd q <? nobj h) (snd p)) (nss h) = true ->
  forallb (fun p => (fst p <? ncell h) && (snd p <? nobj h)) (cts h) = true -> sound h.
Proof.
  intros A B C. rewrite forallb_forall in A, B, C. split; [|split].
  - intros o f F. apply dget_In in F. specialize (A _ F). cbn in A. apply andb_prop in A.
    destruct A as (A & A3). apply andb_prop in A. destruct A as (A1 & A2).
    apply Nat.ltb_lt in A1, A2. split; [exact A1|]. split; [exact A2|]. intros x c I.
    rewrite forallb_forall in A3. specialize (A3 _ I). now apply Nat.ltb_lt in A3.
  - intros s d x v F. apply dget_In in F. specialize (B _ F). cbn in B. apply andb_prop in B.
    destruct B as (B1 & B2). apply Nat.ltb_lt in B1. split; [exact B1|]. intros G. apply dget_In in G.
    rewrite forallb_forall in B2. specialize (B2 _ G). now apply Nat.ltb_lt in B2.
  - intros c v F. apply dget_In in F. specialize (C _ F). cbn in C. apply andb_prop in C.
    destruct C as (C1 & C2). apply Nat.ltb_lt in C1, C2. auto.
Qed.

Lemma clean_leaf h o : (forall f, dget (fns h) o = Some f -> instr f = false /\ co f = [] /\ cells f = []) ->
  clean h o.
Proof.
  intros H g f R F. apply reaches_first in R. destruct R as [-> |(g1 & (f1 & F1 & R) & _)].
  - apply (H f F).
  - destruct (H f1 F1) as (_ & C1 & C2). rewrite C1, C2 in R.
    destruct R as [(x & [] & _)|(x & c & [] & _)].
Qed.

(** [f] calls [g], which calls [h] and the library; all read the number. *)
Example C94_tree : let w := world (fun_ 0 [11; 14; 99]) (fun_ 1 [12; 13; 14]) (fun_ 2 [14]) in
  sound w /\ grows w all_known 0 [0; 1; 2] /\
  match uninstrument all_known 9 w [] 0 with Some (Made o', h', _) => 5 < o' | _ => False end.
Proof.
  cbn zeta. set (w := world _ _ _). split; [now apply sound_by|]. split; [|vm_compute; lia].
  assert (L3 : grows w all_known 3 []).
  { apply grows_leaf; [now split|]. apply clean_leaf. intros f [= <-]. auto. }
  assert (L4 : grows w all_known 4 []).
  { apply grows_leaf; [now split|]. apply clean_leaf. intros f [=]. }
  assert (G2 : grows w all_known 2 [2]).
  { apply (grows_fun w all_known 2 (fun_ 2 [14]) [[]]); try reflexivity.
    - right. split; [reflexivity|]. now exists [].
    - constructor; [exact L4|constructor].
    - repeat constructor. intros []. }
  assert (G1 : grows w all_known 1 [1; 2]).
  { apply (grows_fun w all_known 1 (fun_ 1 [12; 13; 14]) [[2]; []; []]); try reflexivity.
    - right. split; [reflexivity|]. now exists [].
    - constructor; [exact G2|]. constructor; [exact L3|]. constructor; [exact L4|constructor].
    - cbn. constructor; [intros [H|[]]; discriminate|]. constructor; [intros []|constructor]. }
  apply (grows_fun w all_known 0 (fun_ 0 [11; 14; 99]) [[1; 2]; []]); try reflexivity.
  - right. split; [reflexivity|]. now exists [].
  - constructor; [exact G1|]. constructor; [exact L4|constructor].
  - cbn. constructor; [intros [H|[H|[]]]; discriminate|]. constructor; [intros [H|[]]; discriminate|].
    constructor; [intros []|constructor].
Qed.

(** What is made of object 0 still reaches the instrumented object [g]. *)
Definition still (src : nat -> source) (h : heap) (g : nat) : Prop :=
  exists o' h' seen f, uninstrument src 9 h [] 0 = Some (Made o', h', seen) /\ sound h /\
    reaches h' o' g /\ dget (fns h') g = Some f /\ instr f = true.
Ltac by_name x := eexists; split; [vm_compute; reflexivity|]; left; exists x; split; [cbn; tauto|vm_compute; reflexivity].
Ltac still_by tac := do 4 eexists; split; [vm_compute; reflexivity|]; split; [now apply sound_by|];
  split; [tac|split; [vm_compute; reflexivity|reflexivity]].

(** A function that calls itself; one that uses the same function under two names, as does one that
    is used by two functions; one that a closure refers to; and one whose first text does not run. *)
Theorem C94_refuted :
  still all_known (world (fun_ 0 [10]) (fun_ 1 []) (fun_ 2 [])) 0 /\
  still all_known (world (fun_ 0 [11; 12]) (fun_ 1 [12]) (fun_ 2 [])) 2 /\
  still all_known (world (mkFn true 0 0 [] [(20, 0)]) (fun_ 1 []) (fun_ 2 [])) 1 /\
  still (fun o => if o =? 0 then mkSrc None [false; true] else all_known o)
    (world (fun_ 0 [11]) (fun_ 1 []) (fun_ 2 [])) 1.
Proof.
  split; [|split; [|split]].
  - still_by ltac:(apply (reaches_step _ _ 5); [constructor|by_name 10]).
  - still_by ltac:(apply (reaches_step _ _ 7); [constructor|by_name 12]).
  - still_by ltac:(apply (reaches_step _ _ 5); [constructor|];
      eexists; split; [vm_compute; reflexivity|]; right; exists 20, 1; split; [cbn; tauto|vm_compute; reflexivity]).
  - still_by ltac:(apply (reaches_step _ _ 6); [constructor|by_name 11]).
Qed.
Print Assumptions C94_refuted.

(** And if a function uses one that is wrapped in an object of another class, as by a decorator, the
    error is passed on. *)
Theorem C94_raised_refuted : let src o := if o =? 4 then mkSrc None [true] else all_known o in
  exists h' seen, uninstrument src 9 (world (fun_ 0 [14]) (fun_ 1 []) (fun_ 2 [])) [] 0 = Some (Raised, h', seen).
Proof. do 2 eexists. vm_compute. reflexivity. Qed.
Print Assumptions C94_raised_refuted.

(** ** C95: the copy does what the function does *)

(** When it is made, the copy has the code of the function, and its variables refer to the same
    things or to copies that do the same, to any depth. *)
Theorem C95_partial src n h o o' h' seen : sound h -> o < nobj h ->
  uninstrument src n h [] o = Some (Made o', h', seen) ->
  forall depth, view depth h' o' = view depth h o.
Proof.
  intros S L H depth.
  destruct (uninstrument_good src n h [] o _ h' seen S L H) as (X & _ & _ & _ & _ & _ & V).
  rewrite V. exact (view_ext h h' S X depth o L).
Qed.
Print Assumptions C95_partial.

(** If it has no closure, and no source is known for anything it uses, this remains so whatever is
    assigned later. *)
Theorem C95_later_partial src n h o f o' h' seen : dget (fns h) o = Some f -> cells f = [] ->
  (forall x g, In x (co f) -> dget (ns_of h (ns f)) x = Some g -> unknown src g) ->
  o < nobj h -> uninstrument src n h [] o = Some (Made o', h', seen) ->
  forall changes depth,
    view depth (fold_left apply changes h') o' = view depth (fold_left apply changes h') o.
Proof.
  intros F C U L H changes [|depth]; [reflexivity|].
  destruct (uninstrument_plain src n h [] o f o' h' seen F C U H) as (-> & E & _).
  cbn [view]. rewrite apply_fns, E, dget_dset_same, dget_dset_other, F by lia.
  cbn [code co ns cells]. now rewrite C.
Qed.
Print Assumptions C95_later_partial.
Example C95_case : let w := world (fun_ 0 [13; 14]) (fun_ 1 []) (fun_ 2 []) in
  exists o' h' seen, uninstrument all_known 9 w [] 0 = Some (Made o', h', seen) /\
    (forall x g, In x [13; 14] -> dget (ns_of w 0) x = Some g -> unknown all_known g) /\
    view 2 (fold_left apply [Glob 0 14 3] h') o' <> view 2 h' o'.
Proof.
  do 3 eexists. split; [vm_compute; reflexivity|]. split.
  - intros x g [<- |[<- |[]]] [= <-]; now split.
  - vm_compute. discriminate.
Qed.

(** Otherwise it does not: the copy of a function that calls another one does not see what is
    assigned to other variables later; nor does one with a closure see what is assigned to its
    variables. *)
Theorem C95_refuted :
  (let w := world (fun_ 0 [11; 14]) (fun_ 1 []) (fun_ 2 []) in
   exists o' h' seen, sound w /\ uninstrument all_known 9 w [] 0 = Some (Made o', h', seen) /\
     let later := apply h' (Glob 0 14 3) in view 2 later o' <> view 2 later 0) /\
  let w := world (mkFn true 0 0 [] [(20, 0)]) (fun_ 1 []) (fun_ 2 []) in
  exists o' h' seen, sound w /\ uninstrument all_known 9 w [] 0 = Some (Made o', h', seen) /\
    let later := apply h' (Cell 0 4) in view 2 later o' <> view 2 later 0.
Proof.
  split; do 3 eexists; (split; [now apply sound_by|]; split; [vm_compute; reflexivity|]; vm_compute; discriminate).
Qed.
Print Assumptions C95_refuted.
