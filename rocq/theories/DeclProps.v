(** C103: what is declared about a library takes effect. *)
From Coq Require Import List Arith Bool.
From Verif Require Import Base DeclModel DeclSpec DeclProofs.
Import ListNotations.

(** Module 1 has the function 5 (object 50) and the classes 6 and 7 (objects 60
    and 70); both classes give the object 80 for the method 8; class 6 gives
    90 for the method 9. *)
Definition w0 : world := mkW
  (fun m n => match m, n with 1, 5 => Some 50 | 1, 6 => Some 60 | 1, 7 => Some 70 | _, _ => None end)
  (fun c k => match c, k with 60, 8 => Some 80 | 70, 8 => Some 80 | 60, 9 => Some 90 | _, _ => None end).

Definition fn (n h : nat) : fnspec := mkF [n] (Some h).

Definition run0 : list event :=
  [File 1 [DFun [] (fn 5 100); DClass [] (mkCl 6 [fn 8 200; fn 9 201])];
   Import 1; Import 2;
   Dir [(3, [DWhen true [DFun [1; 2] (fn 5 101)]; DSkip]); (1, [DFun [] (mkF [5] None); DClass [] (mkCl 6 [fn 8 202])])];
   File 2 [DFun [] (fn 5 102)]].

Lemma only50 : only_function w0 1 5 50.
Proof.
  split; [reflexivity|]. split.
  - intros [|[|m]] n H; cbn in H; try discriminate.
    do 6 (destruct n as [|n]; try discriminate; try (now auto)).
    do 2 (destruct n as [|n]; try discriminate).
  - intros c k H. unfold w0 in H. cbn in H.
    destruct (Nat.eq_dec c 60) as [->|C]; [do 10 (destruct k as [|k]; try discriminate)|].
    do 71 (destruct c as [|c]; try discriminate; try contradiction).
    do 9 (destruct k as [|k]; try discriminate).
Qed.

Lemma only60 : only_class w0 1 6 60.
Proof.
  split; [reflexivity|].
  intros [|[|m]] n H; cbn in H; try discriminate.
  do 7 (destruct n as [|n]; try discriminate; try (now auto)). destruct n; discriminate.
Qed.

Lemma clean_all : forall ds, forallb (fun d => negb (is_raise d)) (flat_map active ds) = true -> clean ds.
Proof.
  intros ds H d I. rewrite forallb_forall in H. apply H in I. now apply negb_true_iff.
Qed.

Lemma timely0 : timely 1 false run0.
Proof.
  cbn [timely run0]. split; [now apply clean_all|]. split; [discriminate|]. cbn [orb Nat.eqb]. split.
  - intros f ds [H|[H|[]]]; injection H as <- <-; now apply clean_all.
  - split; [now apply clean_all|]. split; [|exact I]. intros _. split; reflexivity.
Qed.

(** Functions: in a session in which nothing raises, the imports of the module
    are seen and no single file about it is registered after its import, the
    handler of a function of an imported module is the one declared last for
    it, whenever the declarations were made; it has none before the import. *)
Theorem C103_functions_partial : forall w m es n o,
  timely m false es -> only_function w m n o ->
  (imported m es -> by_function (run w es) o = last_hit n (said_fun m es)) /\
  (~ imported m es -> by_function (run w es) o = None).
Proof.
  intros w m es n o T O.
  destruct (fine_run w m es false [] [] start (fine_start w m) T) as (t & [_ _ _ B _ _] & Q).
  unfold run. rewrite (B n o O). cbn [app]. destruct t.
  - destruct Q as [Q _]. destruct (Q eq_refl) as [H|H]; [discriminate|]. split; [auto|contradiction].
  - destruct Q as [_ Q]. split; [|auto]. intros H. specialize (Q (or_intror H)). discriminate.
Qed.
Print Assumptions C103_functions_partial.

Example C103_functions_case :
  timely 1 false run0 /\ only_function w0 1 5 50 /\ imported 1 run0 /\
  last_hit 5 (said_fun 1 run0) = Some 101 /\ by_function (run w0 run0) 50 = Some 101.
Proof.
  split; [exact timely0|]. split; [exact only50|]. split; [right; left; reflexivity|].
  split; reflexivity.
Qed.

(** And so the order of import and declarations makes no difference. *)
Theorem C103_order_partial : forall w m es es' n o,
  timely m false es -> timely m false es' -> only_function w m n o ->
  imported m es -> imported m es' -> said_fun m es = said_fun m es' ->
  by_function (run w es) o = by_function (run w es') o.
Proof.
  intros w m es es' n o T T' O I I' E.
  destruct (C103_functions_partial w m es n o T O) as (A & _).
  destruct (C103_functions_partial w m es' n o T' O) as (A' & _).
  now rewrite A, A', E.
Qed.
Print Assumptions C103_order_partial.

Definition run1 : list event :=
  [Import 1; Dir [(1, [DFun [] (fn 5 100)]); (3, [DFun [1] (fn 5 101); DFun [1] (mkF [5] None)])]].

Example C103_order_case :
  timely 1 false run1 /\ imported 1 run1 /\
  said_fun 1 run1 = said_fun 1 run0 /\
  by_function (run w0 run1) 50 = by_function (run w0 run0) 50.
Proof.
  split; [|split; [now left|split; reflexivity]].
  cbn [timely run1]. split; [|exact I]. intros f ds [H|[H|[]]]; injection H as <- <-; now apply clean_all.
Qed.

(** Methods: those of the class that was declared last under the name have
    their handlers; and no method has a handler that was not declared for it. *)
Theorem C103_methods_partial : forall w m es n c k h,
  timely m false es -> only_class w m n c ->
  (forall cl, imported m es -> last_class n (said_class m es) = Some cl ->
     last_hit k (c_funs cl) = Some h -> by_method (run w es) c k = Some h) /\
  (by_method (run w es) c k = Some h ->
     exists cl f, In cl (said_class m es) /\ c_name cl = n /\ In f (c_funs cl) /\
       In k (f_names f) /\ f_handler f = Some h).
Proof.
  intros w m es n c k h T O.
  destruct (fine_run w m es false [] [] start (fine_start w m) T) as (t & [_ _ _ _ B S] & Q).
  split.
  - intros cl I L H. apply (B n c k cl h O); [apply Q; auto|exact L|exact H].
  - intros E. destruct (S n c k h O E) as (cl & f & A & D & F & G). exists cl, f.
    unfold hit in G. destruct (memb k (f_names f)) eqn:M; [|discriminate].
    apply memb_In in M. auto.
Qed.
Print Assumptions C103_methods_partial.

Example C103_methods_case :
  only_class w0 1 6 60 /\ option_map c_funs (last_class 6 (said_class 1 run0)) = Some [fn 8 202] /\
  by_method (run w0 run0) 60 8 = Some 202.
Proof. split; [exact only60|split; reflexivity]. Qed.

(** But a single file about a module that is imported already has no effect
    (%flow register_annotations with a file), while a directory has. *)
Theorem C103_file_refuted :
  by_function (run w0 [Import 1; File 1 [DFun [] (fn 5 100)]]) 50 = None /\
  by_function (run w0 [Import 1; Dir [(1, [DFun [] (fn 5 100)])]]) 50 = Some 100 /\
  by_function (run w0 [File 1 [DFun [] (fn 5 100)]; Import 1]) 50 = Some 100.
Proof. repeat split. Qed.
Print Assumptions C103_file_refuted.

(** And of two declarations of methods of the same class the first counts only
    if the module was imported in between. *)
Theorem C103_class_refuted :
  let a := Dir [(1, [DClass [] (mkCl 6 [fn 8 200])])] in
  let b := Dir [(1, [DClass [] (mkCl 6 [fn 9 201])])] in
  by_method (run w0 [a; b; Import 1]) 60 8 = None /\
  by_method (run w0 [a; Import 1; b]) 60 8 = Some 200 /\
  by_method (run w0 [a; b; Import 1]) 60 9 = Some 201.
Proof. repeat split. Qed.
Print Assumptions C103_class_refuted.

(** And a docstring in one file stops the registration of a directory, and
    what was declared before it stays without effect for imported modules. *)
Theorem C103_docstring_refuted :
  by_function (run w0 [Import 1; Dir [(1, [DFun [] (fn 5 100)]); (2, [DRaise])]]) 50 = None /\
  by_function (run w0 [Dir [(2, [DRaise]); (1, [DFun [] (fn 5 100)])]; Import 1]) 50 = None.
Proof. split; reflexivity. Qed.
Print Assumptions C103_docstring_refuted.

(** And a method that a class inherits: the handler declared for it counts for
    the function of the base class as well. *)
Theorem C103_inherited_refuted :
  let es := [Import 1; Dir [(1, [DClass [] (mkCl 7 [fn 8 200])])]] in
  cattr w0 60 8 = Some 80 /\ by_method (run w0 es) 60 8 = None /\
  by_function (run w0 es) 80 = Some 200 /\ said_class 1 es = [mkCl 7 [fn 8 200]].
Proof. repeat split. Qed.
Print Assumptions C103_inherited_refuted.
