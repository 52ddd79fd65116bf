(** Property theorems C08, C09, C10, C11, C13, C14 and C47. *)
Require Import String Ascii List ZArith Bool Arith Lia Sorted Permutation.
Import ListNotations.
Require Import Verif.Base Verif.TimestampModel Verif.TimestampProofs Verif.SessionModel
  Verif.SessionSpec Verif.SessionProofs Verif.SessionLog Verif.SliceModel Verif.SliceSpec
  Verif.SliceProofs Verif.SliceText Verif.SliceSession Verif.SliceMore.
Local Open Scope nat_scope.

(** * Concrete cases used below *)

(** Three cells; cell 1 reads from cell 0 twice over, cell 2 reads from cell 1, cell 0
    runs again in between. *)
Definition sample : list event :=
  [EExec 0 None false; EFinish [];
   EExec 1 None false; EUse Dynamic 1 0 7; EUse Static 1 0 7; EFinish [];
   EExec 0 None false; EFinish [];
   EExec 2 None false; EUse Dynamic 3 1 8; EFinish []].

Definition no_text (_ : nat) : string := ""%string.
Definition nobody_skipped : list (Z * Z) :=
  [(1, -1); (2, -1); (3, -1); (4, -1)]%Z.

(** Statements: 0 is [x = f()] at (1,0); 1 is an override statement (a widget) at (3,0)
    with the same id; 2 at (2,0) reads from it. *)
Definition widget_world : world :=
  mkWorld
    [mkSobj (mkTs 1 0) None false "x = 0" (fun _ => []);
     mkSobj (mkTs 3 0) (Some 0) true "x = 1" (fun _ => []);
     mkSobj (mkTs 2 0) None false "y = x" (fun _ => [(10, [7])])]
    [(10, 1); (11, 2)] [(mkTs 1 0, 0); (mkTs 3 0, 1); (mkTs 2 0, 2)] false
    [(1, -1); (2, -1); (3, -1)]%Z.

(** * C08: a slice is the exact backward closure *)

(** For every collection of objects and edges, cyclic or not. *)
Theorem C08_slice_is_closure : forall w ctxs seeds l,
  make_multi_slice w ctxs seeds false = Ok l ->
  forall v, In v l <-> in_closure w ctxs seeds v.
Proof. exact slice_members. Qed.
Print Assumptions C08_slice_is_closure.

(** For the cells of a session: an edge leads to the last execution of the parent cell
    whose counter is at most that of the execution being explained. *)
Theorem C08_cell_slice_is_closure : forall s r text skipped ctxs ks l,
  session s r ->
  make_multi_slice (cell_world s text skipped) ctxs (map SCtr ks) false = Ok l ->
  forall v, In v l <->
    exists k u, In k ks /\ at_counter s k = Ok u /\ reach (cell_depends s ctxs) u v.
Proof.
  intros s r text sk ctxs ks l S H v. apply session_wf in S.
  rewrite (slice_members _ _ _ _ H). unfold in_closure. split.
  - intros (sd & u & I & A & R). apply in_map_iff in I. destruct I as (k & <- & I).
    apply at_seed_names in A. rewrite at_seed_ctr in A. exists k, u. split; auto. split; auto.
    eapply reach_mono; [|exact R]. intros a b. now apply depends_cells.
  - intros (k & u & I & A & R). exists (SCtr k), u. split; [now apply in_map|].
    split; [apply at_seed_names; now rewrite at_seed_ctr|].
    eapply reach_mono; [|exact R]. intros a b. now apply depends_cells.
Qed.
Print Assumptions C08_cell_slice_is_closure.

(** The slice of the last cell holds the first run of cell 0, not the second. *)
Example C08_example : exists s,
  session s None /\
  make_multi_slice (cell_world s no_text []) [Dynamic; Static] [SCtr 4%Z] false
    = Ok [0; 1; 3].
Proof.
  eexists. split; [apply (srun_session sample); vm_compute; reflexivity|].
  vm_compute. reflexivity.
Qed.

(** A cyclic graph. *)
Example C08_cyclic_example :
  make_multi_slice
    (mkWorld [mkSobj (mkTs 1 0) None false "" (fun _ => [(11, [7])]);
              mkSobj (mkTs 1 0) None false "" (fun _ => [(10, [7])])]
             [(10, 0); (11, 1)] [] false []) [Dynamic] [SObj 0] false = Ok [0; 1].
Proof. vm_compute. reflexivity. Qed.

(** * C09: a slice never reaches into the future *)

(** A newer element is reached only through an edge whose target is an override. *)
Theorem C09_no_future : forall w ctxs sd u l v,
  names w sd u -> make_multi_slice w ctxs [sd] false = Ok l -> In v l ->
  ts_ltb (ts_of w u) (ts_of w v) = true ->
  exists y z o, In y l /\ In z l /\ depends w ctxs y z /\ reach (depends w ctxs) z v /\
    nth_error (objs w) z = Some o /\ so_override o = true /\
    ts_ltb (ts_of w y) (ts_of w z) = true.
Proof.
  intros w ctxs sd u l v A H I T. pose proof (slice_members _ _ _ _ H) as M.
  apply M in I. destruct I as (sd' & u' & [<-|[]] & A' & R).
  apply at_seed_names in A'. apply at_seed_names in A as A0.
  rewrite A0 in A'. injection A' as <-.
  destruct (reach_not_newer _ _ _ _ R) as [F|(y & z & o & D & Ry & Rz & O & Ov & L)];
    [congruence|].
  exists y, z, o. repeat split; auto.
  - apply M. exists sd, u. split; [left; auto|]. auto.
  - apply M. exists sd, u. split; [left; auto|]. split; auto.
    eapply reach_snoc; eauto.
Qed.
Print Assumptions C09_no_future.

(** Cells are never overrides: no element of a slice is newer than the newest seed. *)
Theorem C09_cells_no_future : forall s r text skipped ctxs ks l m,
  session s r -> (forall k, In k ks -> (k <= m)%Z) ->
  make_multi_slice (cell_world s text skipped) ctxs (map SCtr ks) false = Ok l ->
  forall v c, In v l -> nth_error (heap s) v = Some c -> (c_ctr c <= m)%Z.
Proof.
  intros s r text sk ctxs ks l m S B H v c I Hc. apply session_wf in S.
  apply (slice_members _ _ _ _ H) in I. destruct I as (sd & u & I & A & R).
  apply in_map_iff in I. destruct I as (k & <- & I).
  apply at_seed_names in A. rewrite at_seed_ctr in A.
  apply at_counter_Ok in A. apply (wf_by _ S) in A. destruct A as (cu & Hu & <- & _).
  destruct (reach_not_newer _ _ _ _ R) as [F|(y & z & o & D & Ry & Rz & O & Ov & L)].
  - rewrite (ts_of_cell _ _ _ _ _ Hu), (ts_of_cell _ _ _ _ _ Hc) in F.
    apply ts_ltb_ge in F. apply ts_leb_le in F. simpl in F. specialize (B _ I). lia.
  - apply cell_world_inv in O. destruct O as (z' & _ & ->). discriminate.
Qed.
Print Assumptions C09_cells_no_future.

(** The exception is real: the slice of the statement at (2,0) holds the override at
    (3,0). *)
Example C09_example :
  make_multi_slice widget_world [Dynamic] [STs (mkTs 2 0)] false = Ok [2; 1] /\
  ts_ltb (ts_of widget_world 2) (ts_of widget_world 1) = true.
Proof. split; vm_compute; reflexivity. Qed.

(** * C10: slices are ordered, duplicate free and compositional *)

(** In order of timestamps, without duplicates; strictly increasing whenever no two
    elements share a timestamp. Missing from the full property: strictness otherwise
    (refuted below). *)
Theorem C10_sorted_partial : forall w ctxs seeds seed_only l,
  make_multi_slice w ctxs seeds seed_only = Ok l ->
  NoDup l /\ StronglySorted (ts_le_of w) l /\
  ((forall a b, In a l -> In b l -> ts_of w a = ts_of w b -> a = b) ->
   StronglySorted (fun a b => ts_ltb (ts_of w a) (ts_of w b) = true) l).
Proof.
  intros w ctxs seeds so l H. pose proof (slice_NoDup _ _ _ _ _ H) as N.
  pose proof (slice_sorted _ _ _ _ _ H) as S. split; auto. split; auto.
  intros U. apply ssorted_strict; auto.
Qed.
Print Assumptions C10_sorted_partial.

(** In a session, the counters of a slice whose cells have all been executed strictly
    increase. *)
Theorem C10_executed_cells_strict_partial : forall s r text skipped ctxs ks l,
  session s r ->
  make_multi_slice (cell_world s text skipped) ctxs (map SCtr ks) false = Ok l ->
  (forall v c, In v l -> nth_error (heap s) v = Some c -> (-1 < c_ctr c)%Z) ->
  StronglySorted (fun a b => exists ca cb, nth_error (heap s) a = Some ca /\
    nth_error (heap s) b = Some cb /\ (c_ctr ca < c_ctr cb)%Z) l.
Proof.
  intros s r text sk ctxs ks l S H E. apply session_wf in S.
  assert (X : forall v, In v l -> exists c, nth_error (heap s) v = Some c).
  { intros v I. apply (slice_bound _ _ _ _ (cell_world_ok s text sk S)) with (v := v) in H; auto.
    - rewrite length_cell_world in H. destruct (nth_error (heap s) v) eqn:Q; eauto.
      apply nth_error_None in Q. lia.
    - intros sd u I' ->. apply in_map_iff in I'. destruct I' as (? & [=] & _). }
  assert (SS : StronglySorted (fun a b => ts_ltb (ts_of (cell_world s text sk) a)
                                            (ts_of (cell_world s text sk) b) = true) l).
  { apply ssorted_strict.
    - eapply slice_sorted; eauto.
    - eapply slice_NoDup; eauto.
    - intros a b Ia Ib T. destruct (X _ Ia) as [ca A], (X _ Ib) as [cb B].
      eapply executed_distinct; eauto. }
  clear H. induction SS as [|a l SS IH F]; constructor.
  - apply IH; intros; [apply E with v|apply X]; simpl; auto.
  - apply Forall_forall. intros b Ib. rewrite Forall_forall in F.
    destruct (X a (or_introl eq_refl)) as [ca A], (X b (or_intror Ib)) as [cb B].
    exists ca, cb. split; auto. split; auto. specialize (F b Ib).
    rewrite (ts_of_cell _ _ _ _ _ A), (ts_of_cell _ _ _ _ _ B) in F.
    apply ts_ltb_lt in F. simpl in F. lia.
Qed.
Print Assumptions C10_executed_cells_strict_partial.

(** Order and multiplicity of the seeds are irrelevant: same success, same elements, and
    the same list when no two elements share a timestamp. *)
Theorem C10_seed_order_irrelevant : forall w ctxs seeds seeds' seed_only l,
  world_ok w ->
  (forall sd, In sd seeds <-> In sd seeds') ->
  (forall u, In (SObj u) seeds -> u < length (objs w)) ->
  make_multi_slice w ctxs seeds seed_only = Ok l ->
  exists l', make_multi_slice w ctxs seeds' seed_only = Ok l' /\
    (forall v, In v l <-> In v l') /\
    ((forall a b, In a l -> In b l -> ts_of w a = ts_of w b -> a = b) -> l = l').
Proof.
  intros w ctxs seeds seeds' so l W E B H.
  assert (SD : forall sd, In sd seeds -> exists u, at_seed w sd = Ok u).
  { pose proof H as H'. apply make_multi_slice_inv in H'. destruct H' as (c & H' & _).
    clear - H'. revert H'. generalize (@nil nat). induction seeds as [|sd seeds IH]; intros c0 H' q I;
      [destruct I|]. simpl in H'. unfold grow at 1 in H'.
    destruct (at_seed w sd) as [u|] eqn:A; simpl in H'; [|discriminate].
    destruct I as [<-|I]; [eauto|].
    destruct so; [eapply IH; eauto|].
    destruct (slice_helper w ctxs c0 u); simpl in H'; [|discriminate]. eapply IH; eauto. }
  assert (T : exists l', make_multi_slice w ctxs seeds' so = Ok l').
  { destruct so.
    - assert (G : forall c, exists c', rfold (grow w ctxs true) seeds' c = Ok c').
      { assert (SD' : forall sd, In sd seeds' -> exists u, at_seed w sd = Ok u)
          by (intros; apply SD, E; auto).
        clear - SD'. induction seeds' as [|sd seeds' IH]; intros c; simpl; [eauto|].
        unfold grow at 1. destruct (SD' sd (or_introl eq_refl)) as [u ->]. simpl.
        apply IH. intros; apply SD'; right; auto. }
      destruct (G []) as [c' G']. apply make_multi_slice_of in G'. eauto.
    - apply slice_total; auto.
      + intros sd I. apply E in I. destruct (SD _ I) as [u A]. exists u. split; auto.
        eapply at_seed_bound; eauto. intros v ->. auto.
      + intros v C. assert (K : exists l, make_multi_slice w ctxs seeds false = Ok l) by eauto.
        rewrite slice_total in K; auto.
        * apply K. eapply in_closure_ext; [|exact C]. intros; now apply E.
        * intros sd I. destruct (SD _ I) as [u A]. exists u. split; auto.
          eapply at_seed_bound; eauto. intros z ->. auto. }
  destruct T as [l' H']. exists l'. split; auto.
  assert (M : forall v, In v l <-> In v l').
  { intros v. destruct so.
    - rewrite (seed_only_members _ _ _ _ H), (seed_only_members _ _ _ _ H').
      split; intros (sd & I & A); exists sd; split; auto; now apply E.
    - rewrite (slice_members _ _ _ _ H), (slice_members _ _ _ _ H').
      split; apply in_closure_ext; intros; now apply E. }
  split; auto. intros U. apply (ssorted_eq w); auto.
  - eapply slice_sorted; eauto.
  - eapply slice_sorted; eauto.
  - eapply slice_NoDup; eauto.
  - eapply slice_NoDup; eauto.
Qed.
Print Assumptions C10_seed_order_irrelevant.

(** The slice of a union is the union of the slices. *)
Theorem C10_union : forall w ctxs seeds1 seeds2 l1 l2 l,
  make_multi_slice w ctxs seeds1 false = Ok l1 ->
  make_multi_slice w ctxs seeds2 false = Ok l2 ->
  make_multi_slice w ctxs (seeds1 ++ seeds2) false = Ok l ->
  forall v, In v l <-> In v l1 \/ In v l2.
Proof.
  intros w ctxs s1 s2 l1 l2 l H1 H2 H v.
  rewrite (slice_members _ _ _ _ H), (slice_members _ _ _ _ H1), (slice_members _ _ _ _ H2).
  split.
  - intros (sd & u & I & A). apply in_app_iff in I. destruct I as [I|I]; [left|right];
      exists sd, u; auto.
  - intros [C|C]; (eapply in_closure_ext; [|exact C]); intros; apply in_app_iff; auto.
Qed.
Print Assumptions C10_union.

(** [seed_only]: exactly the seeds. *)
Theorem C10_seed_only : forall w ctxs seeds l,
  make_multi_slice w ctxs seeds true = Ok l ->
  forall v, In v l <-> exists sd, In sd seeds /\ names w sd v.
Proof.
  intros w ctxs seeds l H v. rewrite (seed_only_members _ _ _ _ H).
  split; intros (sd & I & A); exists sd; split; auto; now apply at_seed_names.
Qed.
Print Assumptions C10_seed_only.

Example C10_example : exists s,
  session s None /\ world_ok (cell_world s no_text []) /\
  make_multi_slice (cell_world s no_text []) [Dynamic; Static]
    [SCtr 4; SCtr 3; SCtr 4]%Z false = Ok [0; 1; 2; 3] /\
  make_multi_slice (cell_world s no_text []) [Dynamic; Static]
    [SCtr 4; SCtr 2; SCtr 4]%Z true = Ok [1; 3].
Proof.
  eexists. split; [apply (srun_session sample); vm_compute; reflexivity|]. split.
  - eapply cell_world_ok, session_wf. apply (srun_session sample). vm_compute. reflexivity.
  - split; vm_compute; reflexivity.
Qed.

(** Strictness fails for cells that have not been executed: all of them have timestamp
    (-1, -1), and the notebook's metadata may make one a parent of another. *)
Theorem C10_refuted : exists s l,
  session s None /\
  make_multi_slice (cell_world s no_text []) [Static] [SObj 0] false = Ok l /\
  ~ StronglySorted (fun a b => ts_ltb (ts_of (cell_world s no_text []) a)
                                      (ts_of (cell_world s no_text []) b) = true) l.
Proof.
  eexists. exists [0; 1].
  split; [apply (srun_session [EUntracked 4; EUntracked 5; EInit 99 [(4, [5])]]);
          vm_compute; reflexivity|].
  split; [vm_compute; reflexivity|].
  intros S. inversion S as [|? ? _ F]; subst. inversion F as [|? ? T _]; subst.
  vm_compute in T. discriminate.
Qed.
Print Assumptions C10_refuted.

(** * C11: slicing always completes *)

(** It always terminates, whatever the graph, and it raises exactly when some element of
    the closure has a recorded parent that is unknown or none of whose versions is old
    enough. Missing from the full property: that this never happens (refuted below). *)
Theorem C11_completes_unless_dangling_partial : forall w ctxs seeds,
  world_ok w ->
  (forall sd, In sd seeds -> exists u, names w sd u /\ u < length (objs w)) ->
  ((exists l, make_multi_slice w ctxs seeds false = Ok l) <->
   (forall v, in_closure w ctxs seeds v -> ~ dangling w ctxs v)) /\
  (forall e, make_multi_slice w ctxs seeds false = Err e ->
             e = KeyError \/ e = AttributeError).
Proof.
  intros w ctxs seeds W S.
  assert (S' : forall sd, In sd seeds -> seed_ok w sd).
  { intros sd I. destruct (S sd I) as (u & A & B). exists u. split; auto.
    now apply at_seed_names. }
  split.
  - apply slice_total; auto.
  - intros e. now apply slice_err_kind.
Qed.
Print Assumptions C11_completes_unless_dangling_partial.

(** It never fails in a session in which recorded parents are never newer than the child
    and no cell is renamed. *)
Theorem C11_backward_sessions_partial : forall l s r text skipped ctxs ks,
  history backward_only l s r ->
  (forall k, In k ks -> exists u, at_counter s k = Ok u) ->
  exists sl, make_multi_slice (cell_world s text skipped) ctxs (map SCtr ks) false = Ok sl.
Proof.
  intros l s r text sk ctxs ks H K.
  pose proof (session_wf s r (ex_intro _ l (history_restricted _ _ _ H))) as W.
  apply slice_total.
  - now apply cell_world_ok.
  - intros sd I. apply in_map_iff in I. destruct I as (k & <- & I).
    apply seed_ctr_ok; auto.
  - intros v _. eapply backward_not_dangling; eauto.
Qed.
Print Assumptions C11_backward_sessions_partial.

Example C11_example : exists s,
  history backward_only sample s None /\ at_counter s 4 = Ok 3 /\
  make_multi_slice (cell_world s no_text []) [Dynamic; Static] [SCtr 4%Z] false
    = Ok [0; 1; 3].
Proof.
  eexists. split; [apply (brun_sound sample [] sess_init None); [constructor|vm_compute; reflexivity]|].
  split; vm_compute; reflexivity.
Qed.

(** The full property is false. Cell 0 mentions [y] and runs before [y] exists; then
    cell 1 defines [y]. The static check of cell 0 links it to cell 1, no version of
    which is as old as the run of cell 0: following [prev] arrives at [None]. *)
Definition used_before_defined : list event :=
  [EExec 0 None false; EFinish []; EExec 1 None false; EFinish []; EUse Static 0 1 7].

Theorem C11_refuted : exists s,
  session s None /\ at_counter s 1 = Ok 0 /\
  make_multi_slice (cell_world s no_text []) [Dynamic; Static] [SCtr 1%Z] false
    = Err AttributeError.
Proof.
  eexists. split; [apply (srun_session used_before_defined); vm_compute; reflexivity|].
  split; vm_compute; reflexivity.
Qed.
Print Assumptions C11_refuted.

(** A rename leaves the old id in superseded versions; slicing one of them raises. *)
Theorem C11_renamed_parent_refuted : exists s,
  session s None /\ at_counter s 2 = Ok 1 /\
  make_multi_slice (cell_world s no_text []) [Dynamic; Static] [SCtr 2%Z] false
    = Err KeyError.
Proof.
  eexists. split.
  - apply (srun_session
      [EExec 0 None true; EFinish [];
       EExec 1 None false; EUse Dynamic 1 0 7; EFinish [];
       EExec 1 None false; EUse Dynamic 2 0 7; EFinish [];
       ERename true true 0 10]). vm_compute. reflexivity.
  - split; vm_compute; reflexivity.
Qed.
Print Assumptions C11_renamed_parent_refuted.

(** * C13: slice text *)

(** The text shows the slice from the redirected seeds (C14), in the sense of [shows]. *)
Theorem C13_slice_text : forall w ctxs seeds black blacken seed_only headers txt,
  format_multi_slice w ctxs seeds black blacken seed_only headers = Ok txt ->
  exists seeds' l,
    process_memoized_seeds w seeds = Ok seeds' /\
    make_multi_slice w ctxs seeds' seed_only = Ok l /\
    StronglySorted (ts_le_of w) l /\
    shows w l black blacken headers txt.
Proof.
  intros w ctxs seeds black blacken so headers txt H.
  apply format_multi_slice_inv in H. destruct H as (seeds' & l & A & B & C).
  exists seeds', l. split; auto. split; auto. split; auto. eapply slice_sorted; eauto.
Qed.
Print Assumptions C13_slice_text.

(** If the seeds are known and the slice exists, so does its text. *)
Theorem C13_text_exists : forall w ctxs seeds black blacken headers,
  world_ok w ->
  (forall sd, In sd seeds -> exists n mem, seed_ctr w sd = Some n /\
                                           zget (w_skipped w) n = Some mem) ->
  (forall seeds', process_memoized_seeds w seeds = Ok seeds' ->
     exists l, make_multi_slice w ctxs seeds' false = Ok l) ->
  exists txt, format_multi_slice w ctxs seeds black blacken false headers = Ok txt.
Proof.
  intros w ctxs seeds black blacken headers W K M. unfold format_multi_slice.
  destruct (process_memoized_seeds_total w seeds [] K) as [seeds' P].
  change (process_memoized_seeds w seeds = Ok seeds') in P. rewrite P. simpl.
  destruct (M _ P) as [l L]. rewrite L. simpl.
  destruct (cell_dict_total w l) as [d D]; [|rewrite D; simpl; eauto].
  eapply slice_bound; eauto. intros sd u I ->.
  apply (process_memoized_seeds_spec _ _ _ P) in I. destruct I as (sd & I & n & mem & _ & _ & Q).
  destruct Q as [[_ Q]|[_ Q]]; destruct sd; simpl in Q; try discriminate;
    destruct Q as (? & _ & [=]).
Qed.
Print Assumptions C13_text_exists.

Open Scope string_scope.

(** Statements of two cells, the later cell first in the list of objects. *)
Definition text_world : world :=
  mkWorld
    [mkSobj (mkTs 12 0) None false "z = x + y" (fun _ => [(1, [7]); (2, [8])]);
     mkSobj (mkTs 3 0) None false "x = 0" (fun _ => []);
     mkSobj (mkTs 3 1) None false "y = 1" (fun _ => []);
     mkSobj (mkTs 3 2) None false "w = 2" (fun _ => [])]
    [(0, 0); (1, 1); (2, 2); (3, 3)]
    [(mkTs 12 0, 0); (mkTs 3 0, 1); (mkTs 3 1, 2); (mkTs 3 2, 3)] false
    [(12, -1); (3, -1)]%Z.

Example C13_example :
  format_multi_slice text_world [Dynamic] [STs (mkTs 12 0)] (fun _ => None) true false true
  = Ok ("# Cell 3" ++ nl ++ "x = 0" ++ nl ++ "y = 1" ++ nl ++ nl ++
        "# Cell 12" ++ nl ++ "z = x + y").
Proof. vm_compute. reflexivity. Qed.

Close Scope string_scope.

(** * C14: memo-skipped seeds *)

(** The seeds used are exactly the given ones, each moved to the execution it reused,
    if it was skipped. *)
Theorem C14_redirect : forall w seeds seeds',
  process_memoized_seeds w seeds = Ok seeds' ->
  forall sd', In sd' seeds' <-> exists sd, In sd seeds /\ redirected w sd sd'.
Proof. exact process_memoized_seeds_spec. Qed.
Print Assumptions C14_redirect.

(** [redirected] is a function on known seeds. *)
Theorem C14_redirect_unique : forall w sd a b,
  redirected w sd a -> redirected w sd b -> a = b.
Proof.
  intros w sd a b (n & m & A & B & C) (n' & m' & A' & B' & C').
  rewrite A in A'. injection A' as <-. rewrite B in B'. injection B' as <-.
  destruct C as [[E C]|[E C]], C' as [[E' C']|[E' C']]; try contradiction;
    destruct sd; simpl in *; try congruence;
    destruct C as (o & O & ->), C' as (o' & O' & ->); congruence.
Qed.
Print Assumptions C14_redirect_unique.

Example C14_example :
  process_memoized_seeds
    (mkWorld [mkSobj (mkTs 9 2) None false "" (fun _ => [])] [] [] false
             [(5, -1); (7, 5); (9, 5)]%Z)
    [SCtr 5; STs (mkTs 7 2); SCtr 7; SObj 0]%Z
  = Ok [SCtr 5; STs (mkTs 5 2); SCtr 5; STs (mkTs 5 2)]%Z.
Proof. vm_compute. reflexivity. Qed.

(** * C47: text of a statement-level slice *)

(** Nothing is lost: the text shows the cell of every statement in the statement slice
    (if none of these cells was skipped). Missing from the full property: that nothing
    else is shown (refuted below). *)
Theorem C47_contains_statement_slice_partial :
  forall cells stmts ctxs k n black seed_only headers txt,
  cell_slice_stmts cells stmts ctxs k n black seed_only headers = Ok txt ->
  (forall j, zget (w_skipped cells) j = Some (-1)%Z \/ zget (w_skipped cells) j = None) ->
  (forall j u, tget (by_ts cells) (mkTs j (-1)) = Some u ->
     exists o, nth_error (objs cells) u = Some o /\ so_ts o = mkTs j (-1)) ->
  w_cells cells = true ->
  exists stmt_slice cell_slice,
    make_multi_slice stmts ctxs
      (map (fun i => STs (mkTs k (Z.of_nat i))) (seq 0 n)) false = Ok stmt_slice /\
    shows cells cell_slice black true headers txt /\
    forall u, In u stmt_slice ->
      exists v o, In v cell_slice /\ nth_error (objs cells) v = Some o /\
        cell_num (so_ts o) = cell_num (ts_of stmts u).
Proof.
  intros cells stmts ctxs k n black so headers txt H NS BT WC. unfold cell_slice_stmts in H.
  destruct (make_multi_slice stmts ctxs _ false) as [sl|] eqn:M; simpl in H; [|discriminate].
  apply format_multi_slice_inv in H. destruct H as (seeds' & l & P & L & T).
  exists sl, l. split; auto. split; auto. intros u I.
  assert (I1 : In (STs (ts_of stmts u)) seeds').
  { apply (process_memoized_seeds_spec _ _ _ P). exists (STs (ts_of stmts u)).
    split; [now apply (in_map (fun u => STs (ts_of stmts u)))|].
    assert (Q : exists mem, zget (w_skipped cells) (cell_num (ts_of stmts u)) = Some mem).
    { clear - P I. unfold process_memoized_seeds in P. fold (seed_step cells) in P.
      change (rfold _ (map _ sl) []) with
        (rfold (seed_step cells) (map (fun u => STs (ts_of stmts u)) sl) []) in P.
      revert P. generalize (@nil seed). induction sl as [|a sl IH]; [destruct I|].
      intros acc P. simpl in P.
      destruct (seed_step cells acc (STs (ts_of stmts a))) as [acc'|] eqn:SS;
        simpl in P; [|discriminate].
      destruct I as [<-|I]; [|eapply IH; eauto].
      unfold seed_step in SS. simpl in SS.
      destruct (zget (w_skipped cells) (cell_num (ts_of stmts a))); [eauto|discriminate]. }
    destruct Q as [mem Q]. exists (cell_num (ts_of stmts u)), mem. split; auto. split; auto.
    left. destruct (NS (cell_num (ts_of stmts u))) as [N|N]; [|congruence].
    split; [congruence|]. simpl. now rewrite ts_eta. }
  assert (I2 : exists v, at_seed cells (STs (ts_of stmts u)) = Ok v /\ In v l).
  { assert (Q : exists v, at_seed cells (STs (ts_of stmts u)) = Ok v).
    { pose proof L as L'. apply make_multi_slice_inv in L'. destruct L' as (c & L' & _).
      clear - L' I1. revert L'. generalize (@nil nat).
      induction seeds' as [|sd seeds' IH]; [destruct I1|]. intros c0 L'. simpl in L'.
      unfold grow at 1 in L'. destruct (at_seed cells sd) as [a|] eqn:A; simpl in L'; [|discriminate].
      destruct I1 as [->|I1]; [eauto|]. destruct so; [eapply IH; eauto|].
      destruct (slice_helper cells ctxs c0 a); simpl in L'; [|discriminate]. eapply IH; eauto. }
    destruct Q as [v Q]. exists v. split; auto. destruct so.
    - apply (seed_only_members _ _ _ _ L). eauto.
    - apply (slice_members _ _ _ _ L). exists (STs (ts_of stmts u)), v.
      split; auto. split; [now apply at_seed_names|]. constructor. }
  destruct I2 as (v & A & Iv). unfold at_seed in A. rewrite WC in A.
  destruct (tget (by_ts cells) _) as [v'|] eqn:G; simpl in A; [|discriminate].
  injection A as A. subst v'. destruct (BT _ _ G) as (o & O & E). exists v, o.
  split; auto. split; auto. now rewrite E.
Qed.
Print Assumptions C47_contains_statement_slice_partial.

Open Scope string_scope.

(** Cell 1 is [x = 0; y = 1], cell 2 is [z = x]. The statement slice of cell 2 is
    [x = 0; z = x], but the text shows [y = 1] as well, i.e. all of cell 1. *)
Definition two_cells : world :=
  mkWorld
    [mkSobj (mkTs 1 (-1)) None false ("x = 0" ++ nl ++ "y = 1") (fun _ => []);
     mkSobj (mkTs 2 (-1)) None false "z = x" (fun _ => [(0, [7])])]
    [(0, 0); (1, 1)] [(mkTs 1 (-1), 0); (mkTs 2 (-1), 1)] true [(1, -1); (2, -1)]%Z.

Definition their_stmts : world :=
  mkWorld
    [mkSobj (mkTs 1 0) None false "x = 0" (fun _ => []);
     mkSobj (mkTs 1 1) None false "y = 1" (fun _ => []);
     mkSobj (mkTs 2 0) None false "z = x" (fun _ => [(0, [7])])]
    [(0, 0); (1, 1); (2, 2)]
    [(mkTs 1 0, 0); (mkTs 1 1, 1); (mkTs 2 0, 2)] false [(1, -1); (2, -1)]%Z.

Theorem C47_refuted :
  make_multi_slice their_stmts [Dynamic] [STs (mkTs 2 0)] false = Ok [0; 2] /\
  (forall seed_only,
     cell_slice_stmts two_cells their_stmts [Dynamic] 2 1 (fun _ => None) seed_only true
     = Ok ("# Cell 1" ++ nl ++ "x = 0" ++ nl ++ "y = 1" ++ nl ++ nl ++
           "# Cell 2" ++ nl ++ "z = x")).
Proof. split; [|intros []]; vm_compute; reflexivity. Qed.
Print Assumptions C47_refuted.

(** The same worlds meet the hypotheses of [C47_contains_statement_slice_partial]. *)
Example C47_example :
  (exists txt, cell_slice_stmts two_cells their_stmts [Dynamic] 2 1 (fun _ => None) false true
               = Ok txt) /\
  (forall j, zget (w_skipped two_cells) j = Some (-1)%Z \/ zget (w_skipped two_cells) j = None) /\
  (forall j u, tget (by_ts two_cells) (mkTs j (-1)) = Some u ->
     exists o, nth_error (objs two_cells) u = Some o /\ so_ts o = mkTs j (-1)) /\
  w_cells two_cells = true.
Proof.
  split; [eexists; vm_compute; reflexivity|]. split; [|split; auto].
  - intros j. simpl. destruct (Z.eqb j 1); auto. destruct (Z.eqb j 2); auto.
  - intros j u. simpl. unfold ts_eqb. simpl.
    destruct (Z.eqb_spec j 1) as [->|]; simpl; [intros [= <-]; simpl; eauto|].
    destruct (Z.eqb_spec j 2) as [->|]; simpl; [intros [= <-]; simpl; eauto|discriminate].
Qed.

Close Scope string_scope.
