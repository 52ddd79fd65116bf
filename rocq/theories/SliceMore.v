(** Consequences of exactness: order, composition, totality. *)
Require Import String Ascii List ZArith Bool Arith Lia Sorted Permutation.
Import ListNotations.
Require Import Verif.Base Verif.TimestampModel Verif.TimestampProofs Verif.SessionModel
  Verif.SessionSpec Verif.SessionProofs Verif.SessionInv Verif.SessionLog
  Verif.SliceModel Verif.SliceSpec Verif.SliceProofs Verif.SliceText Verif.SliceSession.
Local Open Scope nat_scope.

Lemma ts_of_nth w u o : nth_error (objs w) u = Some o -> ts_of w u = so_ts o.
Proof. intros H. unfold ts_of. now rewrite H. Qed.

(** Going back goes forward in time only at an override. *)
Lemma reach_not_newer w ctxs u v :
  reach (depends w ctxs) u v ->
  ts_ltb (ts_of w u) (ts_of w v) = false \/
  exists y z o, depends w ctxs y z /\ reach (depends w ctxs) u y /\
    reach (depends w ctxs) z v /\
    nth_error (objs w) z = Some o /\ so_override o = true /\
    ts_ltb (ts_of w y) (ts_of w z) = true.
Proof.
  induction 1 as [u|u y v D R IH]; [left; apply ts_ltb_irrefl|].
  pose proof D as (o & pid & u0 & O & Rc & Di & nw & oy & VP & Hy & G & N).
  destruct (ts_ltb (ts_of w u) (ts_of w y)) eqn:L.
  - right. exists u, y, oy. repeat split; auto; [constructor|].
    destruct G as [G|G]; auto. exfalso. apply G. unfold newer_than.
    now rewrite <- (ts_of_nth _ _ _ O), <- (ts_of_nth _ _ _ Hy).
  - destruct IH as [IH|(a & b & ob & A & B & C & E & F & J)].
    + left. apply ts_ltb_ge in L, IH. apply ts_ltb_ge. eapply ts_leb_trans; eauto.
    + right. exists a, b, ob. repeat split; auto. econstructor; eauto.
Qed.

Lemma ssorted_strict w l :
  StronglySorted (ts_le_of w) l -> NoDup l ->
  (forall a b, In a l -> In b l -> ts_of w a = ts_of w b -> a = b) ->
  StronglySorted (fun a b => ts_ltb (ts_of w a) (ts_of w b) = true) l.
Proof.
  induction 1 as [|a l S IH F]; intros N U; constructor.
  - inversion N; subst. apply IH; auto. intros x y Hx Hy. apply U; simpl; auto.
  - inversion N; subst. apply Forall_forall. intros b Hb. rewrite Forall_forall in F.
    specialize (F b Hb). unfold ts_le_of in F.
    destruct (ts_total (ts_of w a) (ts_of w b)) as [T|[T|T]]; auto.
    + apply U in T; simpl; auto. subst. contradiction.
    + congruence.
Qed.

Lemma ssorted_eq w l l' :
  StronglySorted (ts_le_of w) l -> StronglySorted (ts_le_of w) l' ->
  NoDup l -> NoDup l' -> (forall v, In v l <-> In v l') ->
  (forall a b, In a l -> In b l -> ts_of w a = ts_of w b -> a = b) -> l = l'.
Proof.
  intros S S' N N' E U.
  assert (C : forall m, StronglySorted (ts_le_of w) m ->
     StronglySorted (fun x y => ts_leb (ts_of w x) (ts_of w y) = true) m).
  { intros m Sm. induction Sm as [|a m Sm IHm F]; constructor; auto.
    eapply Forall_impl; [|exact F]. intros b Hb. now apply ts_ltb_ge. }
  apply (sorted_unique (fun x y => ts_leb (ts_of w x) (ts_of w y))); auto.
  - apply NoDup_Permutation; auto.
  - intros a b Ha Hb A B. apply U; auto. now apply ts_leb_antisym.
Qed.

Lemma in_closure_ext w ctxs s1 s2 v :
  (forall sd, In sd s1 -> In sd s2) -> in_closure w ctxs s1 v -> in_closure w ctxs s2 v.
Proof. intros I (sd & u & A & B). exists sd, u. split; auto. Qed.

Lemma seed_only_members w ctxs seeds l :
  make_multi_slice w ctxs seeds true = Ok l ->
  forall v, In v l <-> exists sd, In sd seeds /\ at_seed w sd = Ok v.
Proof.
  intros H v. apply make_multi_slice_inv in H. destruct H as (c & H & P).
  pose proof (grow_fold_seeds _ _ _ _ _ H v) as G.
  split; intros I.
  - apply (Permutation_in _ P) in I. apply G in I. destruct I as [[]|]; auto.
  - apply (Permutation_in _ (Permutation_sym P)). apply G. auto.
Qed.

Lemma slice_total w ctxs seeds : world_ok w -> (forall sd, In sd seeds -> seed_ok w sd) ->
  (exists l, make_multi_slice w ctxs seeds false = Ok l) <->
  (forall v, in_closure w ctxs seeds v -> ~ dangling w ctxs v).
Proof.
  intros W S. split.
  - intros [l H] v C D.
    pose proof (proj2 (slice_members _ _ _ _ H v) C) as I.
    apply make_multi_slice_inv in H. destruct H as (c & H & P).
    apply grow_fold in H; [|intros ? ? []]. destruct H as (CL & _).
    apply (Permutation_in _ P) in I.
    assert (L : v < length (objs w)).
    { destruct D as (o & _ & O & _). apply nth_error_Some. congruence. }
    apply (succs_err w ctxs v W L) in D. destruct D as [e D].
    destruct (CL _ _ I D) as (z & Hz & _). discriminate.
  - intros N. destruct (grow_fold_total w ctxs W seeds [] S) as [[c H]|(e & y & H & C & I & B)].
    + eexists. eapply make_multi_slice_of; eauto.
    + exfalso. apply (N y C). apply (succs_err w ctxs y W B). eauto.
Qed.

Lemma slice_err_kind w ctxs seeds e : world_ok w -> (forall sd, In sd seeds -> seed_ok w sd) ->
  make_multi_slice w ctxs seeds false = Err e -> e = KeyError \/ e = AttributeError.
Proof.
  intros W S H. destruct (grow_fold_total w ctxs W seeds [] S) as [[c G]|(e' & y & G & C & I & B)].
  - apply make_multi_slice_of in G. congruence.
  - pose proof (make_multi_slice_err _ _ _ _ _ G). assert (e = e') by congruence. subst e'.
    eapply succs_err_kind; eauto.
Qed.

(** ** Sessions *)

Lemma session_wf s r : session s r -> WF s.
Proof. intros S. apply session_inv in S. exact (i_wf _ _ (proj1 S)). Qed.

Lemma seed_ctr_ok s text sk k : (exists u, at_counter s k = Ok u) -> WF s ->
  seed_ok (cell_world s text sk) (SCtr k).
Proof.
  intros [u A] W. exists u. apply at_counter_Ok in A. unfold at_seed.
  change (w_cells (cell_world s text sk)) with true.
  cbv iota. rewrite tget_by_ctr, A. split; auto.
  rewrite length_cell_world. apply (wf_by _ W) in A. destruct A as (v & A & _).
  apply nth_error_Some. congruence.
Qed.

Lemma at_seed_ctr s text sk k :
  at_seed (cell_world s text sk) (SCtr k) = at_counter s k.
Proof.
  unfold at_seed. change (w_cells (cell_world s text sk)) with true. cbv iota.
  rewrite tget_by_ctr. reflexivity.
Qed.

Lemma executed_distinct s text sk a b ca cb : WF s ->
  nth_error (heap s) a = Some ca -> nth_error (heap s) b = Some cb ->
  (-1 < c_ctr ca)%Z -> ts_of (cell_world s text sk) a = ts_of (cell_world s text sk) b -> a = b.
Proof.
  intros W A B K E. rewrite (ts_of_cell _ _ _ _ _ A), (ts_of_cell _ _ _ _ _ B) in E.
  injection E as E.
  destruct (Nat.lt_trichotomy a b) as [L|[L|L]]; auto.
  - assert ((c_ctr ca < c_ctr cb)%Z); [|lia]. eapply (wf_ctr_lt _ W a ca b cb); auto. lia.
  - assert ((c_ctr cb < c_ctr ca)%Z); [|lia]. eapply (wf_ctr_lt _ W b cb a ca); auto.
Qed.

Lemma slice_bound w ctxs seeds l : world_ok w ->
  (forall sd u, In sd seeds -> sd = SObj u -> u < length (objs w)) ->
  make_multi_slice w ctxs seeds false = Ok l -> forall v, In v l -> v < length (objs w).
Proof.
  intros W S H v I. apply (slice_members _ _ _ _ H) in I.
  destruct I as (sd & u & A & B & R).
  destruct (reach_inv _ _ _ R) as [<-|R1].
  - apply at_seed_names in B. eapply at_seed_bound; eauto.
  - apply reach1_rev in R1. destruct R1 as [? ? ? D _].
    destruct D as (? & ? & ? & _ & _ & _ & X). eapply explains_bound; eauto.
Qed.

Lemma format_multi_slice_inv w ctxs seeds black blacken so headers txt :
  format_multi_slice w ctxs seeds black blacken so headers = Ok txt ->
  exists seeds' l,
    process_memoized_seeds w seeds = Ok seeds' /\
    make_multi_slice w ctxs seeds' so = Ok l /\
    shows w l black blacken headers txt.
Proof.
  unfold format_multi_slice.
  destruct (process_memoized_seeds w seeds) as [seeds'|] eqn:P; simpl; [|discriminate].
  destruct (make_multi_slice w ctxs seeds' so) as [l|] eqn:M; simpl; [|discriminate].
  destruct (cell_dict w l) as [d|] eqn:C; simpl; [|discriminate].
  intros [= <-]. exists seeds', l. repeat split; auto. now apply slice_text_shows.
Qed.

(** ** Deciding [backward_only], for the examples *)

Definition backwardb (s : sess) (r : option nat) (e : event) : bool :=
  (restrictedb s r e &&
   match e with
   | EUse _ u pu _ =>
       match nth_error (heap s) u, nth_error (heap s) pu with
       | Some c, Some p => (c_ctr p <=? c_ctr c)%Z
       | _, _ => true
       end
   | EInit _ _ | ERename _ _ _ _ => false
   | _ => true
   end)%bool.

Fixpoint brun (l : list event) (s : sess) (r : option nat) : option (sess * option nat) :=
  match l with
  | [] => Some (s, r)
  | e :: l' =>
      match bracket r e with
      | Some r' => if backwardb s r e
                   then match step s e with Ok s' => brun l' s' r' | Err _ => None end
                   else None
      | None => None
      end
  end.

Lemma backwardb_sound s r e : backwardb s r e = true -> backward_only s r e.
Proof.
  unfold backwardb, backward_only. intros H. apply andb_true_iff in H. destruct H as [A B].
  split; [now apply restrictedb_sound|]. destruct e; try discriminate; auto.
  intros c p Hc Hp. rewrite Hc, Hp in B. now apply Z.leb_le.
Qed.

Lemma brun_sound : forall l l0 s r s' r', history backward_only l0 s r ->
  brun l s r = Some (s', r') -> history backward_only (l0 ++ l) s' r'.
Proof.
  induction l as [|e l IH]; intros l0 s r s' r' H; simpl.
  - intros [= <- <-]. now rewrite app_nil_r.
  - destruct (bracket r e) as [r1|] eqn:B; [|discriminate].
    destruct (backwardb s r e) eqn:C; [|discriminate].
    destruct (step s e) as [s1|] eqn:E; [|discriminate].
    intros R. replace (l0 ++ e :: l) with ((l0 ++ [e]) ++ l) by (now rewrite <- app_assoc).
    eapply IH; eauto. eapply H_step; eauto. now apply bracket_sound. now apply backwardb_sound.
Qed.
