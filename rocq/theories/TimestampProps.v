(** Property theorems C01 and C02. *)
Require Import List ZArith Lia Bool.
Import ListNotations.
Require Import Verif.TimestampModel Verif.TimestampSpec Verif.TimestampProofs.
Open Scope Z_scope.

(** C01. The mutable globals behave as lexically scoped offsets: what a program observes,
    whether it raises, and how far the counters advance is what the lexical
    semantics says for the offsets enclosing it, and the globals end where they
    started, on normal and on exceptional exit. *)
Theorem C01_offset_scoped : forall p s s' obs raised,
  tracer_initialized s = true ->
  trun p s = (s', obs, raised) ->
  exists c',
    lex p (cell_offset s, stmt_offset s) (cell_counter s, stmt_counter s)
      = (c', obs, raised) /\
    s' = mkTState (cell_offset s) (stmt_offset s) (fst c') (snd c') true.
Proof.
  intros p s s' obs r I H. pose proof (trun_lex p s I) as L. rewrite H in L.
  destruct (lex p _ _) as [[c o] r']. destruct L as (-> & -> & ->). eauto.
Qed.
Print Assumptions C01_offset_scoped.

(** C01, in the words of the property: a block that does not advance the counters
    leaves [Timestamp.current()] as it was, whatever the block did and however
    it was left. *)
Fixpoint no_tick (p : tprog) : Prop :=
  match p with
  | TTick _ _ => False
  | TSeq p q | TTry p q => no_tick p /\ no_tick q
  | TOffset _ _ b => no_tick b
  | _ => True
  end.

Theorem C01_current_restored : forall p dc ds s s' obs raised,
  tracer_initialized s = true -> no_tick p ->
  trun (TOffset dc ds p) s = (s', obs, raised) ->
  ts_current s' = ts_current s.
Proof.
  intros p dc ds s s' obs r I N H.
  destruct (C01_offset_scoped _ _ _ _ _ I H) as (c & L & ->).
  assert (K : forall p o c, no_tick p -> fst (fst (lex p o c)) = c).
  { clear. induction p; intros o c N; simpl in *; auto; try contradiction.
    - destruct N as [N1 N2]. specialize (IHp1 o c N1).
      destruct (lex p1 o c) as [[c1 o1] r1]. simpl in IHp1. subst.
      destruct r1; auto. specialize (IHp2 o c N2).
      destruct (lex p2 o c) as [[c2 o2] r2]. auto.
    - destruct N as [N1 N2]. specialize (IHp1 o c N1).
      destruct (lex p1 o c) as [[c1 o1] r1]. simpl in IHp1. subst.
      destruct r1; auto. specialize (IHp2 o c N2).
      destruct (lex p2 o c) as [[c2 o2] r2]. auto. }
  specialize (K (TOffset dc ds p) (cell_offset s, stmt_offset s)
                (cell_counter s, stmt_counter s) N).
  rewrite L in K. simpl in K. subst c. unfold ts_current. rewrite I. reflexivity.
Qed.
Print Assumptions C01_current_restored.

(** Non-vacuity: nested blocks, an exception out of the inner one, observed inside,
    between and after. *)
Example C01_example :
  trun (TSeq (TTry (TOffset 1 0 (TSeq TObserve (TOffset 0 5 (TSeq TObserve TRaise))))
                   TObserve) TObserve)
       (mkTState 0 0 7 3 true)
  = (mkTState 0 0 7 3 true, [mkTs 8 3; mkTs 8 8; mkTs 7 3; mkTs 7 3], false).
Proof. reflexivity. Qed.

(** C02. [<] is a strict total order consistent with equality. *)
Theorem C02_strict_total_order : forall a b c,
  ts_ltb a a = false /\
  (ts_ltb a b = true -> ts_ltb b c = true -> ts_ltb a c = true) /\
  (ts_ltb a b = true \/ a = b \/ ts_ltb b a = true) /\
  (ts_eqb a b = true <-> cell_num a = cell_num b /\ stmt_num a = stmt_num b) /\
  (ts_leb a b = true <-> ts_ltb a b = true \/ a = b).
Proof.
  intros a b c. repeat split.
  - apply ts_ltb_irrefl.
  - apply ts_ltb_trans.
  - apply ts_total.
  - apply ts_eqb_eq in H; now subst.
  - apply ts_eqb_eq in H; now subst.
  - intros [H1 H2]. apply ts_eqb_eq, ts_ext; auto.
  - rewrite ts_leb_le, ts_ltb_lt. intros H.
    destruct (Z.eq_dec (stmt_num a) (stmt_num b)), (Z.eq_dec (cell_num a) (cell_num b));
      try (left; lia). right. now apply ts_ext.
  - intros [H| ->]; [|apply ts_leb_refl]. apply ts_ltb_lt in H. apply ts_leb_le. lia.
Qed.
Print Assumptions C02_strict_total_order.

(** C02. Later execution compares greater: both within a cell and across cells. *)
Theorem C02_later_is_greater : forall t dc ds,
  (0 < dc -> ts_ltb t (mkTs (cell_num t + dc) ds) = true) /\
  (0 < ds -> ts_ltb t (ts_plus t 0 ds) = true).
Proof.
  intros. split; intros; apply ts_ltb_lt; unfold ts_plus; simpl; lia.
Qed.
Print Assumptions C02_later_is_greater.

(** C02. The uninitialized timestamp is not initialized, and is below every initialized one. *)
Theorem C02_uninitialized_least : forall t,
  ts_is_initialized ts_uninit = false /\
  (ts_is_initialized t = true -> ts_ltb ts_uninit t = true).
Proof.
  intros t. split; auto. unfold ts_is_initialized.
  rewrite andb_true_iff, !Z.ltb_lt, ts_ltb_lt. simpl. lia.
Qed.
Print Assumptions C02_uninitialized_least.

(** A timestamp above the uninitialized one need not be initialized: cell timestamps
    [(ctr, -1)] (cell.py:154-155) are not. So the implication cannot be reversed. *)
Example C02_example :
  ts_ltb ts_uninit (mkTs 3 (-1)) = true /\ ts_is_initialized (mkTs 3 (-1)) = false /\
  ts_is_initialized (mkTs 3 0) = true /\ ts_ltb (mkTs 3 (-1)) (mkTs 3 0) = true /\
  ts_ltb (mkTs 2 9) (mkTs 3 0) = true.
Proof. repeat split. Qed.
