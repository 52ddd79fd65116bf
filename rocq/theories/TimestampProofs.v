Require Import List ZArith Lia Bool.
Import ListNotations.
Require Import Verif.TimestampModel Verif.TimestampSpec.
Open Scope Z_scope.

Lemma trun_lex p : forall s,
  tracer_initialized s = true ->
  match trun p s, lex p (cell_offset s, stmt_offset s) (cell_counter s, stmt_counter s)
  with
  | (s', obs, r), (c', obs', r') =>
      obs = obs' /\ r = r' /\
      s' = mkTState (cell_offset s) (stmt_offset s) (fst c') (snd c') true
  end.
Proof.
  induction p; intros s I; simpl; unfold ts_current; rewrite ?I; destruct s; simpl in *;
    subst; auto.
  - specialize (IHp1 (mkTState cell_offset stmt_offset cell_counter stmt_counter true)
                     eq_refl). simpl in IHp1.
    destruct (trun p1 _) as [[s1 o1] r1], (lex p1 _ _) as [[c1 o1'] r1'].
    destruct IHp1 as (-> & -> & ->). destruct r1'; auto.
    specialize (IHp2 (mkTState cell_offset stmt_offset (fst c1) (snd c1) true)
                     eq_refl). simpl in IHp2. destruct c1 as [c1a c1b]. simpl in *.
    destruct (trun p2 _) as [[s2 o2] r2], (lex p2 _ _) as [[c2 o2'] r2'].
    destruct IHp2 as (-> & -> & ->). auto.
  - specialize (IHp1 (mkTState cell_offset stmt_offset cell_counter stmt_counter true)
                     eq_refl). simpl in IHp1.
    destruct (trun p1 _) as [[s1 o1] r1], (lex p1 _ _) as [[c1 o1'] r1'].
    destruct IHp1 as (-> & -> & ->). destruct r1'; auto.
    specialize (IHp2 (mkTState cell_offset stmt_offset (fst c1) (snd c1) true)
                     eq_refl). simpl in IHp2. destruct c1 as [c1a c1b]. simpl in *.
    destruct (trun p2 _) as [[s2 o2] r2], (lex p2 _ _) as [[c2 o2'] r2'].
    destruct IHp2 as (-> & -> & ->). auto.
  - unfold add_offset; simpl.
    specialize (IHp (mkTState (cell_offset + dc) (stmt_offset + ds)
                              cell_counter stmt_counter true) eq_refl). simpl in IHp.
    destruct (trun p _) as [[s1 o1] r1], (lex p _ _) as [[c1 o1'] r1'].
    destruct IHp as (-> & -> & ->). simpl. repeat split; auto.
    f_equal; lia.
Qed.

Lemma ts_ext a b : cell_num a = cell_num b -> stmt_num a = stmt_num b -> a = b.
Proof. destruct a, b; simpl; intros; subst; auto. Qed.

Lemma ts_eqb_eq a b : ts_eqb a b = true <-> a = b.
Proof.
  unfold ts_eqb. rewrite andb_true_iff, !Z.eqb_eq. split.
  - intros []. now apply ts_ext.
  - now intros ->.
Qed.

Lemma ts_ltb_lt a b :
  ts_ltb a b = true <->
  cell_num a < cell_num b \/ (cell_num a = cell_num b /\ stmt_num a < stmt_num b).
Proof.
  unfold ts_ltb. rewrite orb_true_iff, andb_true_iff, Z.eqb_eq, !Z.ltb_lt. tauto.
Qed.

Lemma ts_leb_le a b :
  ts_leb a b = true <->
  cell_num a < cell_num b \/ (cell_num a = cell_num b /\ stmt_num a <= stmt_num b).
Proof.
  unfold ts_leb. rewrite orb_true_iff, andb_true_iff, Z.eqb_eq, Z.ltb_lt, Z.leb_le. tauto.
Qed.

Lemma ts_ltb_ge a b : ts_ltb a b = false <-> ts_leb b a = true.
Proof.
  rewrite <- not_true_iff_false, ts_ltb_lt, ts_leb_le. lia.
Qed.

Lemma ts_ltb_irrefl a : ts_ltb a a = false.
Proof. rewrite <- not_true_iff_false, ts_ltb_lt. lia. Qed.

Lemma ts_ltb_trans a b c : ts_ltb a b = true -> ts_ltb b c = true -> ts_ltb a c = true.
Proof. rewrite !ts_ltb_lt. lia. Qed.

Lemma ts_total a b : ts_ltb a b = true \/ a = b \/ ts_ltb b a = true.
Proof.
  rewrite !ts_ltb_lt.
  destruct (Z.lt_trichotomy (cell_num a) (cell_num b)) as [|[|]]; auto.
  destruct (Z.lt_trichotomy (stmt_num a) (stmt_num b)) as [|[|]]; auto.
  right. left. now apply ts_ext.
Qed.

Lemma ts_leb_antisym a b : ts_leb a b = true -> ts_leb b a = true -> a = b.
Proof. rewrite !ts_leb_le. intros. apply ts_ext; lia. Qed.

Lemma ts_leb_trans a b c : ts_leb a b = true -> ts_leb b c = true -> ts_leb a c = true.
Proof. rewrite !ts_leb_le. lia. Qed.

Lemma ts_leb_refl a : ts_leb a a = true.
Proof. rewrite ts_leb_le. lia. Qed.

Lemma ts_leb_total a b : ts_leb a b = true \/ ts_leb b a = true.
Proof. rewrite !ts_leb_le. lia. Qed.
