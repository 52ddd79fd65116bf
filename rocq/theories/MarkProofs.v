(** Lemmas about reactive marks. *)
From Coq Require Import List Arith Bool ZArith Lia.
From Verif Require Import Base Loops MarkModel MarkSpec.
Import ListNotations.

(** * Marks in one reference *)

Lemma existsb_firstn {A} (f : A -> bool) l : forall i,
  existsb f (firstn (S i) l) = true <->
  exists j t, j <= i /\ nth_error l j = Some t /\ f t = true.
Proof.
  induction l as [|a l IH]; intros i.
  - cbn. split; [discriminate|]. intros (j & t & _ & H & _). destruct j; discriminate.
  - cbn [firstn existsb]. rewrite orb_true_iff. split.
    + intros [H|H].
      * exists 0, a. split; [lia|]. split; [reflexivity|exact H].
      * destruct i as [|i]; [discriminate|].
        apply IH in H as (j & t & Hj & Ht & Hf). exists (S j), t. split; [lia|]. auto.
    + intros (j & t & Hj & Ht & Hf). destruct j as [|j].
      * left. cbn in Ht. injection Ht as <-. exact Hf.
      * right. destruct i as [|i]; [lia|]. apply IH. exists j, t. split; [lia|]. auto.
Qed.

Lemma existsb_firstn_lt {A} (f : A -> bool) l i :
  existsb f (firstn i l) = true <->
  exists j t, j < i /\ nth_error l j = Some t /\ f t = true.
Proof.
  destruct i as [|i].
  - cbn. split; [discriminate|]. intros (j & t & H & _). lia.
  - rewrite existsb_firstn. split; intros (j & t & H & R); exists j, t; (split; [lia|exact R]).
Qed.

Lemma firstn_S_nth {A} (l : list A) : forall i t, nth_error l i = Some t ->
  firstn (S i) l = firstn i l ++ [t].
Proof.
  induction l as [|a l IH]; intros [|i] t H; try discriminate.
  - cbn in H. injection H as ->. reflexivity.
  - cbn in H. cbn [firstn app]. f_equal. exact (IH i t H).
Qed.

Definition looks (st : seen) (l : list triple) : seen :=
  fold_left (fun st t => look st (atom_of t)) l st.

Lemma looks_reac l : forall st, s_reac (looks st l) = s_reac st || existsb (fun t => a_reac (atom_of t)) l.
Proof.
  induction l as [|t l IH]; intros st; cbn; [now rewrite orb_false_r|].
  fold (looks (look st (atom_of t)) l). rewrite IH. cbn. now rewrite orb_assoc.
Qed.
Lemma looks_casc l : forall st, s_casc (looks st l) = s_casc st || existsb (fun t => a_casc (atom_of t)) l.
Proof.
  induction l as [|t l IH]; intros st; cbn; [now rewrite orb_false_r|].
  fold (looks (look st (atom_of t)) l). rewrite IH. cbn. now rewrite orb_assoc.
Qed.
Lemma looks_block l : forall st, s_block (looks st l) = s_block st.
Proof.
  induction l as [|t l IH]; intros st; [reflexivity|].
  cbn. fold (looks (look st (atom_of t)) l). now rewrite IH.
Qed.

Lemma gen_loop_all inh ts : forall st last, s_all st = true ->
  let '(out, st2, _) := gen_loop inh st last ts in
  s_all st2 = true /\
  forall i, nth_error out i =
    option_map (fun t => plain_resolved (sym_of t)
      (if inh then inherit (looks st (firstn (S i) ts)) (atom_of t) else atom_of t) (snd t))
      (nth_error ts i).
Proof.
  induction ts as [|[[s a] n] ts IH]; intros st last H; cbn [gen_loop].
  - split; [exact H|]. intros i. destruct i; reflexivity.
  - set (a' := if inh then inherit (look st a) a else a).
    assert (H' : s_all (look st a) = true) by (cbn; rewrite H; reflexivity).
    specialize (IH (look st a) (Some (s, a', n)) H').
    destruct (gen_loop inh (look st a) (Some (s, a', n)) ts) as [[out st2] last2].
    destruct IH as [IH1 IH2]. rewrite H'. split; [exact IH1|].
    intros [|i]; [reflexivity|]. cbn [app nth_error]. rewrite IH2. reflexivity.
Qed.

Definition seen0 := {| s_reac := false; s_casc := false; s_block := false; s_all := true |}.

Lemma gen_triples_nth only inh ts i :
  nth_error (gen_triples only true inh ts) i =
    option_map (fun t => plain_resolved (sym_of t)
      (if inh then inherit (looks seen0 (firstn (S i) ts)) (atom_of t) else atom_of t) (snd t))
      (nth_error ts i).
Proof.
  unfold gen_triples. pose proof (gen_loop_all inh ts seen0 None eq_refl) as H.
  fold seen0. destruct (gen_loop inh seen0 None ts) as [[out st2] last2].
  destruct H as [H1 H2]. rewrite H1. apply H2.
Qed.

Lemma nth_error_eq {A} (l : list A) : forall l', (forall i, nth_error l i = nth_error l' i) -> l = l'.
Proof.
  induction l as [|a l IH]; intros [|b l'] H; try reflexivity.
  - specialize (H 0). discriminate.
  - specialize (H 0). discriminate.
  - pose proof (H 0) as H0. cbn in H0. injection H0 as ->. f_equal. apply IH.
    intros i. exact (H (S i)).
Qed.

Definition plain_of (t : triple) : resolved := plain_resolved (sym_of t) (atom_of t) (snd t).

Lemma gen_triples_plain only ts : gen_triples only true false ts = map plain_of ts.
Proof.
  apply nth_error_eq. intros i. rewrite gen_triples_nth, nth_error_map. reflexivity.
Qed.

Lemma gen_resolved_rev E sc ch :
  gen_resolved E sc ch false true false true = map plain_of (rev (walk E sc ch)).
Proof.
  unfold gen_resolved. rewrite !gen_triples_plain, map_map.
  rewrite (map_ext _ (fun t : triple => t)), map_id; [reflexivity|].
  intros [[s a] n]. reflexivity.
Qed.

(** The flags of an atom after inheritance. *)
Definition b_reac ts i := existsb (fun t => a_reac (atom_of t)) (firstn (S i) ts).
Definition b_casc ts i := existsb (fun t => a_casc (atom_of t)) (firstn (S i) ts).
Definition b_mark ts i := existsb (fun t => a_reac (atom_of t) || a_casc (atom_of t)) (firstn i ts).

Lemma inherit_flags ts i t : nth_error ts i = Some t -> single (atom_of t) ->
  let a := inherit (looks seen0 (firstn (S i) ts)) (atom_of t) in
  a_reac a = b_reac ts i /\ a_casc a = b_casc ts i /\
  a_block a = a_block (atom_of t) && negb (b_mark ts i) /\ a_call a = a_call (atom_of t).
Proof.
  intros Hn [Hs1 Hs2]. unfold inherit. rewrite looks_reac, looks_casc, looks_block.
  cbn [s_reac s_casc s_block seen0 negb andb orb].
  unfold b_reac, b_casc, b_mark. rewrite (firstn_S_nth _ _ _ Hn), !existsb_app.
  cbn [existsb]. rewrite !orb_false_r, !andb_true_r.
  assert (Hm : existsb (fun t => a_reac (atom_of t) || a_casc (atom_of t)) (firstn i ts) =
               existsb (fun t => a_reac (atom_of t)) (firstn i ts) ||
               existsb (fun t => a_casc (atom_of t)) (firstn i ts)).
  { induction (firstn i ts) as [|x l IH]; [reflexivity|]. cbn. rewrite IH.
    destruct (a_reac (atom_of x)), (a_casc (atom_of x)),
      (existsb (fun t => a_reac (atom_of t)) l), (existsb (fun t => a_casc (atom_of t)) l);
      reflexivity. }
  rewrite Hm. destruct (atom_of t) as [v c r k b]. cbn in *.
  destruct (existsb (fun t => a_reac (atom_of t)) (firstn i ts)),
    (existsb (fun t => a_casc (atom_of t)) (firstn i ts)), r, k, b; cbn; auto;
    try (destruct (Hs1 eq_refl); discriminate); try (specialize (Hs2 eq_refl); discriminate).
Qed.

Lemma b_reac_iff ts i : b_reac ts i = true <-> at_or_before ts i dollar.
Proof. apply existsb_firstn. Qed.
Lemma b_casc_iff ts i : b_casc ts i = true <-> at_or_before ts i ddollar.
Proof. apply existsb_firstn. Qed.
Lemma b_mark_iff ts i : b_mark ts i = true <-> before ts i marked.
Proof.
  unfold b_mark. rewrite existsb_firstn_lt. unfold before, marked, dollar, ddollar.
  split; intros (j & t & A & B & C); exists j, t; (split; [exact A|split; [exact B|]]);
    apply orb_true_iff; exact C.
Qed.

(** The loop of live references. *)
Definition as_live lhs killed ctr (r : resolved) : resolved :=
  {| r_sym := r_sym r; r_atom := r_atom r; r_next := r_next r; r_time := Some ctr;
     r_lhs := lhs; r_killed := killed |}.
Definition as_blocked lhs killed ctr (r : resolved) : resolved :=
  {| r_sym := r_sym r; r_atom := blocking_atom (r_atom r); r_next := r_next r;
     r_time := Some ctr; r_lhs := lhs; r_killed := killed |}.

Lemma live_loop_nth W lhs killed ctr rs : forall b i,
  nth_error (live_loop W lhs killed ctr b rs) i =
  option_map (fun r =>
    if (b || existsb (fun r => is_blocking W (as_live lhs killed ctr r)) (firstn (S i) rs)) &&
       negb (is_blocking W (as_live lhs killed ctr r))
    then as_blocked lhs killed ctr r else as_live lhs killed ctr r) (nth_error rs i).
Proof.
  induction rs as [|r rs IH]; intros b i; [destruct i; reflexivity|].
  cbn [live_loop]. fold (as_live lhs killed ctr r) (as_blocked lhs killed ctr r).
  destruct i as [|i].
  - cbn. rewrite orb_false_r. reflexivity.
  - cbn [nth_error]. rewrite IH.
    change (existsb ?f (firstn (S (S i)) (r :: rs))) with (f r || existsb f (firstn (S i) rs)).
    cbv beta. now rewrite orb_assoc.
Qed.

Lemma held_iff W s : (w_stamp W s <=? blocked_at W s)%Z = true <-> held W s.
Proof.
  unfold blocked_at, held. rewrite Z.leb_le. destruct (dget (w_blocked W) s); reflexivity.
Qed.

Definition held_b W s := (w_stamp W s <=? blocked_at W s)%Z.

Section Live.
  Variables (W : world) (E : scopes) (sc : nat) (ch : list atom) (only lhs : bool) (ctr : Z).
  Notation ts := (walk E sc ch).
  Hypothesis Hsingle : Forall single ch.

  Lemma walk_atoms : forall sc i t, nth_error (walk E sc ch) i = Some t -> single (atom_of t).
  Proof.
    induction Hsingle as [|a l Ha Hl IH]; intros c i t H; [destruct i; discriminate|].
    cbn [walk] in H. destruct (lookup E c (a_value a)); [|destruct i; discriminate].
    destruct i as [|i].
    - cbn in H. injection H as <-. exact Ha.
    - cbn [nth_error] in H. destruct (a_call a); [destruct i; discriminate|].
      destruct (namespace E n); [|destruct i; discriminate]. exact (IH Hl _ _ _ H).
  Qed.

  Definition base (i : nat) (t : triple) : resolved :=
    plain_resolved (sym_of t) (inherit (looks seen0 (firstn (S i) ts)) (atom_of t)) (snd t).

  Lemma gen_nth i : nth_error (gen_resolved E sc ch only true true false) i =
    option_map (base i) (nth_error ts i).
  Proof. unfold gen_resolved. now rewrite gen_triples_nth. Qed.

  Lemma base_blocking i t : nth_error ts i = Some t ->
    is_blocking W (as_live lhs false ctr (base i t)) = true <->
    lone_stop ts i \/ held W (sym_of t).
  Proof.
    intros Hn. unfold is_blocking, is_live. cbn -[inherit looks firstn].
    destruct (inherit_flags ts i t Hn (walk_atoms _ _ _ Hn)) as (_ & _ & Hb & _). rewrite Hb.
    rewrite orb_true_iff, andb_true_iff, negb_true_iff, held_iff.
    assert (Hl : (a_block (atom_of t) = true /\ b_mark ts i = false) <-> lone_stop ts i).
    { split.
      - intros [A B]. exists t. split; [exact Hn|]. split; [exact A|].
        intros C. apply b_mark_iff in C. congruence.
      - intros (t' & A & B & C). rewrite Hn in A. injection A as <-. split; [exact B|].
        destruct (b_mark ts i) eqn:D; [|reflexivity]. destruct (C (proj1 (b_mark_iff _ _) D)). }
    rewrite <- Hl. reflexivity.
  Qed.

  Definition quiet (i : nat) : Prop :=
    exists j t, j <= i /\ nth_error ts j = Some t /\ (lone_stop ts j \/ held W (sym_of t)).

  Lemma any_blocking i :
    existsb (fun r => is_blocking W (as_live lhs false ctr r))
      (firstn (S i) (gen_resolved E sc ch only true true false)) = true <-> quiet i.
  Proof.
    rewrite existsb_firstn. split.
    - intros (j & r & Hj & Hn & Hb). rewrite gen_nth in Hn.
      destruct (nth_error ts j) as [t|] eqn:Ht; [|discriminate]. injection Hn as <-.
      exists j, t. split; [exact Hj|]. split; [exact Ht|]. exact (proj1 (base_blocking j t Ht) Hb).
    - intros (j & t & Hj & Hn & Hb). exists j, (base j t). split; [exact Hj|].
      rewrite gen_nth, Hn. split; [reflexivity|]. exact (proj2 (base_blocking j t Hn) Hb).
  Qed.

  Lemma live_nth i r :
    nth_error (live_resolved W E sc ch only true lhs false ctr) i = Some r ->
    exists t, nth_error ts i = Some t /\ r_sym r = sym_of t /\ r_next r = snd t /\
      r_time r = Some ctr /\ r_lhs r = lhs /\ r_killed r = false /\
      (is_blocking W r = true <-> quiet i) /\
      (~ quiet i -> a_reac (r_atom r) = b_reac ts i /\ a_casc (r_atom r) = b_casc ts i).
  Proof.
    unfold live_resolved. rewrite live_loop_nth, gen_nth.
    destruct (nth_error ts i) as [t|] eqn:Ht; [|discriminate]. cbn [option_map orb].
    set (B := existsb _ _). set (C := is_blocking W (as_live lhs false ctr (base i t))).
    assert (HB : B = true <-> quiet i) by apply any_blocking.
    assert (HC : C = true -> B = true).
    { intros H. apply HB. exists i, t. split; [lia|]. split; [exact Ht|].
      exact (proj1 (base_blocking i t Ht) H). }
    intros [= <-]. exists t. split; [reflexivity|].
    destruct (B && negb C) eqn:D.
    - apply andb_true_iff in D as [D1 D2]. cbn -[inherit].
      repeat (split; [reflexivity|]). split.
      + unfold is_blocking. cbn. split; [intros _; now apply HB|reflexivity].
      + intros N. destruct N. now apply HB.
    - cbn -[inherit is_blocking looks firstn]. repeat (split; [reflexivity|]). split.
      + fold C. rewrite <- HB. split; [exact HC|]. intros H. rewrite H in D. cbn in D.
        now apply negb_false_iff in D.
      + intros _. destruct (inherit_flags ts i t Ht (walk_atoms _ _ _ Ht)) as (R & K & _ & _).
        split; [exact R|exact K].
  Qed.

  Lemma live_length :
    length (live_resolved W E sc ch only true lhs false ctr) = length ts.
  Proof.
    assert (H : forall i, nth_error (live_resolved W E sc ch only true lhs false ctr) i = None <->
                          nth_error ts i = None).
    { intros i. unfold live_resolved. rewrite live_loop_nth, gen_nth.
      destruct (nth_error ts i); cbn; [|tauto]. destruct (_ && _); split; discriminate. }
    assert (G : forall n (l : list resolved) (l' : list triple),
      length l = n -> (forall i, nth_error l i = None <-> nth_error l' i = None) ->
      length l = length l').
    { intros n l l' _ Q. apply Nat.le_antisymm.
      - apply nth_error_None. apply Q. now apply nth_error_None.
      - apply nth_error_None. apply Q. now apply nth_error_None. }
    exact (G _ _ _ eq_refl H).
  Qed.

  Lemma deep_In s : is_updated_deep W s = true <-> stored W s.
  Proof. unfold is_updated_deep, stored. now rewrite orb_true_iff, !memb_In. Qed.

  Lemma live_reactive cnum i r :
    nth_error (live_resolved W E sc ch only true lhs false ctr) i = Some r ->
    is_reactive W cnum r = true <->
    ~ quiet i /\
    (at_or_before ts i dollar /\ lhs = false \/ at_or_before ts i ddollar \/
     (Z.max ctr (w_min W) < cnum (r_sym r))%Z \/ stored W (r_sym r)).
  Proof.
    intros H. destruct (live_nth i r H) as (t & Ht & Hs & Hn & Htm & Hl & Hk & Hb & Ha).
    unfold is_reactive. destruct (is_blocking W r) eqn:B.
    - split; [discriminate|]. intros [N _]. destruct N. now apply Hb.
    - assert (N : ~ quiet i) by (rewrite <- Hb; discriminate).
      destruct (Ha N) as [A1 A2].
      unfold is_cascading, is_live. rewrite Htm, Hk, Hl, A1, A2. cbn [negb andb].
      rewrite !orb_true_iff, andb_true_iff, negb_true_iff, b_reac_iff, b_casc_iff, deep_In.
      unfold cascading_at. rewrite Z.ltb_lt. tauto.
  Qed.

  Lemma live_cascading cnum i r :
    nth_error (live_resolved W E sc ch only true lhs false ctr) i = Some r -> ~ quiet i ->
    is_cascading W cnum r = true <->
    at_or_before ts i ddollar \/ (Z.max ctr (w_min W) < cnum (r_sym r))%Z.
  Proof.
    intros H N. destruct (live_nth i r H) as (t & Ht & Hs & Hn & Htm & Hl & Hk & Hb & Ha).
    destruct (Ha N) as [A1 A2]. unfold is_cascading, is_live. rewrite Htm, Hk, A2.
    cbn [negb andb]. rewrite orb_true_iff, b_casc_iff. unfold cascading_at. rewrite Z.ltb_lt.
    reflexivity.
  Qed.
End Live.

(** * Marks in the target of a store *)

Lemma aoa_0 ts t P : at_or_after (t :: ts) 0 P <-> P t \/ exists i t', nth_error ts i = Some t' /\ P t'.
Proof.
  split.
  - intros (j & x & _ & H & Hp). destruct j as [|j]; cbn in H.
    + injection H as ->. auto.
    + right. exists j, x. auto.
  - intros [H|(i & t' & H & Hp)].
    + exists 0, t. split; [lia|]. auto.
    + exists (S i), t'. split; [lia|]. auto.
Qed.
Lemma aoa_S ts t i P : at_or_after (t :: ts) (S i) P <-> at_or_after ts i P.
Proof.
  split; intros (j & x & Hj & H & Hp).
  - destruct j as [|j]; [lia|]. exists j, x. split; [lia|]. auto.
  - exists (S j), x. split; [lia|]. auto.
Qed.

Definition some_of ts (P : triple -> Prop) := exists i t, nth_error ts i = Some t /\ P t.

Lemma some_cons ts t P : some_of (t :: ts) P <-> P t \/ some_of ts P.
Proof.
  split.
  - intros ([|j] & x & H & Hp); cbn in H; [injection H as ->; auto|right; exists j, x; auto].
  - intros [H|(i & x & H & Hp)]; [exists 0, t; auto|exists (S i), x; auto].
Qed.

Lemma md_cons ts t s P : marks_deep (t :: ts) s P <->
  (sym_of t = s /\ P t /\ ~ stop t /\ ~ some_of ts stop) \/ marks_deep ts s P.
Proof.
  split.
  - intros ([|i] & x & H & A & B & C); cbn in H.
    + injection H as ->. left. split; [exact A|]. split; [exact B|]. rewrite aoa_0 in C.
      unfold some_of. tauto.
    + right. rewrite aoa_S in C. exists i, x. auto.
  - intros [(A & B & C & D)|(i & x & H & A & B & C)].
    + exists 0, t. split; [reflexivity|]. rewrite aoa_0. unfold some_of in D. tauto.
    + exists (S i), x. rewrite aoa_S. auto.
Qed.

Lemma mk_cons ts t s P : marks (t :: ts) s P <->
  (sym_of t = s /\ P t /\ (marked t \/ some_of ts marked) /\ ~ stop t /\ ~ some_of ts stop)
  \/ marks ts s P.
Proof.
  split.
  - intros ([|i] & x & H & A & B & M & C); cbn in H.
    + injection H as ->. left. split; [exact A|]. split; [exact B|].
      rewrite aoa_0 in C, M. unfold some_of. tauto.
    + right. rewrite aoa_S in C, M. exists i, x. auto 6.
  - intros [(A & B & M & C & D)|(i & x & H & A & B & M & C)].
    + exists 0, t. split; [reflexivity|]. rewrite !aoa_0. unfold some_of in D, M. tauto.
    + exists (S i), x. rewrite !aoa_S. auto 6.
Qed.

Lemma st_cons ts t s : stops (t :: ts) s <->
  (sym_of t = s /\ (stop t \/ some_of ts stop)) \/ stops ts s.
Proof.
  split.
  - intros ([|i] & x & H & A & C); cbn in H.
    + injection H as ->. left. rewrite aoa_0 in C. auto.
    + right. rewrite aoa_S in C. exists i, x. auto.
  - intros [(A & C)|(i & x & H & A & C)].
    + exists 0, t. rewrite aoa_0. auto.
    + exists (S i), x. rewrite aoa_S. auto.
Qed.

Lemma md_nil s P : ~ marks_deep [] s P.
Proof. intros ([|i] & t & H & _); discriminate. Qed.
Lemma mk_nil s P : ~ marks [] s P.
Proof. intros ([|i] & t & H & _); discriminate. Qed.
Lemma st_nil s : ~ stops [] s.
Proof. intros ([|i] & t & H & _); discriminate. Qed.
Lemma so_nil P : ~ some_of [] P.
Proof. intros ([|i] & t & H & _); discriminate. Qed.

Lemma In_sadd_one x s l : In s (sadd x l) <-> x = s \/ In s l.
Proof. rewrite In_sadd. intuition. Qed.

Definition stamp_marks (ts : list triple) (s : nat) : Prop :=
  marks_deep ts s (fun t => snd t = None /\ marked t).

(** What the loop has done after the parts in [ts]. *)
Record stored_rel (ts : list triple) (rs bs : bool) (W W' : world) : Prop := {
  sr_bs : bs = true <-> some_of ts stop;
  sr_rs : bs = false -> (rs = true <-> some_of ts marked);
  sr_deep : forall s, In s (w_deep W') <-> In s (w_deep W) \/ marks_deep ts s ddollar;
  sr_deepl : forall s, In s (w_deep_last W') <-> In s (w_deep_last W) \/ marks_deep ts s by_dollar;
  sr_upd : forall s, In s (w_upd W') <-> In s (w_upd W) \/ marks ts s ddollar;
  sr_updl : forall s, In s (w_upd_last W') <->
              In s (w_upd_last W) \/ marks ts s (fun t => ~ ddollar t);
  sr_blk1 : forall s, stops ts s -> ~ In s (w_updated W) ->
              dget (w_blocked W') s = Some (w_ctr W);
  sr_blk2 : forall s, ~ stops ts s \/ In s (w_updated W) ->
              dget (w_blocked W') s = dget (w_blocked W) s;
  sr_num1 : forall s, marks_deep ts s ddollar -> w_num W' s = Z.max (w_num W s) (w_ctr W);
  sr_num2 : forall s, ~ marks_deep ts s ddollar -> w_num W' s = w_num W s;
  sr_st1 : forall s, stamp_marks ts s -> w_stamp W' s = w_ctr W;
  sr_st2 : forall s, ~ stamp_marks ts s -> w_stamp W' s = w_stamp W s;
  sr_same : w_updated W' = w_updated W /\ w_stmt W' = w_stmt W /\ w_min W' = w_min W /\
            w_ctr W' = w_ctr W /\ w_prev W' = w_prev W /\ w_last W' = w_last W }.

Lemma md_dec ts s (P : triple -> Prop) : (forall t, P t \/ ~ P t) ->
  marks_deep ts s P \/ ~ marks_deep ts s P.
Proof.
  intros D. induction ts as [|t ts IH]; [right; apply md_nil|].
  rewrite md_cons. assert (S : some_of ts stop \/ ~ some_of ts stop).
  { clear IH. induction ts as [|x ts IH]; [right; apply so_nil|]. rewrite some_cons.
    unfold stop at 1 3. destruct (a_block (atom_of x)), IH; intuition discriminate. }
  destruct (Nat.eq_dec (sym_of t) s), (D t), IH, S;
    unfold stop at 1 3; destruct (a_block (atom_of t)); intuition discriminate.
Qed.

Lemma store_fold ts : forall W,
  let '(rs, bs, W') := fold_right (fun t st => store_one st (plain_of t)) (false, false, W) ts in
  stored_rel ts rs bs W W'.
Proof.
  induction ts as [|t ts IH]; intros W.
  - cbn. constructor; intros; try reflexivity.
    + split; [discriminate|]. intros H. destruct (so_nil _ H).
    + split; [discriminate|]. intros H'. destruct (so_nil _ H').
    + split; [auto|]. intros [H|H]; [exact H|destruct (md_nil _ _ H)].
    + split; [auto|]. intros [H|H]; [exact H|destruct (md_nil _ _ H)].
    + split; [auto|]. intros [H|H]; [exact H|destruct (mk_nil _ _ H)].
    + split; [auto|]. intros [H|H]; [exact H|destruct (mk_nil _ _ H)].
    + destruct (st_nil _ H).
    + destruct (md_nil _ _ H).
    + destruct (md_nil _ _ H).
    + repeat split.
  - cbn [fold_right]. specialize (IH W).
    destruct (fold_right _ _ ts) as [[rs bs] W1].
    destruct IH as [Hbs Hrs Hd Hdl Hu Hul Hb1 Hb2 Hn1 Hn2 Hs1 Hs2 (E1 & E2 & E3 & E4 & E5 & E6)].
    destruct t as [[x a] n].
    set (t := (x, a, n) : triple).
    assert (Ex : sym_of t = x) by reflexivity.
    assert (Ed : dollar t <-> a_reac a = true) by reflexivity.
    assert (Edd : ddollar t <-> a_casc a = true) by reflexivity.
    assert (Es : stop t <-> a_block a = true) by reflexivity.
    assert (En : snd t = n) by reflexivity.
    unfold store_one, plain_of, is_reactive, is_cascading, is_blocking, is_live, plain_resolved.
    cbn [r_sym r_atom r_next r_time r_lhs r_killed sym_of atom_of fst snd negb andb orb].
    rewrite !orb_false_r, !andb_true_r.
    change (atom_of t) with a. change (sym_of t) with x. change (snd t) with n.
    destruct (a_block a) eqn:Ab.
    + (* `$:` here *)
      rewrite orb_true_r. cbn [negb andb].
      rewrite orb_false_r. rewrite andb_false_r.
      assert (St : stop t) by (apply Es; reflexivity).
      assert (Nmd : forall s P, marks_deep (t :: ts) s P <-> marks_deep ts s P).
      { intros s P. rewrite md_cons. tauto. }
      assert (Nmk : forall s P, marks (t :: ts) s P <-> marks ts s P).
      { intros s P. rewrite mk_cons. tauto. }
      assert (Sst : forall s, stops (t :: ts) s <-> x = s \/ stops ts s).
      { intros s. rewrite st_cons, Ex. tauto. }
      rewrite E1.
      destruct (memb x (w_updated W)) eqn:Mx; cbn [negb].
      * apply memb_In in Mx. constructor; try (intros s; rewrite ?Nmd, ?Nmk, ?Sst; auto; fail).
        -- rewrite some_cons. tauto.
        -- discriminate.
        -- intros s. rewrite Sst. intros [->|H] Hni; [contradiction|auto].
        -- intros s. rewrite Sst. intros H. apply Hb2. tauto.
        -- intros s H. apply Hs1. unfold stamp_marks in *. now rewrite Nmd in H.
        -- intros s H. apply Hs2. unfold stamp_marks in *. now rewrite Nmd in H.
        -- repeat split; assumption.
      * apply memb_nIn in Mx. constructor; cbn; try (intros s; rewrite ?Nmd, ?Nmk; auto; fail).
        -- rewrite some_cons. tauto.
        -- discriminate.
        -- intros s. rewrite Sst, E4. intros H Hni. rewrite dget_dset.
           destruct (Nat.eqb_spec s x); [reflexivity|]. apply Hb1; [|exact Hni].
           destruct H; [congruence|assumption].
        -- intros s. rewrite Sst. intros H. rewrite dget_dset.
           destruct (Nat.eqb_spec s x) as [->|Ne]; [tauto|]. apply Hb2. tauto.
        -- intros s H. apply Hs1. unfold stamp_marks in *. now rewrite Nmd in H.
        -- intros s H. apply Hs2. unfold stamp_marks in *. now rewrite Nmd in H.
        -- repeat split; assumption.
    + assert (St : ~ stop t) by (rewrite Es; discriminate).
      rewrite orb_false_r.
      destruct bs eqn:Bs.
      * (* a `$:` further on *)
        cbn [negb andb]. rewrite !andb_false_r, orb_false_r, ?andb_false_r. cbn [andb].
        assert (So : some_of ts stop) by (apply Hbs; reflexivity).
        assert (Nmd : forall s P, marks_deep (t :: ts) s P <-> marks_deep ts s P).
        { intros s P. rewrite md_cons. tauto. }
        assert (Nmk : forall s P, marks (t :: ts) s P <-> marks ts s P).
        { intros s P. rewrite mk_cons. tauto. }
        assert (Sst : forall s, stops (t :: ts) s <-> x = s \/ stops ts s).
        { intros s. rewrite st_cons, Ex. tauto. }
        rewrite E1.
        destruct (memb x (w_updated W)) eqn:Mx; cbn [negb].
        -- apply memb_In in Mx. constructor; try (intros s; rewrite ?Nmd, ?Nmk, ?Sst; auto; fail).
           ++ rewrite some_cons. tauto.
           ++ discriminate.
           ++ intros s. rewrite Sst. intros [->|H] Hni; [contradiction|auto].
           ++ intros s. rewrite Sst. intros H. apply Hb2. tauto.
           ++ intros s H. apply Hs1. unfold stamp_marks in *. now rewrite Nmd in H.
           ++ intros s H. apply Hs2. unfold stamp_marks in *. now rewrite Nmd in H.
           ++ repeat split; assumption.
        -- apply memb_nIn in Mx. constructor; cbn; try (intros s; rewrite ?Nmd, ?Nmk; auto; fail).
           ++ rewrite some_cons. tauto.
           ++ discriminate.
           ++ intros s. rewrite Sst, E4. intros H Hni. rewrite dget_dset.
              destruct (Nat.eqb_spec s x); [reflexivity|]. apply Hb1; [|exact Hni].
              destruct H; [congruence|assumption].
           ++ intros s. rewrite Sst. intros H. rewrite dget_dset.
              destruct (Nat.eqb_spec s x) as [->|Ne]; [tauto|]. apply Hb2. tauto.
           ++ intros s H. apply Hs1. unfold stamp_marks in *. now rewrite Nmd in H.
           ++ intros s H. apply Hs2. unfold stamp_marks in *. now rewrite Nmd in H.
           ++ repeat split; assumption.
      * (* no `$:` from here on *)
        assert (So : ~ some_of ts stop) by (rewrite <- Hbs; discriminate).
        specialize (Hrs eq_refl). cbn [negb andb]. rewrite ?andb_true_r.
        assert (Nmd : forall s P, marks_deep (t :: ts) s P <->
                        (x = s /\ P t) \/ marks_deep ts s P).
        { intros s P. rewrite md_cons, Ex. tauto. }
        assert (Nmk : forall s P, marks (t :: ts) s P <->
                        (x = s /\ P t /\ (marked t \/ some_of ts marked)) \/ marks ts s P).
        { intros s P. rewrite mk_cons, Ex. tauto. }
        assert (Sst : forall s, stops (t :: ts) s <-> stops ts s).
        { intros s. rewrite st_cons. tauto. }
        assert (Em : a_reac a || a_casc a = true <-> marked t).
        { rewrite orb_true_iff. reflexivity. }
        assert (Ddec : forall u : triple, ddollar u \/ ~ ddollar u).
        { intros u. unfold ddollar. destruct (a_casc (atom_of u)); auto. }
        destruct (a_casc a) eqn:Ac.
        -- (* `$$` *)
           rewrite orb_true_r. cbn [andb orb]. rewrite orb_true_r.
           assert (Dd : ddollar t) by (apply Edd; reflexivity).
           assert (Mt : marked t) by (right; exact Dd).
           cbn. constructor; cbn.
           ++ rewrite some_cons. split; [discriminate|]. tauto.
           ++ intros _. rewrite some_cons. tauto.
           ++ intros s. rewrite In_sadd_one, Hd, Nmd. tauto.
           ++ intros s. rewrite Hdl, Nmd. unfold by_dollar at 2. tauto.
           ++ intros s. rewrite In_sadd_one, Hu, Nmk. tauto.
           ++ intros s. rewrite Hul, Nmk. tauto.
           ++ intros s. rewrite Sst. apply Hb1.
           ++ intros s. rewrite Sst. apply Hb2.
           ++ intros s. rewrite Nmd. intros H. unfold bump.
              rewrite E4. destruct (Nat.eqb_spec s x) as [->|Ne].
              ** destruct (md_dec ts x ddollar Ddec) as [M|M].
                 --- rewrite (Hn1 x M). lia.
                 --- rewrite (Hn2 x M). lia.
              ** apply Hn1. destruct H as [[H _]|H]; [congruence|exact H].
           ++ intros s. rewrite Nmd. intros H. unfold bump.
              destruct (Nat.eqb_spec s x) as [->|Ne]; [tauto|]. apply Hn2. tauto.
           ++ intros s. unfold stamp_marks. rewrite Nmd, En. intros H.
              destruct n as [b|].
              ** apply Hs1. destruct H as [(_ & H & _)|H]; [discriminate|exact H].
              ** unfold set_stamps. cbn. rewrite orb_false_r, E4.
                 destruct (Nat.eqb_spec s x) as [->|Ne]; [reflexivity|].
                 apply Hs1. destruct H as [(H & _)|H]; [congruence|exact H].
           ++ intros s. unfold stamp_marks. rewrite Nmd, En. intros H.
              destruct n as [b|].
              ** apply Hs2. unfold stamp_marks. tauto.
              ** unfold set_stamps. cbn. rewrite orb_false_r.
                 destruct (Nat.eqb_spec s x) as [->|Ne]; [tauto|].
                 apply Hs2. unfold stamp_marks. tauto.
           ++ repeat split; assumption.
        -- assert (Nd : ~ ddollar t) by (rewrite Edd; discriminate).
           rewrite orb_false_r. rewrite orb_false_r in Em.
           destruct (a_reac a) eqn:Ar.
           ++ (* `$` *)
              assert (Mt : marked t) by (left; apply Ed; reflexivity).
              assert (Bt : by_dollar t) by (split; [apply Ed; reflexivity|exact Nd]).
              rewrite orb_true_r. cbn. constructor; cbn.
              ** rewrite some_cons. split; [discriminate|]. tauto.
              ** intros _. rewrite some_cons. tauto.
              ** intros s. rewrite Hd, Nmd. tauto.
              ** intros s. rewrite In_sadd_one, Hdl, Nmd. tauto.
              ** intros s. rewrite Hu, Nmk. tauto.
              ** intros s. rewrite In_sadd_one, Hul, Nmk. tauto.
              ** intros s. rewrite Sst. apply Hb1.
              ** intros s. rewrite Sst. apply Hb2.
              ** intros s. rewrite Nmd. intros H. apply Hn1. tauto.
              ** intros s. rewrite Nmd. intros H. apply Hn2. tauto.
              ** intros s. unfold stamp_marks. rewrite Nmd, En. intros H.
                 destruct n as [b|].
                 --- apply Hs1. destruct H as [(_ & H & _)|H]; [discriminate|exact H].
                 --- unfold set_stamps. cbn. rewrite orb_false_r, E4.
                     destruct (Nat.eqb_spec s x) as [->|Ne]; [reflexivity|].
                     apply Hs1. destruct H as [(H & _)|H]; [congruence|exact H].
              ** intros s. unfold stamp_marks. rewrite Nmd, En. intros H.
                 destruct n as [b|].
                 --- apply Hs2. unfold stamp_marks. tauto.
                 --- unfold set_stamps. cbn. rewrite orb_false_r.
                     destruct (Nat.eqb_spec s x) as [->|Ne]; [tauto|].
                     apply Hs2. unfold stamp_marks. tauto.
              ** repeat split; assumption.
           ++ (* no mark *)
              assert (Mt : ~ marked t) by (rewrite <- Em; discriminate).
              assert (Nb : ~ by_dollar t) by (intros [H _]; apply Ed in H; discriminate).
              cbn [andb orb]. rewrite orb_false_r.
              destruct rs eqn:Rs.
              ** assert (Sm : some_of ts marked) by (apply Hrs; reflexivity).
                 cbn. constructor; cbn.
                 --- rewrite some_cons. split; [discriminate|]. tauto.
                 --- intros _. rewrite some_cons. tauto.
                 --- intros s. rewrite Hd, Nmd. tauto.
                 --- intros s. rewrite Hdl, Nmd. tauto.
                 --- intros s. rewrite Hu, Nmk. tauto.
                 --- intros s. rewrite In_sadd_one, Hul, Nmk. tauto.
                 --- intros s. rewrite Sst. apply Hb1.
                 --- intros s. rewrite Sst. apply Hb2.
                 --- intros s. rewrite Nmd. intros H. apply Hn1. tauto.
                 --- intros s. rewrite Nmd. intros H. apply Hn2. tauto.
                 --- intros s. unfold stamp_marks. rewrite Nmd. intros H. apply Hs1.
                     unfold stamp_marks. tauto.
                 --- intros s. unfold stamp_marks. rewrite Nmd. intros H. apply Hs2.
                     unfold stamp_marks. tauto.
                 --- repeat split; assumption.
              ** assert (Sm : ~ some_of ts marked) by (rewrite <- Hrs; discriminate).
                 cbn. constructor; cbn.
                 --- rewrite some_cons. split; [discriminate|]. tauto.
                 --- intros _. rewrite some_cons. split; [discriminate|]. tauto.
                 --- intros s. rewrite Hd, Nmd. tauto.
                 --- intros s. rewrite Hdl, Nmd. tauto.
                 --- intros s. rewrite Hu, Nmk. tauto.
                 --- intros s. rewrite Hul, Nmk. tauto.
                 --- intros s. rewrite Sst. apply Hb1.
                 --- intros s. rewrite Sst. apply Hb2.
                 --- intros s. rewrite Nmd. intros H. apply Hn1. tauto.
                 --- intros s. rewrite Nmd. intros H. apply Hn2. tauto.
                 --- intros s. unfold stamp_marks. rewrite Nmd. intros H. apply Hs1.
                     unfold stamp_marks. tauto.
                 --- intros s. unfold stamp_marks. rewrite Nmd. intros H. apply Hs2.
                     unfold stamp_marks. tauto.
                 --- repeat split; assumption.
Qed.

Lemma handle_store_spec E sc ch W : exists rs bs,
  stored_rel (walk E sc ch) rs bs W (handle_store E sc ch W).
Proof.
  unfold handle_store. rewrite gen_resolved_rev.
  assert (H : fold_left store_one (map plain_of (rev (walk E sc ch))) (false, false, W) =
              fold_right (fun t st => store_one st (plain_of t)) (false, false, W) (walk E sc ch)).
  { rewrite <- fold_left_rev_right, <- map_rev, rev_involutive.
    generalize (walk E sc ch). intros l. induction l as [|t l IH]; [reflexivity|].
    cbn. now rewrite IH. }
  rewrite H. pose proof (store_fold (walk E sc ch) W) as S.
  destruct (fold_right _ _ _) as [[rs bs] W']. exists rs, bs. exact S.
Qed.

(** * Histories *)

Lemma count_app h1 h2 : count (h1 ++ h2) = (count h1 + count h2)%Z.
Proof.
  induction h1 as [|e h1 IH]; [reflexivity|].
  cbn [app]. destruct e; cbn [count]; rewrite IH; lia.
Qed.

Lemma count_nonneg h : (0 <= count h)%Z.
Proof.
  induction h as [|e h IH]; [cbn; lia|]. destruct e; cbn [count]; lia.
Qed.

Lemma snoc_split {A} (h : list A) a h1 e h2 : h ++ [a] = h1 ++ e :: h2 ->
  (h2 = [] /\ e = a /\ h = h1) \/ exists h2', h2 = h2' ++ [a] /\ h = h1 ++ e :: h2'.
Proof.
  induction h2 as [|x h2' _] using rev_ind.
  - intros H. apply app_inj_tail in H as [-> ->]. auto.
  - intros H. right. exists h2'. rewrite app_comm_cons, app_assoc in H.
    apply app_inj_tail in H as [-> ->]. auto.
Qed.

Lemma since_nil P C : ~ since [] P C.
Proof. intros ([|? ?] & x & h2 & H & _); discriminate. Qed.

Lemma since_snoc h e P C : since (h ++ [e]) P C <-> P e \/ (since h P C /\ ~ C e).
Proof.
  split.
  - intros (h1 & x & h2 & H & Hp & Hc). apply snoc_split in H as [(-> & -> & ->)|(h2' & -> & ->)].
    + auto.
    + right. split.
      * exists h1, x, h2'. split; [reflexivity|]. split; [exact Hp|].
        intros e' He. apply Hc. apply in_or_app. auto.
      * apply Hc. apply in_or_app. right. left. reflexivity.
  - intros [H|[(h1 & x & h2 & -> & Hp & Hc) Hn]].
    + exists h, e, []. split; [reflexivity|]. split; [exact H|]. intros e' [].
    + exists h1, x, (h2 ++ [e]). split; [now rewrite <- app_assoc|]. split; [exact Hp|].
      intros e' He. apply in_app_or in He as [He|[<-|[]]]; auto.
Qed.

Lemma run_snoc h e : run (h ++ [e]) = rbind (run h) (fun W => step W e).
Proof.
  unfold run. rewrite rfold_app. destruct (rfold step h world0) as [W|er]; [|reflexivity].
  cbn. destruct (step W e); reflexivity.
Qed.

Lemma run_snoc_Ok h e W : run (h ++ [e]) = Ok W -> exists W0, run h = Ok W0 /\ step W0 e = Ok W.
Proof.
  rewrite run_snoc. intros H. apply rbind_Ok in H as (W0 & H1 & H2). exists W0. auto.
Qed.

(** What update does, whether or not it goes through. *)
Lemma update_fields G W u W' : update G W u = Ok W' ->
  w_blocked W' = w_blocked W /\ w_upd_last W' = w_upd_last W /\ w_deep_last W' = w_deep_last W /\
  w_updated W' = w_updated W /\ w_min W' = w_min W /\ w_ctr W' = w_ctr W /\
  w_prev W' = w_prev W /\ w_last W' = w_last W /\
  (forall s, In s (w_deep W') <-> In s (w_deep W) /\ ~ overwritten s (Update G u)) /\
  (forall s, In s (w_upd W') <-> In s (w_upd W) /\ ~ overwritten s (Update G u)) /\
  (forall s, In s (w_stmt W') <-> In s (w_stmt W) \/
     ((u_same_import u = true \/ u_mutated u && u_immutable u = false) /\ In s (u_seen u))) /\
  (forall s, stamps s (Update G u) -> w_stamp W' s = w_ctr W) /\
  (forall s, ~ stamps s (Update G u) -> w_stamp W' s = w_stamp W s).
Proof.
  unfold update. unfold overwritten, goes_through, stamps.
  assert (Ho : overwrites u = true <-> u_overwrite u = true /\ ~ In (u_sym u) (u_deps u) /\
                                       u_cyclic u = false).
  { unfold overwrites. rewrite !andb_true_iff, !negb_true_iff, memb_nIn. tauto. }
  destruct (u_same_import u) eqn:Si.
  - intros [= <-]. cbn. repeat (split; [reflexivity|]).
    split; [intros s; intuition discriminate|]. split; [intros s; intuition discriminate|].
    split; [intros s; rewrite In_supd; tauto|]. unfold set_stamps. split; intros s H.
    + destruct H as [_ H]. apply memb_In in H. now rewrite H.
    + destruct (memb s (u_stamped u)) eqn:M; [|reflexivity]. destruct H.
      split; [auto|]. now apply memb_In.
  - destruct (u_mutated u && u_immutable u) eqn:Mi.
    + intros [= <-]. repeat (split; [reflexivity|]).
      split; [intros s; intuition discriminate|]. split; [intros s; intuition discriminate|].
      split; [intros s; intuition discriminate|].
      split; intros s H; [intuition discriminate|reflexivity].
    + intros H. apply rmap_Ok in H as (c & _ & <-). cbn.
      repeat (split; [reflexivity|]).
      split; [|split; [|split; [intros s; rewrite In_supd; tauto|]]].
      * intros s. destruct (overwrites u) eqn:O.
        -- rewrite In_sdiff. cbn. split.
           ++ intros [A B]. split; [exact A|]. intros (_ & C & _). auto.
           ++ intros [A B]. split; [exact A|]. intros [C|[]]. apply B.
              split; [auto|]. split; [exact C|]. subst s. tauto.
        -- split; [|tauto]. intros A. split; [exact A|].
           intros (_ & C & D). subst s. assert (false = true) by tauto. discriminate.
      * intros s. destruct (overwrites u) eqn:O.
        -- rewrite In_sdiff. cbn. split.
           ++ intros [A B]. split; [exact A|]. intros (_ & C & _). auto.
           ++ intros [A B]. split; [exact A|]. intros [C|[]]. apply B.
              split; [auto|]. split; [exact C|]. subst s. tauto.
        -- split; [|tauto]. intros A. split; [exact A|].
           intros (_ & C & D). subst s. assert (false = true) by tauto. discriminate.
      * unfold set_stamps. split; intros s H.
        -- destruct H as [_ H]. apply memb_In in H. now rewrite H.
        -- destruct (memb s (u_stamped u)) eqn:M; [|reflexivity]. destruct H.
           split; [auto|]. now apply memb_In.
Qed.

Section History.
  Variable s : nat.

  Lemma run_ctr : forall h W, run h = Ok W -> w_ctr W = count h.
  Proof.
    induction h as [|e h IH] using rev_ind; intros W H.
    - injection H as <-. reflexivity.
    - apply run_snoc_Ok in H as (W0 & H0 & H). specialize (IH _ H0). rewrite count_app.
      destruct e as [c|G u|E sc ch| |]; cbn [step count] in *.
      + injection H as <-. cbn. lia.
      + apply update_fields in H. replace (w_ctr W) with (w_ctr W0) by (symmetry; tauto). lia.
      + injection H as <-. destruct (handle_store_spec E sc ch W0) as (rs & bs & S).
        destruct (sr_same _ _ _ _ _ S) as (_ & _ & _ & -> & _). lia.
      + injection H as <-. cbn. lia.
      + injection H as <-. cbn. lia.
  Qed.

  Lemma run_deep : forall h W, run h = Ok W -> In s (w_deep W) <->
    since h (store_event (fun ts => marks_deep ts s ddollar))
            (fun e => is_cleanup e \/ overwritten s e).
  Proof.
    induction h as [|e h IH] using rev_ind; intros W H.
    - injection H as <-. cbn. split; [intros []|]. intros H. destruct (since_nil _ _ H).
    - apply run_snoc_Ok in H as (W0 & H0 & H). specialize (IH _ H0). rewrite since_snoc, <- IH.
      destruct e as [c|G u|E sc ch| |]; cbn [step store_event is_cleanup] in *.
      + injection H as <-. cbn. tauto.
      + apply update_fields in H. destruct H as (_ & _ & _ & _ & _ & _ & _ & _ & H & _).
        rewrite H. tauto.
      + injection H as <-. destruct (handle_store_spec E sc ch W0) as (rs & bs & S).
        rewrite (sr_deep _ _ _ _ _ S). cbn. tauto.
      + injection H as <-. cbn. tauto.
      + injection H as <-. cbn. tauto.
  Qed.

  Lemma run_upd : forall h W, run h = Ok W -> In s (w_upd W) <->
    since h (store_event (fun ts => marks ts s ddollar))
            (fun e => is_cleanup e \/ overwritten s e).
  Proof.
    induction h as [|e h IH] using rev_ind; intros W H.
    - injection H as <-. cbn. split; [intros []|]. intros H. destruct (since_nil _ _ H).
    - apply run_snoc_Ok in H as (W0 & H0 & H). specialize (IH _ H0). rewrite since_snoc, <- IH.
      destruct e as [c|G u|E sc ch| |]; cbn [step store_event is_cleanup] in *.
      + injection H as <-. cbn. tauto.
      + apply update_fields in H. destruct H as (_ & _ & _ & _ & _ & _ & _ & _ & _ & H & _).
        rewrite H. tauto.
      + injection H as <-. destruct (handle_store_spec E sc ch W0) as (rs & bs & S).
        rewrite (sr_upd _ _ _ _ _ S). cbn. tauto.
      + injection H as <-. cbn. tauto.
      + injection H as <-. cbn. tauto.
  Qed.

  Lemma run_deep_last : forall h W, run h = Ok W -> In s (w_deep_last W) <->
    since h (store_event (fun ts => marks_deep ts s by_dollar)) is_begin.
  Proof.
    induction h as [|e h IH] using rev_ind; intros W H.
    - injection H as <-. cbn. split; [intros []|]. intros H. destruct (since_nil _ _ H).
    - apply run_snoc_Ok in H as (W0 & H0 & H). specialize (IH _ H0). rewrite since_snoc, <- IH.
      destruct e as [c|G u|E sc ch| |]; cbn [step store_event is_begin] in *.
      + injection H as <-. cbn. tauto.
      + apply update_fields in H. replace (w_deep_last W) with (w_deep_last W0) by (symmetry; tauto).
        tauto.
      + injection H as <-. destruct (handle_store_spec E sc ch W0) as (rs & bs & S).
        rewrite (sr_deepl _ _ _ _ _ S). tauto.
      + injection H as <-. cbn. tauto.
      + injection H as <-. cbn. tauto.
  Qed.

  Lemma run_upd_last : forall h W, run h = Ok W -> In s (w_upd_last W) <->
    since h (store_event (fun ts => marks ts s (fun t => ~ ddollar t))) is_begin.
  Proof.
    induction h as [|e h IH] using rev_ind; intros W H.
    - injection H as <-. cbn. split; [intros []|]. intros H. destruct (since_nil _ _ H).
    - apply run_snoc_Ok in H as (W0 & H0 & H). specialize (IH _ H0). rewrite since_snoc, <- IH.
      destruct e as [c|G u|E sc ch| |]; cbn [step store_event is_begin] in *.
      + injection H as <-. cbn. tauto.
      + apply update_fields in H. replace (w_upd_last W) with (w_upd_last W0) by (symmetry; tauto).
        tauto.
      + injection H as <-. destruct (handle_store_spec E sc ch W0) as (rs & bs & S).
        rewrite (sr_updl _ _ _ _ _ S). tauto.
      + injection H as <-. cbn. tauto.
      + injection H as <-. cbn. tauto.
  Qed.

  (** What the statement under way has changed. *)
  Definition sees (e : event) : Prop :=
    match e with
    | Update _ u => (u_same_import u = true \/ u_mutated u && u_immutable u = false) /\
                    In s (u_seen u)
    | _ => False
    end.

  Lemma run_stmt : forall h W, run h = Ok W -> In s (w_stmt W) <-> since h sees is_end.
  Proof.
    induction h as [|e h IH] using rev_ind; intros W H.
    - injection H as <-. cbn. split; [intros []|]. intros H. destruct (since_nil _ _ H).
    - apply run_snoc_Ok in H as (W0 & H0 & H). specialize (IH _ H0). rewrite since_snoc, <- IH.
      destruct e as [c|G u|E sc ch| |]; cbn [step sees is_end] in *.
      + injection H as <-. cbn. tauto.
      + apply update_fields in H.
        destruct H as (_ & _ & _ & _ & _ & _ & _ & _ & _ & _ & H & _). rewrite H. tauto.
      + injection H as <-. destruct (handle_store_spec E sc ch W0) as (rs & bs & S).
        destruct (sr_same _ _ _ _ _ S) as (_ & -> & _). tauto.
      + injection H as <-. cbn. tauto.
      + injection H as <-. cbn. tauto.
  Qed.

  Lemma changed_nil : ~ changed_in_run [] s.
  Proof. intros ([|] & G & u & h2 & h3 & H & _); discriminate. Qed.

  Lemma changed_snoc h e : changed_in_run (h ++ [e]) s <->
    (is_end e /\ since h sees is_end) \/ (changed_in_run h s /\ ~ is_begin e).
  Proof.
    split.
    - intros (h1 & G & u & h2 & h3 & H & A & B & C & D).
      apply snoc_split in H as [(H & _)|(h' & H & ->)].
      + destruct h2; discriminate.
      + symmetry in H. apply snoc_split in H as [(-> & <- & ->)|(h3' & -> & ->)].
        * left. split; [exact Logic.I|]. exists h1, (Update G u), h2.
          split; [reflexivity|]. split; [split; assumption|exact C].
        * right. split.
          -- exists h1, G, u, h2, h3'. repeat (split; [auto|]).
             intros x Hx. apply D. apply in_or_app. auto.
          -- apply D. apply in_or_app. right. left. reflexivity.
    - intros [[He (h1 & x & h2 & -> & Hx & C)]|[(h1 & G & u & h2 & h3 & -> & A & B & C & D) Hb]].
      + destruct x as [|G u| | |]; cbn in Hx; try contradiction. destruct Hx as [A B].
        destruct e; cbn in He; try contradiction.
        exists h1, G, u, h2, []. split; [now rewrite <- app_assoc|].
        repeat (split; [auto|]). intros x [].
      + exists h1, G, u, h2, (h3 ++ [e]).
        split; [rewrite <- app_assoc; cbn; now rewrite <- app_assoc|]. repeat (split; [auto|]).
        intros x Hx. apply in_app_or in Hx as [Hx|[<-|[]]]; auto.
  Qed.

  Lemma run_updated : forall h W, run h = Ok W -> In s (w_updated W) <-> changed_in_run h s.
  Proof.
    induction h as [|e h IH] using rev_ind; intros W H.
    - injection H as <-. cbn. split; [intros []|]. intros H. destruct (changed_nil H).
    - apply run_snoc_Ok in H as (W0 & H0 & H). specialize (IH _ H0).
      rewrite changed_snoc, <- IH.
      destruct e as [c|G u|E sc ch| |]; cbn [step is_end is_begin] in *.
      + injection H as <-. cbn. tauto.
      + apply update_fields in H. replace (w_updated W) with (w_updated W0) by (symmetry; tauto).
        tauto.
      + injection H as <-. destruct (handle_store_spec E sc ch W0) as (rs & bs & S).
        destruct (sr_same _ _ _ _ _ S) as (-> & _). tauto.
      + injection H as <-. cbn. rewrite In_supd, <- (run_stmt _ _ H0). tauto.
      + injection H as <-. cbn. tauto.
  Qed.

  Definition stop_store (h : list event) (e : event) : Prop :=
    store_event (fun ts => stops ts s) e /\ ~ changed_in_run h s.

  Lemma stopped_nil n : ~ stopped_in [] s n.
  Proof. intros ([|] & E & sc & ch & h2 & H & _); discriminate. Qed.

  Lemma stopped_snoc h e n : (changed_in_run h s \/ ~ changed_in_run h s) ->
    stopped_in (h ++ [e]) s n <->
    (stop_store h e /\ n = count h) \/ (stopped_in h s n /\ ~ stop_store h e).
  Proof.
    intros Dec. split.
    - intros (h1 & E & sc & ch & h2 & H & A & B & C & D).
      apply snoc_split in H as [(-> & <- & ->)|(h2' & -> & ->)].
      + left. split; [split; assumption|exact A].
      + right. split.
        * exists h1, E, sc, ch, h2'. repeat (split; [auto|]).
          intros h3 E' sc' ch' h4 ->. apply (D h3 E' sc' ch' (h4 ++ [e])).
          now rewrite <- app_assoc.
        * intros [F N]. destruct e; cbn in F; try contradiction.
          apply N. exact (D h2' _ _ _ [] eq_refl F).
    - intros [[[F N] ->]|[(h1 & E & sc & ch & h2 & -> & A & B & C & D) N]].
      + destruct e; cbn in F; try contradiction.
        exists h, E, scope, chain, []. repeat (split; [auto|]).
        intros [|] ? ? ? ? X; discriminate.
      + exists h1, E, sc, ch, (h2 ++ [e]). split; [now rewrite <- app_assoc|].
        repeat (split; [auto|]). intros h3 E' sc' ch' h4 H F.
        apply snoc_split in H as [(-> & <- & ->)|(h4' & -> & ->)].
        * destruct Dec as [Y|Y]; [exact Y|]. destruct N. split; [exact F|exact Y].
        * exact (D _ _ _ _ _ eq_refl F).
  Qed.

  Lemma run_blocked : forall h W, run h = Ok W -> forall n,
    dget (w_blocked W) s = Some n <-> stopped_in h s n.
  Proof.
    induction h as [|e h IH] using rev_ind; intros W H n.
    - injection H as <-. cbn. split; [discriminate|]. intros H. destruct (stopped_nil _ H).
    - apply run_snoc_Ok in H as (W0 & H0 & H). specialize (IH _ H0 n).
      assert (Dec : changed_in_run h s \/ ~ changed_in_run h s).
      { rewrite <- (run_updated _ _ H0). destruct (in_dec Nat.eq_dec s (w_updated W0)); auto. }
      rewrite (stopped_snoc _ _ _ Dec), <- IH. unfold stop_store.
      destruct e as [c|G u|E sc ch| |]; cbn [step store_event] in *.
      + injection H as <-. cbn. tauto.
      + apply update_fields in H. replace (w_blocked W) with (w_blocked W0) by (symmetry; tauto).
        tauto.
      + injection H as <-. destruct (handle_store_spec E sc ch W0) as (rs & bs & S).
        rewrite <- (run_updated _ _ H0), <- (run_ctr _ _ H0).
        assert (Sd : stops (walk E sc ch) s \/ ~ stops (walk E sc ch) s).
        { generalize (walk E sc ch). intros l.
          assert (Z : forall l, some_of l stop \/ ~ some_of l stop).
          { clear. induction l as [|x l IH]; [right; apply so_nil|]. rewrite some_cons.
            unfold stop at 1 3. destruct (a_block (atom_of x)), IH; intuition discriminate. }
          induction l as [|x l IHl]; [right; apply st_nil|]. rewrite st_cons.
          destruct (Nat.eq_dec (sym_of x) s), (Z l), IHl; unfold stop at 1 3;
            destruct (a_block (atom_of x)); intuition discriminate. }
        destruct Sd as [Y|Y]; [destruct (in_dec Nat.eq_dec s (w_updated W0)) as [I|I]|].
        * rewrite (sr_blk2 _ _ _ _ _ S s (or_intror I)). tauto.
        * rewrite (sr_blk1 _ _ _ _ _ S s Y I). split.
          -- intros [= <-]. left. auto.
          -- intros [[_ ->]|[_ N]]; [reflexivity|]. destruct N. auto.
        * rewrite (sr_blk2 _ _ _ _ _ S s (or_introl Y)). tauto.
      + injection H as <-. cbn. tauto.
      + injection H as <-. cbn. tauto.
  Qed.

  Lemma stamped_nil n : ~ stamped_in [] s n.
  Proof. intros ([|? ?] & x & h2 & H & _); discriminate. Qed.

  Lemma stamped_snoc h e n : stamped_in (h ++ [e]) s n <->
    (stamps s e /\ n = count h) \/ (stamped_in h s n /\ ~ stamps s e).
  Proof.
    split.
    - intros (h1 & x & h2 & H & A & B & C).
      apply snoc_split in H as [(-> & <- & ->)|(h2' & -> & ->)]; [left; auto|right]. split.
      + exists h1, x, h2'. repeat (split; [auto|]). intros y Hy. apply C. apply in_or_app. auto.
      + apply C. apply in_or_app. right. left. reflexivity.
    - intros [[A ->]|[(h1 & x & h2 & -> & A & B & C) N]].
      + exists h, e, []. repeat (split; [auto|]). intros y [].
      + exists h1, x, (h2 ++ [e]). split; [now rewrite <- app_assoc|]. repeat (split; [auto|]).
        intros y Hy. apply in_app_or in Hy as [Hy|[<-|[]]]; auto.
  Qed.

  Lemma stamp_marks_iff E sc ch : stamps s (Mark E sc ch) <-> stamp_marks (walk E sc ch) s.
  Proof.
    cbn. unfold stamp_marks, marks_deep. split.
    - intros (i & t & A & B & C & D & F). exists i, t. auto 6.
    - intros (i & t & A & B & [C D] & F). exists i, t. auto 6.
  Qed.

  Lemma stamps_dec e : stamps s e \/ ~ stamps s e.
  Proof.
    destruct e as [c|G u|E sc ch| |]; try (right; exact (fun x => x)).
    - cbn. destruct (in_dec Nat.eq_dec s (u_stamped u)), (u_same_import u),
        (u_mutated u && u_immutable u); intuition discriminate.
    - rewrite stamp_marks_iff. apply md_dec. intros t. unfold marked, dollar, ddollar.
      destruct (snd t), (a_reac (atom_of t)), (a_casc (atom_of t)); intuition discriminate.
  Qed.

  Lemma run_stamp : forall h W, run h = Ok W -> forall n,
    w_stamp W s = n <-> stamped_in h s n \/ ((forall e, In e h -> ~ stamps s e) /\ n = (-1)%Z).
  Proof.
    induction h as [|e h IH] using rev_ind; intros W H n.
    - injection H as <-. cbn. split; [intros <-; right; split; [intros e []|reflexivity]|].
      intros [H|[_ ->]]; [destruct (stamped_nil _ H)|reflexivity].
    - apply run_snoc_Ok in H as (W0 & H0 & H). specialize (IH _ H0 n).
      rewrite stamped_snoc.
      assert (Hall : (forall x, In x (h ++ [e]) -> ~ stamps s x) <->
                     (forall x, In x h -> ~ stamps s x) /\ ~ stamps s e).
      { split.
        - intros Q. split; [intros x Hx|]; apply Q; apply in_or_app; [auto|right; now left].
        - intros [Q R] x Hx. apply in_app_or in Hx as [Hx|[<-|[]]]; auto. }
      rewrite Hall.
      assert (K : (stamps s e -> w_stamp W s = count h) /\
                  (~ stamps s e -> w_stamp W s = w_stamp W0 s)).
      { rewrite <- (run_ctr _ _ H0).
        destruct e as [c|G u|E sc ch| |]; cbn [step] in H.
        - injection H as <-. cbn. tauto.
        - apply update_fields in H.
          destruct H as (_ & _ & _ & _ & _ & _ & _ & _ & _ & _ & _ & A & B). auto.
        - injection H as <-. destruct (handle_store_spec E sc ch W0) as (rs & bs & S).
          rewrite stamp_marks_iff. split; [apply (sr_st1 _ _ _ _ _ S)|apply (sr_st2 _ _ _ _ _ S)].
        - injection H as <-. cbn. tauto.
        - injection H as <-. cbn. tauto. }
      destruct K as [K1 K2]. destruct (stamps_dec e) as [Y|Y].
      + rewrite (K1 Y). split; [intros <-; auto|]. intros [[[_ ->]|[_ N]]|[[_ N] _]]; tauto.
      + rewrite (K2 Y), IH. tauto.
  Qed.
End History.

Lemma last_run_nil c n : last_run [] c n <-> n = (-1)%Z.
Proof.
  unfold last_run. split.
  - intros [([|] & h2 & H & _)|[_ ->]]; [discriminate|discriminate|reflexivity].
  - intros ->. right. auto.
Qed.

Lemma last_run_snoc h e c n : last_run (h ++ [e]) c n <->
  (e = Begin c /\ n = (count h + 1)%Z) \/ (e <> Begin c /\ last_run h c n).
Proof.
  unfold last_run. split.
  - intros [(h1 & h2 & H & A & B)|[A B]].
    + apply snoc_split in H as [(-> & <- & ->)|(h2' & -> & ->)]; [left; auto|right].
      split.
      * intros ->. apply B. apply in_or_app. right. now left.
      * left. exists h1, h2'. repeat (split; [auto|]). intros Q. apply B. apply in_or_app. auto.
    + right. split.
      * intros ->. apply A. apply in_or_app. right. now left.
      * right. split; [|exact B]. intros Q. apply A. apply in_or_app. auto.
  - intros [[-> ->]|[N [(h1 & h2 & -> & A & B)|[A B]]]].
    + left. exists h, []. auto.
    + left. exists h1, (h2 ++ [e]). split; [now rewrite <- app_assoc|]. split; [exact A|].
      intros Q. apply in_app_or in Q as [Q|[Q|[]]]; auto.
    + right. split; [|exact B]. intros Q. apply in_app_or in Q as [Q|[Q|[]]]; auto.
Qed.

Lemma run_last : forall h W, run h = Ok W -> forall c n, w_last W c = n <-> last_run h c n.
Proof.
  induction h as [|e h IH] using rev_ind; intros W H c n.
  - injection H as <-. cbn. rewrite last_run_nil. split; auto.
  - apply run_snoc_Ok in H as (W0 & H0 & H). specialize (IH _ H0 c n). rewrite last_run_snoc.
    rewrite <- IH.
    destruct e as [d|G u|E sc ch| |]; cbn [step] in H.
    + injection H as <-. cbn. rewrite (run_ctr _ _ H0).
      destruct (Nat.eqb_spec c d) as [->|Ne].
      * split; [intros <-; auto|]. intros [[_ ->]|[N _]]; [reflexivity|]. destruct N. reflexivity.
      * split; [intros <-; right; split; [congruence|reflexivity]|].
        intros [[[= ->] _]|[_ Q]]; [destruct Ne; reflexivity|exact Q].
    + apply update_fields in H. replace (w_last W) with (w_last W0) by (symmetry; tauto).
      split; [intros <-; right; split; [discriminate|reflexivity]|]. intros [[Q _]|[_ Q]]; [discriminate|exact Q].
    + injection H as <-. destruct (handle_store_spec E sc ch W0) as (rs & bs & S).
      destruct (sr_same _ _ _ _ _ S) as (_ & _ & _ & _ & _ & ->).
      split; [intros <-; right; split; [discriminate|reflexivity]|]. intros [[Q _]|[_ Q]]; [discriminate|exact Q].
    + injection H as <-. cbn.
      split; [intros <-; right; split; [discriminate|reflexivity]|]. intros [[Q _]|[_ Q]]; [discriminate|exact Q].
    + injection H as <-. cbn.
      split; [intros <-; right; split; [discriminate|reflexivity]|]. intros [[Q _]|[_ Q]]; [discriminate|exact Q].
Qed.

Lemma previous_snoc h e p : previous_run (h ++ [e]) p <->
  match e with Begin c => last_run h c p | _ => previous_run h p end.
Proof.
  assert (N : ~ is_begin e -> previous_run (h ++ [e]) p <-> previous_run h p).
  { intros Nb. unfold previous_run. split.
    - intros [(h1 & c & h2 & H & A & B)|[A B]].
      + apply snoc_split in H as [(-> & <- & ->)|(h2' & -> & ->)]; [destruct Nb; exact Logic.I|].
        left. exists h1, c, h2'. repeat (split; [auto|]). intros x Hx. apply B. apply in_or_app. auto.
      + right. split; [|exact B]. intros x Hx. apply A. apply in_or_app. auto.
    - intros [(h1 & c & h2 & -> & A & B)|[A B]].
      + left. exists h1, c, (h2 ++ [e]). split; [now rewrite <- app_assoc|]. split; [exact A|].
        intros x Hx. apply in_app_or in Hx as [Hx|[<-|[]]]; auto.
      + right. split; [|exact B]. intros x Hx. apply in_app_or in Hx as [Hx|[<-|[]]]; auto. }
  destruct e as [c|G u|E sc ch| |]; try (apply N; exact (fun x => x)).
  clear N. unfold previous_run. split.
  - intros [(h1 & d & h2 & H & A & B)|[A _]].
    + apply snoc_split in H as [(-> & [= ->] & ->)|(h2' & -> & ->)]; [exact A|].
      destruct (B (Begin c)); [apply in_or_app; right; now left|exact Logic.I].
    + destruct (A (Begin c)); [apply in_or_app; right; now left|exact Logic.I].
  - intros A. left. exists h, c, []. repeat (split; [auto|]). intros x [].
Qed.

Lemma run_prev : forall h W, run h = Ok W -> forall p, w_prev W = p <-> previous_run h p.
Proof.
  induction h as [|e h IH] using rev_ind; intros W H p.
  - injection H as <-. cbn. unfold previous_run. split.
    + intros <-. right. split; [intros e []|reflexivity].
    + intros [([|] & c & h2 & H & _)|[_ ->]]; [discriminate|discriminate|reflexivity].
  - apply run_snoc_Ok in H as (W0 & H0 & H). specialize (IH _ H0 p). rewrite previous_snoc.
    destruct e as [d|G u|E sc ch| |]; cbn [step] in H; try rewrite <- IH.
    + injection H as <-. cbn. apply (run_last _ _ H0).
    + apply update_fields in H. replace (w_prev W) with (w_prev W0) by (symmetry; tauto). tauto.
    + injection H as <-. destruct (handle_store_spec E sc ch W0) as (rs & bs & S).
      destruct (sr_same _ _ _ _ _ S) as (_ & _ & _ & _ & -> & _). tauto.
    + injection H as <-. cbn. tauto.
    + injection H as <-. cbn. tauto.
Qed.

Lemma cleaned_snoc h e k : cleaned (h ++ [e]) k <->
  match e with Cleanup => k = count h | _ => cleaned h k end.
Proof.
  assert (N : ~ is_cleanup e -> cleaned (h ++ [e]) k <-> cleaned h k).
  { intros Nb. unfold cleaned. split.
    - intros [(h1 & h2 & H & A & B)|[A B]].
      + apply snoc_split in H as [(-> & <- & ->)|(h2' & -> & ->)]; [destruct Nb; exact Logic.I|].
        left. exists h1, h2'. repeat (split; [auto|]). intros x Hx. apply B. apply in_or_app. auto.
      + right. split; [|exact B]. intros x Hx. apply A. apply in_or_app. auto.
    - intros [(h1 & h2 & -> & A & B)|[A B]].
      + left. exists h1, (h2 ++ [e]). split; [now rewrite <- app_assoc|]. split; [exact A|].
        intros x Hx. apply in_app_or in Hx as [Hx|[<-|[]]]; auto.
      + right. split; [|exact B]. intros x Hx. apply in_app_or in Hx as [Hx|[<-|[]]]; auto. }
  destruct e as [c|G u|E sc ch| |]; try (apply N; exact (fun x => x)).
  clear N. unfold cleaned. split.
  - intros [(h1 & h2 & H & A & B)|[A _]].
    + apply snoc_split in H as [(-> & _ & ->)|(h2' & -> & ->)]; [exact A|].
      destruct (B Cleanup); [apply in_or_app; right; now left|exact Logic.I].
    + destruct (A Cleanup); [apply in_or_app; right; now left|exact Logic.I].
  - intros A. left. exists h, []. repeat (split; [auto|]). intros x [].
Qed.

Lemma run_min : forall h W, run h = Ok W -> forall k, w_min W = k <-> cleaned h k.
Proof.
  induction h as [|e h IH] using rev_ind; intros W H k.
  - injection H as <-. cbn. unfold cleaned. split.
    + intros <-. right. split; [intros e []|reflexivity].
    + intros [([|] & h2 & H & _)|[_ ->]]; [discriminate|discriminate|reflexivity].
  - apply run_snoc_Ok in H as (W0 & H0 & H). specialize (IH _ H0 k). rewrite cleaned_snoc.
    destruct e as [d|G u|E sc ch| |]; cbn [step] in H; try rewrite <- IH.
    + injection H as <-. cbn. tauto.
    + apply update_fields in H. replace (w_min W) with (w_min W0) by (symmetry; tauto). tauto.
    + injection H as <-. destruct (handle_store_spec E sc ch W0) as (rs & bs & S).
      destruct (sr_same _ _ _ _ _ S) as (_ & _ & -> & _). tauto.
    + injection H as <-. cbn. tauto.
    + injection H as <-. cbn. rewrite (run_ctr _ _ H0). split; auto.
Qed.

(** * The number of a symbol *)

Section Num.
  Variables (G : graph) (num : nat -> Z).

  Definition visited_ok (sn sn' : list nat) (v : Z) : Prop :=
    incl sn sn' /\
    forall x, In x sn' -> ~ In x sn -> (num x <= v)%Z /\ forall y, In y (g_members G x) -> In y sn'.

  (** One pass over a list of symbols. *)
  Lemma pass_spec f con l :
    (forall sn s sn' v, casc_num G num f con sn s = Ok (sn', v) ->
       visited_ok sn sn' v /\ In s sn') ->
    forall sn v sn' v',
    rfold (fun p t => rmap (fun q => (fst q, Z.max (snd p) (snd q)))
                           (casc_num G num f con (fst p) t)) l (sn, v) = Ok (sn', v') ->
    incl sn sn' /\ (v <= v')%Z /\
    (forall x, In x sn' -> ~ In x sn -> (num x <= v')%Z /\ forall y, In y (g_members G x) -> In y sn') /\
    forall t, In t l -> In t sn'.
  Proof.
    intros IH. induction l as [|t l IHl]; intros sn v sn' v' H.
    - injection H as <- <-. split; [intros x; auto|]. split; [lia|]. split; [tauto|intros t []].
    - cbn [rfold] in H. apply rbind_Ok in H as ([sn1 v1] & H1 & H2).
      cbn [fst snd] in H1. apply rmap_Ok in H1 as ([sn2 v2] & H1 & E). cbn [fst snd] in E.
      injection E as -> <-. destruct (IH _ _ _ _ H1) as [[A B] C].
      destruct (IHl _ _ _ _ H2) as (D & F & K & L). split; [|split; [|split]].
      + intros x Hx. apply D, A, Hx.
      + lia.
      + intros x Hx Hn. destruct (in_dec Nat.eq_dec x sn1) as [Y|Y].
        * destruct (B x Y Hn) as [P Q]. split; [lia|]. intros y Hy. apply D, Q, Hy.
        * exact (K x Hx Y).
      + intros y [<-|Hy]; [apply D, C|exact (L y Hy)].
  Qed.

  Lemma casc_spec : forall f con sn s sn' v, casc_num G num f con sn s = Ok (sn', v) ->
    visited_ok sn sn' v /\ In s sn' /\
    (con = true -> ~ In s sn -> forall c, In c (g_containing G s) -> In c sn').
  Proof.
    induction f as [|f IH]; intros con sn s sn' v H; cbn [casc_num] in H;
      destruct (memb s sn) eqn:M.
    - injection H as <- <-. apply memb_In in M. split; [|split; [exact M|tauto]].
      split; [intros x; auto|tauto].
    - discriminate.
    - injection H as <- <-. apply memb_In in M. split; [|split; [exact M|tauto]].
      split; [intros x; auto|tauto].
    - apply memb_nIn in M. apply rbind_Ok in H as ([sn1 v1] & H1 & H2).
      assert (IHf : forall c sn s sn' v, casc_num G num f c sn s = Ok (sn', v) ->
                    visited_ok sn sn' v /\ In s sn').
      { intros c a b d e Q. destruct (IH _ _ _ _ _ Q) as (X & Y & _). auto. }
      destruct (pass_spec f false _ (IHf false) _ _ _ _ H1) as (A & B & C & D).
      assert (R : incl sn1 sn' /\ (v1 <= v)%Z /\
        (forall x, In x sn' -> ~ In x sn1 -> (num x <= v)%Z /\ forall y, In y (g_members G x) -> In y sn') /\
        (con = true -> forall c, In c (g_containing G s) -> In c sn')).
      { destruct con.
        - destruct (pass_spec f true _ (IHf true) _ _ _ _ H2) as (P & Q & S & U).
          split; [exact P|]. split; [exact Q|]. split; [exact S|]. intros _. exact U.
        - injection H2 as <- <-. split; [intros x; auto|]. split; [lia|]. split; [tauto|discriminate]. }
      destruct R as (P & Q & S & U).
      split; [split|split].
      + intros x Hx. apply P, A. right. exact Hx.
      + intros x Hx Hn. destruct (in_dec Nat.eq_dec x sn1) as [Y|Y]; [|exact (S x Hx Y)].
        destruct (Nat.eq_dec x s) as [->|Ne].
        * split; [lia|]. intros y Hy. apply P, D, Hy.
        * destruct (C x Y) as [X Z]; [intros [K|K]; [congruence|contradiction]|].
          split; [lia|]. intros y Hy. apply P, Z, Hy.
      + apply P, A. left. reflexivity.
      + intros Hc _. exact (U Hc).
  Qed.

  Lemma cascading_num_lower s v t : cascading_num G num s = Ok v -> part_or_around G s t ->
    (num t <= v)%Z.
  Proof.
    unfold cascading_num. intros H (c & Hc & Hr). apply rmap_Ok in H as ([sn' v'] & H & E).
    cbn in E. subst v'. destruct (casc_spec _ _ _ _ _ _ H) as ([_ A] & B & C).
    assert (Hc' : In c sn').
    { destruct Hc as [->|Hc]; [exact B|]. exact (C eq_refl (fun x => x) c Hc). }
    assert (Ht : In t sn').
    { clear Hc. induction Hr as [|a b c' Hab Hbc IHr]; [exact Hc'|].
      apply IHr. exact (proj2 (A _ Hc' (fun x => x)) _ Hab). }
    exact (proj1 (A _ Ht (fun x => x))).
  Qed.

  Definition from (con : bool) (s : nat) (v : Z) : Prop :=
    v = (-1)%Z \/
    exists t, (if con then connected G s t else reach (member G) s t) /\ v = num t.

  Lemma from_max con s v v' : from con s v -> from con s v' -> from con s (Z.max v v').
  Proof. intros A B. destruct (Z.max_spec v v') as [[_ ->]|[_ ->]]; assumption. Qed.

  Lemma from_down con s t v : In t (g_members G s) -> from false t v -> from con s v.
  Proof.
    intros H [->|(x & Hx & ->)]; [left; reflexivity|]. right. exists x. split; [|reflexivity].
    destruct con; [|exact (reach_step _ _ _ _ H Hx)].
    exists s. split; [apply reach_refl|]. exact (reach_step _ _ _ _ H Hx).
  Qed.

  Lemma from_up s t v : In t (g_containing G s) -> from true t v -> from true s v.
  Proof.
    intros H [->|(x & (c & Hc & Hx) & ->)]; [left; reflexivity|].
    right. exists x. split; [|reflexivity]. exists c. split; [|exact Hx].
    exact (reach_step _ _ _ _ H Hc).
  Qed.

  Lemma casc_from : forall f con sn s sn' v, casc_num G num f con sn s = Ok (sn', v) -> from con s v.
  Proof.
    induction f as [|f IH]; intros con sn s sn' v H; cbn [casc_num] in H;
      destruct (memb s sn) eqn:M; try discriminate; try (injection H as _ <-; left; reflexivity).
    apply rbind_Ok in H as ([sn1 v1] & H1 & H2).
    assert (P : forall c l, (forall t v, In t l -> from c t v -> from con s v) ->
      forall sn v sn' v', from con s v ->
      rfold (fun p t => rmap (fun q => (fst q, Z.max (snd p) (snd q)))
                           (casc_num G num f c (fst p) t)) l (sn, v) = Ok (sn', v') -> from con s v').
    { intros c l. induction l as [|t l IHl]; intros Hl a b a' b' F Q.
      - injection Q as _ <-. exact F.
      - cbn [rfold] in Q. apply rbind_Ok in Q as ([a1 b1] & Q1 & Q2). cbn [fst snd] in Q1.
        apply rmap_Ok in Q1 as ([a2 b2] & Q1 & E). cbn [fst snd] in E. injection E as -> <-.
        apply (IHl (fun t v Ht => Hl t v (or_intror Ht)) _ _ _ _) in Q2; [exact Q2|].
        apply from_max; [exact F|]. exact (Hl t _ (or_introl eq_refl) (IH _ _ _ _ _ Q1)). }
    assert (F0 : from con s (num s)).
    { right. exists s. split; [|reflexivity]. destruct con; [|apply reach_refl].
      exists s. split; apply reach_refl. }
    assert (F1 : from con s v1).
    { exact (P false _ (fun t v Ht => from_down con s t v Ht) _ _ _ _ F0 H1). }
    destruct con; [|injection H2 as _ <-; exact F1].
    exact (P true _ (fun t v Ht => from_up s t v Ht) _ _ _ _ F1 H2).
  Qed.

  Lemma casc_total : closed G -> forall f con sn s, In s (g_syms G) -> NoDup sn ->
    incl sn (g_syms G) -> length (g_syms G) < f + length sn ->
    exists sn' v, casc_num G num f con sn s = Ok (sn', v) /\ NoDup sn' /\ incl sn' (g_syms G) /\
                  length sn <= length sn'.
  Proof.
    intros Cl. induction f as [|f IH]; intros con sn s Hs Nd Hi Hl; cbn [casc_num];
      destruct (memb s sn) eqn:M.
    - exists sn, (-1)%Z. auto.
    - pose proof (NoDup_incl_length Nd Hi). lia.
    - exists sn, (-1)%Z. auto.
    - apply memb_nIn in M.
      assert (P : forall c l, (forall t, In t l -> In t (g_syms G)) ->
        forall sn v, NoDup sn -> incl sn (g_syms G) -> length (g_syms G) < f + length sn ->
        exists sn' v',
        rfold (fun p t => rmap (fun q => (fst q, Z.max (snd p) (snd q)))
                           (casc_num G num f c (fst p) t)) l (sn, v) = Ok (sn', v') /\
        NoDup sn' /\ incl sn' (g_syms G) /\ length sn <= length sn').
      { intros c l. induction l as [|t l IHl]; intros Hin a v Na Ia La.
        - exists a, v. auto.
        - destruct (IH c a t (Hin t (or_introl eq_refl)) Na Ia La) as (a1 & v1 & E1 & N1 & I1 & L1).
          destruct (IHl (fun t Ht => Hin t (or_intror Ht)) a1 (Z.max v v1) N1 I1) as (a2 & v2 & E2 & N2 & I2 & L2); [lia|].
          exists a2, v2. cbn [rfold fst snd]. rewrite E1. cbn [rmap rbind fst snd]. rewrite E2.
          repeat (split; [auto|]). lia. }
      destruct (P false (g_members G s) (fun t Ht => Cl s t Hs (or_introl Ht)) (s :: sn) (num s))
        as (a1 & v1 & E1 & N1 & I1 & L1).
      + constructor; assumption.
      + intros x [<-|Hx]; auto.
      + cbn [length]. lia.
      + rewrite E1. cbn [rbind]. destruct con.
        * destruct (P true (g_containing G s) (fun t Ht => Cl s t Hs (or_intror Ht)) a1 v1 N1 I1)
            as (a2 & v2 & E2 & N2 & I2 & L2); [cbn [length] in L1; lia|].
          exists a2, v2. rewrite E2. repeat (split; [auto|]). cbn [length] in L1. lia.
        * exists a1, v1. repeat (split; [auto|]). cbn [length] in L1. lia.
  Qed.
End Num.

Lemma cascading_num_total G num s : closed G -> In s (g_syms G) ->
  exists v, cascading_num G num s = Ok v.
Proof.
  intros Cl Hs. unfold cascading_num.
  destruct (casc_total G num Cl (S (length (g_syms G))) true [] s Hs) as (sn & v & E & _).
  - constructor.
  - intros x [].
  - cbn. lia.
  - exists v. now rewrite E.
Qed.

Lemma cascading_num_upper G num s v : cascading_num G num s = Ok v ->
  v = (-1)%Z \/ exists t, connected G s t /\ v = num t.
Proof.
  unfold cascading_num. intros H. apply rmap_Ok in H as ([sn' v'] & H & E). cbn in E. subst v'.
  exact (casc_from _ _ _ _ _ _ _ _ H).
Qed.

(** * Cascades *)

Lemma any_cascading_true G W num l : any_cascading G W num l = Ok true <->
  exists l1 d l2 n, l = l1 ++ d :: l2 /\ cascading_num G num d = Ok n /\
    (Z.max (w_prev W) (w_min W) < n)%Z /\
    forall x, In x l1 -> exists m, cascading_num G num x = Ok m /\
                                   (m <= Z.max (w_prev W) (w_min W))%Z.
Proof.
  induction l as [|d l IH]; cbn [any_cascading].
  - split; [discriminate|]. intros ([|? ?] & x & l2 & m & H & _); discriminate.
  - split.
    + intros H. apply rbind_Ok in H as (n & H1 & H2).
      destruct (Z.ltb_spec (Z.max (w_prev W) (w_min W)) n) as [L|L].
      * exists [], d, l, n. repeat (split; [auto|]). intros x [].
      * apply IH in H2 as (l1 & x & l2 & m & -> & A & B & C).
        exists (d :: l1), x, l2, m. repeat (split; [auto|]).
        intros y [<-|Hy]; [exists n; auto|auto].
    + intros ([|e l1] & x & l2 & n & H & A & B & C).
      * injection H as -> ->. rewrite A. cbn. apply Z.ltb_lt in B. now rewrite B.
      * injection H as -> ->. destruct (C e (or_introl eq_refl)) as (m & E & L).
        rewrite E. cbn. destruct (Z.ltb_spec (Z.max (w_prev W) (w_min W)) m); [lia|].
        apply IH. exists l1, x, l2, n. repeat (split; [auto|]). intros y Hy.
        apply C. right. exact Hy.
Qed.

Lemma any_cascading_false G W num l : any_cascading G W num l = Ok false ->
  forall d, In d l -> exists n, cascading_num G num d = Ok n /\ (n <= Z.max (w_prev W) (w_min W))%Z.
Proof.
  induction l as [|x l IH]; cbn [any_cascading]; intros H d Hd; [destruct Hd|].
  apply rbind_Ok in H as (n & H1 & H2).
  destruct (Z.ltb_spec (Z.max (w_prev W) (w_min W)) n) as [L|L]; [discriminate|].
  destruct Hd as [<-|Hd]; [exists n; auto|exact (IH H2 d Hd)].
Qed.

(** The numbers after an update. *)
Definition num1 (W : world) (u : upd) : nat -> Z :=
  if overwrites u then (fun t => if t =? u_sym u then (-1)%Z else w_num W t) else w_num W.

Lemma overwrites_iff G u : goes_through u ->
  overwrites u = true <-> overwritten (u_sym u) (Update G u).
Proof.
  intros Hg. unfold overwrites, overwritten.
  rewrite !andb_true_iff, !negb_true_iff, memb_nIn. tauto.
Qed.

Lemma num1_cases G W u t : goes_through u ->
  (overwritten t (Update G u) /\ num1 W u t = (-1)%Z) \/
  (~ overwritten t (Update G u) /\ num1 W u t = w_num W t).
Proof.
  intros Hg. unfold num1. destruct (overwrites u) eqn:O.
  - destruct (Nat.eqb_spec t (u_sym u)) as [->|Ne].
    + left. split; [|reflexivity]. exact (proj1 (overwrites_iff G u Hg) O).
    + right. split; [|reflexivity]. intros (_ & H & _). congruence.
  - right. split; [|reflexivity]. intros H. assert (E : u_sym u = t) by (destruct H as (_ & H & _); exact H).
    subst t. apply (overwrites_iff G u Hg) in H. congruence.
Qed.

Lemma update_num G W u W' : update G W u = Ok W' ->
  (goes_through u /\ exists c : bool,
     w_num W' = (if c then bump (num1 W u) (u_sym u) (w_ctr W) else num1 W u) /\
     match u_casc u with
     | None => c = false
     | Some true => c = true
     | Some false => any_cascading G W (num1 W u) (sdiff (u_deps u) [u_sym u]) = Ok c
     end) \/
  (~ goes_through u /\ w_num W' = w_num W).
Proof.
  unfold update, goes_through. destruct (u_same_import u) eqn:Si.
  - intros [= <-]. right. split; [intros [A _]; discriminate|reflexivity].
  - destruct (u_mutated u && u_immutable u) eqn:Mi.
    + intros [= <-]. right. split; [intros [_ A]; discriminate|reflexivity].
    + intros H. apply rmap_Ok in H as (c & H & <-). left. split; [auto|]. exists c. cbn.
      split; [reflexivity|]. destruct (u_casc u) as [[]|]; [injection H as <-; reflexivity|exact H|injection H as <-; reflexivity].
Qed.

Lemma bump_ge num s c t : (num t <= bump num s c t)%Z.
Proof. unfold bump. destruct (Nat.eqb_spec t s) as [->|]; lia. Qed.
Lemma bump_self num s c : (c <= bump num s c s)%Z.
Proof. unfold bump. rewrite Nat.eqb_refl. lia. Qed.

Lemma ddollar_dec (t : triple) : ddollar t \/ ~ ddollar t.
Proof. unfold ddollar. destruct (a_casc (atom_of t)); auto. Qed.

Lemma run_num_bounds : forall h W, run h = Ok W -> forall s, (-1 <= w_num W s <= count h)%Z.
Proof.
  induction h as [|e h IH] using rev_ind; intros W H s.
  - injection H as <-. cbn. lia.
  - apply run_snoc_Ok in H as (W0 & H0 & H). specialize (IH _ H0). rewrite count_app.
    pose proof (run_ctr _ _ H0) as Hc.
    assert (Pos : (0 <= count [e])%Z) by (destruct e; cbn; lia).
    pose proof (IH s) as Bs.
    destruct e as [d|G u|E sc ch| |]; cbn [step] in H.
    + injection H as <-. cbn [w_num]. lia.
    + destruct (update_num _ _ _ _ H) as [(Hg & c & E & _)|(_ & E)]; [|rewrite E; lia].
      assert (N1 : (-1 <= num1 W0 u s <= count h)%Z).
      { destruct (num1_cases G W0 u s Hg) as [[_ ->]|[_ ->]]; lia. }
      rewrite E. destruct c; [|lia]. unfold bump. destruct (Nat.eqb_spec s (u_sym u)) as [->|]; lia.
    + injection H as <-. destruct (handle_store_spec E sc ch W0) as (rs & bs & S).
      destruct (md_dec (walk E sc ch) s ddollar ddollar_dec) as [Y|Y].
      * rewrite (sr_num1 _ _ _ _ _ S s Y). lia.
      * rewrite (sr_num2 _ _ _ _ _ S s Y). lia.
    + injection H as <-. cbn [w_num]. lia.
    + injection H as <-. cbn [w_num]. lia.
Qed.

Lemma cascades_inv R h e s m : cascades R (h ++ [e]) s m ->
  (exists G u, e = Update G u /\ s = u_sym u /\ m = count h /\ goes_through u /\
     (u_casc u = Some true \/
      u_casc u = Some false /\ exists d t m' p k, In d (u_deps u) /\ d <> u_sym u /\ R G d t /\
        (t = u_sym u -> ~ overwritten t (Update G u)) /\
        cascades R h t m' /\ previous_run h p /\ cleaned h k /\ (p < m')%Z /\ (k < m')%Z)) \/
  (exists E sc ch, e = Mark E sc ch /\ m = count h /\ marks_deep (walk E sc ch) s ddollar) \/
  (cascades R h s m /\ ~ overwritten s e).
Proof.
  remember (h ++ [e]) as h' eqn:Eh. intros H. destruct H as [h0 G u A B|h0 G u d t m p k A B C D F K L P Q X Y|h0 E sc ch s A|h0 e0 s m A B];
    apply app_inj_tail in Eh as [-> <-].
  - left. exists G, u. auto 8.
  - left. exists G, u. repeat (split; [auto|]). right. split; [exact B|].
    exists d, t, m, p, k. auto 12.
  - right. left. exists E, sc, ch. auto.
  - right. right. auto.
Qed.

Lemma cascades_nil R s m : ~ cascades R [] s m.
Proof. intros H. remember [] as h eqn:E. destruct H; destruct h; discriminate. Qed.

Lemma run_casc_lower : forall h W, run h = Ok W -> forall s m,
  cascades part_or_around h s m -> (m <= w_num W s)%Z.
Proof.
  induction h as [|e h IH] using rev_ind; intros W H s m C.
  - destruct (cascades_nil _ _ _ C).
  - apply run_snoc_Ok in H as (W0 & H0 & H). specialize (IH _ H0).
    pose proof (run_ctr _ _ H0) as Hc.
    apply cascades_inv in C as [(G & u & -> & -> & -> & Hg & Hm)|[(E & sc & ch & -> & -> & Hm)|[Hm Hn]]].
    + cbn [step] in H. destruct (update_num _ _ _ _ H) as [(_ & c & E & Hk)|(N & _)]; [|contradiction].
      assert (Hct : c = true).
      { destruct Hm as [Q|(Q & d & t & m' & p & k & A1 & A2 & A3 & A4 & A5 & A6 & A7 & A8 & A9)];
          rewrite Q in Hk; [exact Hk|].
        destruct c; [reflexivity|].
        assert (Hd : In d (sdiff (u_deps u) [u_sym u])).
        { apply In_sdiff. split; [exact A1|]. intros [X|[]]. congruence. }
        destruct (any_cascading_false _ _ _ _ Hk d Hd) as (n & En & Ln).
        pose proof (cascading_num_lower _ _ _ _ _ En A3) as Lt.
        apply (run_prev _ _ H0) in A6. apply (run_min _ _ H0) in A7.
        pose proof (IH _ _ A5) as L5.
        destruct (num1_cases G W0 u t Hg) as [[O _]|[_ O]].
        - exfalso. assert (X : t = u_sym u) by (destruct O as (_ & O & _); auto). exact (A4 X O).
        - rewrite O in Lt. lia. }
      subst c. rewrite E, <- Hc. apply bump_self.
    + injection H as <-. destruct (handle_store_spec E sc ch W0) as (rs & bs & S).
      rewrite (sr_num1 _ _ _ _ _ S s Hm). lia.
    + specialize (IH _ _ Hm). destruct e as [d|G u|E sc ch| |]; cbn [step] in H.
      * injection H as <-. exact IH.
      * destruct (update_num _ _ _ _ H) as [(Hg & c & E & _)|(_ & E)]; [|rewrite E; exact IH].
        destruct (num1_cases G W0 u s Hg) as [[O _]|[_ O]]; [contradiction|].
        rewrite E. destruct c; [|lia].
        pose proof (bump_ge (num1 W0 u) (u_sym u) (w_ctr W0) s). lia.
      * injection H as <-. destruct (handle_store_spec E sc ch W0) as (rs & bs & S).
        destruct (md_dec (walk E sc ch) s ddollar ddollar_dec) as [Y|Y].
        -- rewrite (sr_num1 _ _ _ _ _ S s Y). lia.
        -- rewrite (sr_num2 _ _ _ _ _ S s Y). lia.
      * injection H as <-. exact IH.
      * injection H as <-. exact IH.
Qed.

Lemma run_casc_upper : forall h W, run h = Ok W -> forall s,
  w_num W s <> (-1)%Z -> cascades connected h s (w_num W s).
Proof.
  induction h as [|e h IH] using rev_ind; intros W H s N.
  - injection H as <-. cbn in N. congruence.
  - apply run_snoc_Ok in H as (W0 & H0 & H). specialize (IH _ H0).
    pose proof (run_ctr _ _ H0) as Hc. pose proof (run_num_bounds _ _ H0) as Hb.
    destruct e as [d|G u|E sc ch| |]; cbn [step] in H.
    + injection H as <-. cbn [w_num] in *. apply c_keep; [auto|exact (fun x => x)].
    + destruct (update_num _ _ _ _ H) as [(Hg & c & E & Hk)|(Ng & E)]; rewrite E in *.
      * assert (Keep : num1 W0 u s <> (-1)%Z -> cascades connected (h ++ [Update G u]) s (num1 W0 u s)).
        { intros X. destruct (num1_cases G W0 u s Hg) as [[_ O]|[O1 O2]]; [congruence|].
          rewrite O2 in *. apply c_keep; [auto|exact O1]. }
        destruct c; [|auto]. unfold bump in *. destruct (Nat.eqb_spec s (u_sym u)) as [Es|Ne]; [|auto]. rewrite Es in *.
        assert (L : (num1 W0 u (u_sym u) <= w_ctr W0)%Z).
        { pose proof (Hb (u_sym u)). destruct (num1_cases G W0 u (u_sym u) Hg) as [[_ ->]|[_ ->]]; lia. }
        replace (Z.max (num1 W0 u (u_sym u)) (w_ctr W0)) with (count h) by lia.
        destruct (u_casc u) as [[]|] eqn:Uc; [| |discriminate].
        -- exact (c_load _ h G u Hg Uc).
        -- apply any_cascading_true in Hk as (l1 & d & l2 & n & El & En & Ln & _).
           assert (Hd : In d (sdiff (u_deps u) [u_sym u])) by (rewrite El; apply in_elt).
           apply In_sdiff in Hd as [Hd1 Hd2].
           destruct (cascading_num_upper _ _ _ _ En) as [->|(t & Ht & ->)].
           { pose proof (proj1 (run_min _ _ H0 _) eq_refl) as K. 
             assert (Pr : (-1 <= w_min W0)%Z).
             { destruct K as [(h1 & h2 & _ & -> & _)|[_ ->]]; [|lia].
               pose proof (count_nonneg h1). lia. }
             lia. }
           assert (Nt : num1 W0 u t <> (-1)%Z).
           { intros X. rewrite X in Ln.
             pose proof (proj1 (run_min _ _ H0 _) eq_refl) as K. 
             assert (Pr : (-1 <= w_min W0)%Z).
             { destruct K as [(h1 & h2 & _ & -> & _)|[_ ->]]; [|lia].
               pose proof (count_nonneg h1). lia. }
             lia. }
           destruct (num1_cases G W0 u t Hg) as [[_ O]|[O1 O2]]; [congruence|].
           rewrite O2 in *.
           apply (c_from _ h G u d t (w_num W0 t) (w_prev W0) (w_min W0) Hg Uc Hd1).
           ++ intros ->. apply Hd2. left. reflexivity.
           ++ exact Ht.
           ++ intros _. exact O1.
           ++ auto.
           ++ apply (run_prev _ _ H0). reflexivity.
           ++ apply (run_min _ _ H0). reflexivity.
           ++ lia.
           ++ lia.
      * apply c_keep; [auto|]. intros (X & _). contradiction.
    + injection H as <-. destruct (handle_store_spec E sc ch W0) as (rs & bs & S).
      destruct (md_dec (walk E sc ch) s ddollar ddollar_dec) as [Y|Y].
      * rewrite (sr_num1 _ _ _ _ _ S s Y). pose proof (Hb s).
        replace (Z.max (w_num W0 s) (w_ctr W0)) with (count h) by lia. exact (c_store _ h E sc ch s Y).
      * rewrite (sr_num2 _ _ _ _ _ S s Y) in *. apply c_keep; [auto|exact (fun x => x)].
    + injection H as <-. cbn [w_num] in *. apply c_keep; [auto|exact (fun x => x)].
    + injection H as <-. cbn [w_num] in *. apply c_keep; [auto|exact (fun x => x)].
Qed.

Lemma run_total : forall h, (forall e, In e h -> graph_ok e) -> exists W, run h = Ok W.
Proof.
  induction h as [|e h IH] using rev_ind; intros Hok.
  - exists world0. reflexivity.
  - destruct IH as (W0 & H0); [intros x Hx; apply Hok; apply in_or_app; auto|].
    rewrite run_snoc, H0. cbn [rbind].
    destruct e as [d|G u|E sc ch| |]; cbn [step]; eauto.
    assert (Hu : graph_ok (Update G u)) by (apply Hok; apply in_or_app; right; now left).
    destruct Hu as [Cl Hd]. unfold update.
    destruct (u_same_import u); [eauto|]. destruct (u_mutated u && u_immutable u); [eauto|].
    destruct (u_casc u) as [[]|]; cbn [rmap rbind]; eauto.
    match goal with |- context [any_cascading G W0 ?n _] => set (n1 := n) end.
    assert (A : forall l, (forall d, In d l -> In d (g_syms G)) ->
                exists c, any_cascading G W0 n1 l = Ok c).
    { induction l as [|d l IHl]; intros Hl; cbn [any_cascading]; [eauto|].
      destruct (cascading_num_total G n1 d Cl (Hl d (or_introl eq_refl))) as (n & ->).
      cbn [rbind]. destruct (_ <? _)%Z; [eauto|]. apply IHl. intros x Hx. apply Hl. now right. }
    destruct (A (sdiff (u_deps u) [u_sym u])) as (c & ->).
    + intros x Hx. apply In_sdiff in Hx as [Hx _]. auto.
    + cbn [rmap rbind]. eauto.
Qed.

Lemma nested_up G s c : nested G -> reach (fun a b => In b (g_containing G a)) s c ->
  c = s \/ In c (g_containing G s).
Proof.
  intros N H. induction H as [|a b c Hab Hbc IH]; [auto|].
  destruct IH as [->|IH]; [auto|]. exact (N _ _ _ Hab IH).
Qed.

Lemma nested_connected G s t : nested G -> connected G s t -> part_or_around G s t.
Proof.
  intros N (c & Hc & Ht). exists c. split; [|exact Ht]. exact (nested_up _ _ _ N Hc).
Qed.

Lemma cascades_nested h s m : (forall e, In e h -> nested_event e) ->
  cascades connected h s m -> cascades part_or_around h s m.
Proof.
  intros N H. induction H as [h G u A B|h G u d t m p k A B C D F K L IH P Q X Y|h E sc ch s A|h e s m A IH B].
  - exact (c_load _ h G u A B).
  - apply (c_from _ h G u d t m p k); auto.
    + apply nested_connected; [|exact F].
      apply (N (Update G u)). apply in_or_app. right. now left.
    + apply IH. intros e He. apply N. apply in_or_app. auto.
  - exact (c_store _ h E sc ch s A).
  - apply c_keep; [|exact B]. apply IH. intros x Hx. apply N. apply in_or_app. auto.
Qed.

Lemma stamped_count h s n : stamped_in h s n -> (0 <= n)%Z.
Proof. intros (h1 & e & h2 & _ & -> & _). apply count_nonneg. Qed.
Lemma stopped_count h s n : stopped_in h s n -> (0 <= n)%Z.
Proof. intros (h1 & E & sc & ch & h2 & _ & -> & _). apply count_nonneg. Qed.

Lemma run_held h W s : run h = Ok W ->
  held W s <-> forall m, stamped_in h s m -> exists n, stopped_in h s n /\ (m <= n)%Z.
Proof.
  intros H. pose proof (run_stamp s h W H) as St. pose proof (run_blocked s h W H) as Bl.
  unfold held. destruct (dget (w_blocked W) s) as [n|] eqn:D.
  - pose proof (proj1 (Bl n) eq_refl) as Hn. split.
    + intros L m Hm. exists n. split; [exact Hn|].
      rewrite <- (proj2 (St m) (or_introl Hm)). exact L.
    + intros Q. destruct (proj1 (St _) eq_refl) as [Hm|[_ ->]].
      * destruct (Q _ Hm) as (n' & Hn' & L). apply Bl in Hn'. injection Hn' as <-. exact L.
      * pose proof (stopped_count _ _ _ Hn). lia.
  - split.
    + intros L m Hm. pose proof (proj2 (St m) (or_introl Hm)). pose proof (stamped_count _ _ _ Hm). lia.
    + intros Q. destruct (proj1 (St _) eq_refl) as [Hm|[_ ->]]; [|lia].
      destruct (Q _ Hm) as (n' & Hn' & L). apply Bl in Hn'. discriminate.
Qed.

Lemma quiet_hushed W E sc ch i : stops_first (walk E sc ch) ->
  quiet W E sc ch i <-> hushed W (walk E sc ch) i.
Proof.
  intros F. unfold quiet, hushed. split.
  - intros (j & t & Hj & Ht & [(t' & H1 & H2 & _)|H]); exists j, t; repeat (split; [auto|]).
    + left. rewrite Ht in H1. injection H1 as <-. exact H2.
    + auto.
  - intros (j & t & Hj & Ht & [H|H]); exists j, t; repeat (split; [auto|]); [|auto].
    left. exists t. split; [exact Ht|]. split; [exact H|]. exact (F j t Ht H).
Qed.
