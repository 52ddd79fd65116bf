(** Proofs about what cells are taken to contain. *)
Require Import List Bool Arith Lia.
Import ListNotations.
Require Import Verif.Base Verif.Loops Verif.TextModel Verif.TextSpec.

(** ** Small facts *)

Lemma level_eqb_eq a b : level_eqb a b = true -> a = b.
Proof. destruct a, b; simpl; congruence. Qed.

Lemma text_eqb_eq a b : text_eqb a b = true -> a = b.
Proof.
  unfold text_eqb. destruct a as [m x], b as [m' y]. simpl. intros E.
  apply andb_true_iff in E. destruct E as [E F]. apply Nat.eqb_eq in E. subst.
  destruct m, m'; try discriminate; auto. apply level_eqb_eq in F. congruence.
Qed.

Lemma text_eqb_refl a : text_eqb a a = true.
Proof. unfold text_eqb. rewrite Nat.eqb_refl. destruct (t_memo a) as [[]|]; auto. Qed.

Lemma cid_eqb_eq a b : cid_eqb a b = true <-> a = b.
Proof.
  destruct a, b; simpl; rewrite ?Nat.eqb_eq; split; congruence.
Qed.

Lemma cid_eqb_refl a : cid_eqb a a = true.
Proof. now apply cid_eqb_eq. Qed.

Lemma key_inj a b : key a = key b -> a = b.
Proof. destruct a, b; simpl; intros E; f_equal; lia. Qed.

Lemma nth_last {A} (h : list A) c : nth_error (h ++ [c]) (length h) = Some c.
Proof. rewrite nth_error_app2 by lia. now rewrite Nat.sub_diag. Qed.

Lemma nth_before {A} (h : list A) c r x : nth_error h r = Some x -> nth_error (h ++ [c]) r = Some x.
Proof. intros E. rewrite nth_error_app1; auto. apply nth_error_Some. congruence. Qed.

Lemma nth_lt {A} (h : list A) r x : nth_error h r = Some x -> r < length h.
Proof. intros E. apply nth_error_Some. congruence. Qed.

Lemma upd_last h c f : upd (h ++ [c]) (length h) f = h ++ [f c].
Proof.
  unfold upd. rewrite nth_last. rewrite firstn_app, firstn_all, Nat.sub_diag. cbn [firstn].
  rewrite app_nil_r. f_equal. f_equal. apply skipn_all2. rewrite app_length. simpl. lia.
Qed.

Lemma nth_upd : forall h r f r',
  nth_error (upd h r f) r' = if r' =? r then option_map f (nth_error h r) else nth_error h r'.
Proof.
  intros h r f r'. unfold upd. destruct (nth_error h r) eqn:E.
  - assert (L := nth_lt _ _ _ E).
    destruct (Nat.eqb_spec r' r) as [Q|Q].
    + subst. simpl. rewrite nth_error_app2; rewrite firstn_length_le by lia; [|lia].
      now rewrite Nat.sub_diag.
    + destruct (Nat.lt_ge_cases r' r) as [B|B].
      * rewrite nth_error_app1 by (rewrite firstn_length_le; lia).
        rewrite <- (firstn_skipn r h) at 2. rewrite nth_error_app1; auto.
        rewrite firstn_length_le; lia.
      * rewrite nth_error_app2; rewrite firstn_length_le by lia; [|lia].
        destruct (r' - r) as [|d] eqn:D; [lia|]. simpl.
        rewrite <- (firstn_skipn (S r) h) at 2.
        rewrite nth_error_app2; rewrite firstn_length_le by lia; [|lia]. f_equal. lia.
  - simpl. destruct (Nat.eqb_spec r' r); subst; auto.
Qed.

Lemma length_upd h r f : length (upd h r f) = length h.
Proof.
  unfold upd. destruct (nth_error h r) eqn:E; auto. assert (L := nth_lt _ _ _ E).
  rewrite app_length. cbn [length]. rewrite firstn_length_le by lia. rewrite skipn_length. lia.
Qed.

(** ** [to_ast] *)

(** Two cells that differ in their trees only. *)
Definition kin (c c' : cell) : Prop :=
  c_id c = c_id c' /\ c_ctr c = c_ctr c' /\ c_text c = c_text c' /\ c_exec c = c_exec c' /\
  c_prev c = c_prev c' /\ c_skip c = c_skip c'.

Lemma kin_refl c : kin c c.
Proof. repeat split. Qed.

Lemma kin_trans a b c : kin a b -> kin b c -> kin a c.
Proof. unfold kin. intuition congruence. Qed.

Definition okin (o o' : option cell) : Prop :=
  match o, o' with
  | Some c, Some c' => kin c c'
  | None, None => True
  | _, _ => False
  end.

Lemma okin_refl o : okin o o.
Proof. destruct o; simpl; auto using kin_refl. Qed.

Definition rest (s : st) := (cur s, by_ctr s, counter s, lastrun s, table s, outs s, sts s, cps s).

Record ext (s s' : st) : Prop := mkExt {
  e_rest : rest s = rest s';
  e_heap : forall r, okin (nth_error (heap s) r) (nth_error (heap s') r) }.

Lemma ext_refl s : ext s s.
Proof. split; auto. intros. apply okin_refl. Qed.

Lemma ext_trans a b c : ext a b -> ext b c -> ext a c.
Proof.
  intros [A B] [C D]. split; [congruence|]. intros r. specialize (B r). specialize (D r).
  unfold okin in *. destruct (nth_error (heap a) r), (nth_error (heap b) r), (nth_error (heap c) r);
  try tauto. eapply kin_trans; eauto.
Qed.

Lemma ext_at s r f : (forall c, kin c (f c)) -> ext s (at_ s r f).
Proof.
  intros K. split; [reflexivity|]. intros r'. unfold at_. simpl. rewrite nth_upd.
  destruct (Nat.eqb_spec r' r) as [Q|Q]; [|apply okin_refl]. subst.
  destruct (nth_error (heap s) r); simpl; auto.
Qed.

Lemma ext_override s r a : ext s (override s r a).
Proof. apply ext_at. intros c. repeat split. Qed.

Lemma ext_to_ast parse s r o s' : to_ast parse s r = (o, s') -> ext s s'.
Proof.
  unfold to_ast. destruct (nth_error (heap s) r) as [c|]; [|intros E; injection E as <- <-; apply ext_refl].
  destruct (parsed parse (t_body (c_text c))) as [a|];
  destruct (c_ast c) as [x|]; try destruct (c_last c) as [t|]; try destruct (text_eqb t (c_text c));
  intros E; injection E as <- <-; try apply ext_refl; apply ext_at; intros; repeat split.
Qed.

Lemma to_ast_other parse s r o s' r' : to_ast parse s r = (o, s') -> r' <> r ->
  nth_error (heap s') r' = nth_error (heap s) r'.
Proof.
  unfold to_ast. destruct (nth_error (heap s) r) as [c|]; [|intros E _; injection E as <- <-; auto].
  destruct (parsed parse (t_body (c_text c))) as [a|];
  destruct (c_ast c) as [x|]; try destruct (c_last c) as [t|]; try destruct (text_eqb t (c_text c));
  intros E Q; injection E as <- <-; auto; unfold at_; simpl; rewrite nth_upd;
  destruct (Nat.eqb_spec r' r); congruence.
Qed.

Definition sound (parse : parser) (c : cell) : Prop :=
  forall t a, c_last c = Some t -> c_ast c = Some a -> parsed parse (t_body t) = Some a.
Definition soundon (P : nat -> Prop) (parse : parser) (s : st) : Prop :=
  forall r c, P r -> nth_error (heap s) r = Some c -> sound parse c.
Lemma to_ast_soundon P parse s r o s' : soundon P parse s -> P r -> to_ast parse s r = (o, s') ->
  soundon P parse s' /\
  forall c, nth_error (heap s) r = Some c -> o = parsed parse (t_body (c_text c)).
Proof.
  unfold to_ast. intros A PR. destruct (nth_error (heap s) r) as [c|] eqn:N;
  [|intros E; injection E as <- <-; split; [auto|discriminate]].
  assert (G : forall a, parsed parse (t_body (c_text c)) = Some a ->
            soundon P parse (at_ s r (fun c => set_last (set_ast c a) (Some (c_text c))))).
  { intros a PA r' c'. unfold at_. simpl. rewrite nth_upd.
    destruct (Nat.eqb_spec r' r) as [Q|Q]; [|apply A]. rewrite N. simpl. intros _ E.
    injection E as <-. intros t a' E1 E2. simpl in *. congruence. }
  assert (H : forall o' s'',
            (match parsed parse (t_body (c_text c)) with
             | None => (None, s)
             | Some a => (Some a, at_ s r (fun c => set_last (set_ast c a) (Some (c_text c))))
             end) = (o', s'') -> soundon P parse s'' /\ o' = parsed parse (t_body (c_text c))).
  { intros o' s''. destruct (parsed parse (t_body (c_text c))) as [a|] eqn:PA;
    intros E; injection E as <- <-; split; auto. }
  destruct (c_ast c) as [x|] eqn:EA.
  2:{ intros E. apply H in E. destruct E as [X Y]. split; auto. intros c' E. congruence. }
  destruct (c_last c) as [t|] eqn:EL.
  2:{ intros E. apply H in E. destruct E as [X Y]. split; auto. intros c' E. congruence. }
  destruct (text_eqb t (c_text c)) eqn:T.
  - intros E. injection E as <- <-. split; auto. intros c' E. injection E as <-.
    apply text_eqb_eq in T. subst t. symmetry. eapply A; eauto.
  - intros E. apply H in E. destruct E as [X Y]. split; auto. intros c' E. congruence.
Qed.

Lemma to_ast_keeps P parse s r o s' : soundon P parse s -> to_ast parse s r = (o, s') ->
  soundon P parse s'.
Proof.
  intros A T r' c PR N. destruct (Nat.eq_dec r' r) as [Q|Q].
  - subst r'. eapply to_ast_soundon in T; eauto. destruct T as [T _]. eapply T; eauto.
  - rewrite (to_ast_other _ _ _ _ _ _ T Q) in N. eapply A; eauto.
Qed.

Lemma override_sound (P : nat -> Prop) parse s r a : soundon P parse s ->
  (forall c t, nth_error (heap s) r = Some c -> c_last c = Some t -> parsed parse (t_body t) = Some a) ->
  soundon (fun r' => P r' \/ r' = r) parse (override s r a).
Proof.
  intros A H r' c' PR. unfold override, at_. simpl. rewrite nth_upd.
  destruct (Nat.eqb_spec r' r) as [Q|Q]; [|apply A; tauto].
  destruct (nth_error (heap s) r) as [c|] eqn:N; simpl; [|discriminate]. intros E. injection E as <-.
  intros t a' E1 E2. simpl in *. injection E2 as <-. eapply H; eauto.
Qed.

(** ** [before] *)

(** What the cell made for a run looks like before it is executed. *)
Record made (parse : parser) (s : st) (q : req) (c : cell) (code : TextModel.code) : Prop := mkMade {
  m_id : c_id c = id_of s q;
  m_ctr : c_ctr c = Some (S (counter s));
  m_text : c_text c = q_text q;
  m_prev : c_prev c = dget (cur s) (key (id_of s q));
  m_last : c_last c = None \/ c_last c = Some (q_text q);
  m_ast : c_ast c = None \/ c_ast c = parsed parse (t_body (q_text q)) /\ c_last c = Some (q_text q);
  m_code : match code with
    | Body => c_exec c = Some (t_body (q_text q)) /\ c_skip c = None
    | HeldBack a =>
        c_exec c = None /\ c_skip c = None /\ q_enabled q = true /\ q_warn q = true /\
        q_unsafe q = true /\ repeats (lastrun s) (id_of s q) (t_body (q_text q)) = false /\
        a = match dget (cur s) (key (id_of s q)) with
            | None => [SPass]
            | Some p => [SOut match nth_error (heap s) p with Some c => c_ctr c | None => None end]
            end
    | Reused k a =>
        c_exec c = Some (t_body (q_text q)) /\ c_skip c = Some k /\ q_enabled q = true /\
        In (t_body (q_text q), k) (table s) /\ k < S (counter s) /\ a = shown_for (q_text q) k /\
        t_memo (q_text q) <> None /\ (exists p, dget (cur s) (key (id_of s q)) = Some p) /\
        exists x, parsed parse (t_body (q_text q)) = Some x
    end }.

Record before_spec (parse : parser) (s : st) (q : req) (s' : st) (r : nat) (code : TextModel.code) : Prop :=
  mkBefore {
  b_ref : r = length (heap s);
  b_heap : exists c, heap s' = heap s ++ [c] /\ made parse s q c code;
  b_cur : cur s' = dset (cur s) (key (id_of s q)) r;
  b_by : by_ctr s' = dset (by_ctr s) (S (counter s)) r;
  b_ctr : counter s' = S (counter s);
  b_last : lastrun s' = Some (id_of s q, t_body (q_text q));
  b_table : table s' = table s;
  b_outs : outs s' = outs s;
  b_cps : cps s' = cps s;
  b_sts : sts s' = match code with
    | Reused _ _ =>
        match parsed parse (t_body (q_text q)) with
        | Some x => dset (sts s) (S (counter s)) (map (fun _ => []) x)
        | None => sts s
        end
    | _ => sts s
    end }.

Lemma prev_ref {A} (h : list A) (d : list A) p (f : A -> option nat) :
  match nth_error (h ++ d) p with Some c => f c | None => None end =
  match nth_error h p with Some c => f c | None => None end \/ length h <= p.
Proof.
  destruct (Nat.lt_ge_cases p (length h)); [left|right; lia]. now rewrite nth_error_app1.
Qed.

(** The places that are looked up are there. *)
Definition refs_ok (s : st) : Prop := forall k r, dget (cur s) k = Some r -> r < length (heap s).

Lemma find_table (l : list (nat * nat)) b n pick k :
  option_map snd (find (fun e => (fst e =? b) && (snd e <? n) && pick (snd e)) l) = Some k ->
  In (b, k) l /\ k < n.
Proof.
  destruct (find _ l) as [[b' k']|] eqn:F; simpl; [|discriminate]. intros E. injection E as <-.
  apply find_some in F. destruct F as [I F]. simpl in F.
  apply andb_true_iff in F. destruct F as [F _]. apply andb_true_iff in F. destruct F as [F1 F2].
  apply Nat.eqb_eq in F1. apply Nat.ltb_lt in F2. subst. auto.
Qed.

Lemma to_ast_new parse h0 c0 s0 : c_ast c0 = None -> heap s0 = h0 ++ [c0] ->
  to_ast parse s0 (length h0) =
  match parsed parse (t_body (c_text c0)) with
  | None => (None, s0)
  | Some a => (Some a, with_heap s0 (h0 ++ [set_last (set_ast c0 a) (Some (c_text c0))]))
  end.
Proof.
  intros N E. unfold to_ast. rewrite E, nth_last, N. unfold at_. rewrite E.
  destruct (parsed parse (t_body (c_text c0))); auto. now rewrite upd_last.
Qed.

Local Opaque to_ast.
Lemma before_ok parse s q s' r code : refs_ok s -> before parse s q = (s', r, code) ->
  before_spec parse s q s' r code.
Proof.
  intros R. unfold before. fold (id_of s q). unfold create.
  set (i := id_of s q). set (t := q_text q). unfold at_, with_last, with_heap. simpl.
  rewrite !upd_last. set (c1 := set_exec _ _).
  set (s1 := mkSt (heap s ++ [c1]) _ _ _ _ _ _ _ _).
  assert (H1 : heap s1 = heap s ++ [c1]) by reflexivity.
  destruct (q_enabled q) eqn:EN; simpl negb; cbv iota.
  2:{ intros E. injection E as <- <- <-. split; try reflexivity.
      exists c1. split; [reflexivity|]. split; simpl; auto. }
  rewrite nth_last. simpl option_map. cbv iota beta.
  assert (TA := to_ast_new parse (heap s) c1 s1 eq_refl H1). simpl c_text in TA.
  destruct (memo_ctr s1 c1 q) as [k|] eqn:M.
  - assert (MM : t_memo t <> None /\ (exists p, dget (cur s) (key i) = Some p) /\
                 In (t_body t, k) (table s) /\ k < S (counter s)).
    { revert M. unfold memo_ctr, c1. simpl.
      destruct (t_memo t); [|discriminate].
      destruct (dget (cur s) (key i)); [|discriminate]. intros M.
      apply find_table in M. destruct M as [M1 M2]. repeat split; eauto; discriminate. }
    destruct MM as (MM1 & MM2 & MM3 & MM4).
    rewrite TA. destruct (parsed parse (t_body t)) as [a|] eqn:P.
    + intros E. injection E as <- <- <-. simpl. rewrite !upd_last.
      split; try reflexivity.
      * eexists. split; [reflexivity|]. split; try reflexivity; simpl; auto.
        repeat split; auto; try (eexists; exact P).
      * unfold s1. simpl. fold t. now rewrite P.
    + intros E. injection E as <- <- <-. split; try reflexivity.
      exists c1. split; [reflexivity|]. split; simpl; auto.
  - destruct (q_traced q) eqn:TR.
    2:{ intros E. injection E as <- <- <-. split; try reflexivity.
        exists c1. split; [reflexivity|]. split; simpl; auto. }
    rewrite TA. destruct (parsed parse (t_body t)) as [a|] eqn:P.
    2:{ rewrite andb_false_r. simpl. intros E. injection E as <- <- <-. split; try reflexivity.
        exists c1. split; [reflexivity|]. split; simpl; auto. }
    destruct (q_warn q && q_unsafe q && negb (repeats (lastrun s) i (t_body t))) eqn:G.
    + intros E. injection E as <- <- <-. simpl. rewrite !upd_last.
      apply andb_true_iff in G. destruct G as [G G3]. apply andb_true_iff in G. destruct G as [G1 G2].
      apply negb_true_iff in G3.
      split; try reflexivity.
      eexists. split; [reflexivity|]. split; try reflexivity; simpl; auto.
      repeat split; auto. fold i. destruct (dget (cur s) (key i)) as [p|] eqn:D; auto.
      rewrite nth_error_app1; auto. eapply R; eauto.
    + intros E. injection E as <- <- <-. split; try reflexivity.
      eexists. split; [reflexivity|]. split; try reflexivity; simpl; auto.
Qed.
Local Transparent to_ast.

(** ** [execute] *)

Record exec_spec (parse : parser) (s : st) (q : req) (code : TextModel.code) (h : list cell) (c : cell)
    (s' : st) (failed : bool) (v : option nat) : Prop := mkExec {
  x_heap : exists c', heap s' = h ++ [c'] /\ kin c c' /\ c_last c' = c_last c /\
    (c_ast c' = c_ast c \/
     match code with
     | Body => c_ast c' = parsed parse (t_body (q_text q)) /\ c_ast c' <> None
     | HeldBack a | Reused _ a => c_ast c' = Some a
     end);
  x_cur : cur s' = cur s; x_by : by_ctr s' = by_ctr s; x_ctr : counter s' = counter s;
  x_last : lastrun s' = lastrun s; x_table : table s' = table s;
  x_outs : outs s' = match v with Some w => dset (outs s) (counter s) w | None => outs s end;
  x_out : match code with Body => True | HeldBack a | Reused _ a => v = out_get s a end;
  x_sts : match code with
    | Body =>
        (forall m, m <> counter s -> dget (sts s') m = dget (sts s) m) /\
        (failed = false -> exists a, parsed parse (t_body (q_text q)) = Some a /\
           (sts s' = sts s \/
            sts s' = dset (sts s) (counter s) (map (q_deps q) (seq 0 (length a)))))
    | _ => sts s' = sts s
    end;
  x_cps : match code with
    | Body => forall m, m <> counter s -> dget (cps s') m = dget (cps s) m
    | _ => cps s' = cps s
    end }.

Lemma put_out_fields s v :
  heap (put_out s v) = heap s /\ cur (put_out s v) = cur s /\ by_ctr (put_out s v) = by_ctr s /\
  counter (put_out s v) = counter s /\ lastrun (put_out s v) = lastrun s /\
  table (put_out s v) = table s /\ sts (put_out s v) = sts s /\ cps (put_out s v) = cps s /\
  outs (put_out s v) = match v with Some w => dset (outs s) (counter s) w | None => outs s end.
Proof. destruct v; simpl; repeat split. Qed.

Lemma execute_ok parse s q code h c s' failed v : heap s = h ++ [c] ->
  execute parse s (length h) q code = (s', failed, v) ->
  exec_spec parse s q code h c s' failed v.
Proof.
  intros H. unfold execute.
  assert (O : forall a (b : bool), heap (if b then override s (length h) a else s) =
              h ++ [if b then set_ast c a else c]).
  { intros a []; auto. unfold override, at_. simpl. now rewrite H, upd_last. }
  assert (F : forall a (b : bool), rest (if b then override s (length h) a else s) = rest s)
    by (intros a []; reflexivity).
  assert (K : forall a (b : bool), kin c (if b then set_ast c a else c) /\
              c_last (if b then set_ast c a else c) = c_last c /\
              (c_ast (if b then set_ast c a else c) = c_ast c \/
               c_ast (if b then set_ast c a else c) = Some a)).
  { intros a []; simpl; (split; [repeat split|split; auto]). }
  assert (SH : forall a code', (code' = HeldBack a \/ exists k, code' = Reused k a) ->
    (put_out (if q_enabled q && q_traced q then override s (length h) a else s) (out_get s a), false,
     out_get s a) = (s', failed, v) -> exec_spec parse s q code' h c s' failed v).
  { intros a code' CC E.
    set (s1 := if q_enabled q && q_traced q then override s (length h) a else s) in *.
    assert (O1 := O a (q_enabled q && q_traced q)). fold s1 in O1.
    assert (F1 := F a (q_enabled q && q_traced q)). fold s1 in F1.
    destruct (K a (q_enabled q && q_traced q)) as (K1 & K2 & K3).
    assert (PF := put_out_fields s1 (out_get s a)).
    destruct PF as (P1 & P2 & P3 & P4 & P5 & P6 & P7 & P8 & P9).
    unfold rest in F1. injection F1 as F2 F3 F4 F5 F6 F7 F8 F9.
    injection E as E1 E2 E3. subst s' failed v.
    split; try congruence.
    - exists (if q_enabled q && q_traced q then set_ast c a else c).
      split; [congruence|]. split; auto. split; auto.
      destruct K3 as [K3|K3]; auto. right. destruct CC as [-> | [k ->] ]; exact K3.
    - rewrite P9, F4, F7. reflexivity.
    - destruct CC as [-> | [k ->] ]; reflexivity.
    - destruct CC as [-> | [k ->] ]; congruence.
    - destruct CC as [-> | [k ->] ]; congruence. }
  destruct code as [|a|k a].
  - destruct (parsed parse (t_body (q_text q))) as [a|] eqn:P.
    + set (s1 := if q_enabled q && q_traced q then override s (length h) a else s).
      assert (O1 := O a (q_enabled q && q_traced q)). fold s1 in O1.
      assert (F1 := F a (q_enabled q && q_traced q)). fold s1 in F1.
      destruct (K a (q_enabled q && q_traced q)) as (K1 & K2 & K3).
      unfold rest in F1. injection F1 as F2 F3 F4 F5 F6 F7 F8 F9.
      set (n := if q_fails q then Nat.min (q_ran q) (length a) else length a).
      set (s2 := if q_enabled q && q_traced q then _ else s1).
      assert (G : heap s2 = heap s1 /\ cur s2 = cur s1 /\ by_ctr s2 = by_ctr s1 /\
                  counter s2 = counter s1 /\ lastrun s2 = lastrun s1 /\ table s2 = table s1 /\
                  outs s2 = outs s1 /\
                  (sts s2 = sts s1 \/ sts s2 = dset (sts s1) (counter s1) (map (q_deps q) (seq 0 n))) /\
                  (cps s2 = cps s1 \/ cps s2 = dset (cps s1) (counter s1) (q_cdeps q))).
      { unfold s2. destruct (q_enabled q && q_traced q); simpl; repeat split; auto. }
      destruct G as (G1 & G2 & G3 & G4 & G5 & G6 & G7 & G8 & G9).
      intros E. injection E as E1 E2 E3.
      assert (PF := put_out_fields s2 v). rewrite E3 in E1.
      destruct PF as (P1 & P2 & P3 & P4 & P5 & P6 & P7 & P8 & P9). rewrite E1 in *.
      split; try congruence; auto.
      * exists (if q_enabled q && q_traced q then set_ast c a else c).
        split; [congruence|]. split; auto. split; auto.
        destruct K3 as [K3|K3]; auto. right. rewrite K3, P. split; [auto|discriminate].
      * rewrite P9, G4, F4, G7, F7. reflexivity.
      * rewrite P7. split.
        -- intros m M. destruct G8 as [-> | ->]; [congruence|]. rewrite dget_dset.
           rewrite F4. destruct (Nat.eqb_spec m (counter s)); congruence.
        -- intros FF. exists a. split; auto. rewrite <- F8, <- F4.
           unfold n in G8. rewrite E2, FF in G8. exact G8.
      * rewrite P8. intros m M. destruct G9 as [-> | ->]; [congruence|]. rewrite dget_dset.
        rewrite F4. destruct (Nat.eqb_spec m (counter s)); congruence.
    + intros E. injection E as E1 E2 E3. subst. split; auto.
      * exists c. split; auto. split; [apply kin_refl|]. auto.
      * split; auto. discriminate.
  - intros E. apply (SH a); auto.
  - intros E. apply (SH a); eauto.
Qed.

(** ** [after] *)

Record after_spec (s : st) (r : nat) (failed : bool) (s' : st) : Prop := mkAfter {
  f_cur : cur s' = cur s; f_by : by_ctr s' = by_ctr s; f_ctr : counter s' = counter s;
  f_last : lastrun s' = lastrun s; f_outs : outs s' = outs s;
  f_heap : forall r', okin (nth_error (heap s) r') (nth_error (heap s') r');
  f_sts : forall m, m <> counter s -> dget (sts s') m = dget (sts s) m;
  f_cps : forall m, m <> counter s -> dget (cps s') m = dget (cps s) m;
  f_table : table s' = table s \/
    (exists c b n, nth_error (heap s) r = Some c /\ c_exec c = Some b /\ c_ctr c = Some n /\
       c_skip c = None /\ failed = false /\ sts s' = sts s /\ table s' = table s ++ [(b, n)]) }.

Lemma ext_after s r failed s' : ext s s' -> after_spec s r failed s'.
Proof.
  intros [E H]. unfold rest in E. injection E as E1 E2 E3 E4 E5 E6 E7 E8.
  split; auto; try (intros; congruence).
Qed.

Lemma after_trans s r failed s1 s2 : ext s s1 -> after_spec s1 r failed s2 -> after_spec s r failed s2.
Proof.
  intros [E H] A. unfold rest in E. injection E as E0 E1 E2 E3 E4 E5 E6 E7.
  destruct A as [A1 A2 A3 A4 A5 A6 A7 A8 A9]. split; try congruence.
  - intros r'. specialize (H r'). specialize (A6 r'). unfold okin in *.
    destruct (nth_error (heap s) r'), (nth_error (heap s1) r'), (nth_error (heap s2) r'); try tauto.
    eapply kin_trans; eauto.
  - intros m M. rewrite A7, E6; auto; congruence.
  - intros m M. rewrite A8, E7; auto; congruence.
  - destruct A9 as [A9|(c & b & n & B1 & B2 & B3 & B4 & B5 & B6 & B7)]; [left; congruence|].
    right. specialize (H r). rewrite B1 in H. unfold okin in H.
    destruct (nth_error (heap s) r) as [c'|] eqn:N; [|contradiction].
    destruct H as (K1 & K2 & K3 & K4 & K5 & K6).
    exists c', b, n. repeat split; congruence.
Qed.

(** What an [ext] may follow. *)
Lemma after_ext s r failed s1 s2 : after_spec s r failed s1 -> ext s1 s2 -> after_spec s r failed s2.
Proof.
  intros A [E H]. unfold rest in E. injection E as E0 E1 E2 E3 E4 E5 E6 E7.
  destruct A as [A1 A2 A3 A4 A5 A6 A7 A8 A9]. split; try congruence.
  - intros r'. specialize (H r'). specialize (A6 r'). unfold okin in *.
    destruct (nth_error (heap s) r'), (nth_error (heap s1) r'), (nth_error (heap s2) r'); try tauto.
    eapply kin_trans; eauto.
  - intros m M. rewrite <- E6; auto.
  - intros m M. rewrite <- E7; auto.
  - destruct A9 as [A9|(c & b & n & B1 & B2 & B3 & B4 & B5 & B6 & B7)]; [left; congruence|].
    right. exists c, b, n. repeat split; congruence.
Qed.

Lemma ext_statements parse s r o s' : statements parse s r = (o, s') -> ext s s'.
Proof.
  unfold statements. destruct (to_ast parse s r) as [a s1] eqn:T. intros E. injection E as _ <-.
  eapply ext_to_ast; eauto.
Qed.

Lemma ext_check parse s r (b : bool) : ext s (if b then snd (to_ast parse s r) else s).
Proof.
  destruct b; [|apply ext_refl]. destruct (to_ast parse s r) eqn:T. simpl. eapply ext_to_ast; eauto.
Qed.

Local Opaque to_ast statements.
Lemma after_ok parse s r q failed : after_spec s r failed (after parse s r q failed).
Proof.
  unfold after. destruct (nth_error (heap s) r) as [c|] eqn:N; [|apply ext_after, ext_refl].
  destruct (c_skip c) as [k|] eqn:SK.
  - destruct (c_prev c) as [p|]; [|apply ext_after, ext_refl].
    destruct (to_ast parse s p) as [[a|] s1] eqn:T; [|apply ext_after; eapply ext_to_ast; eauto].
    apply ext_to_ast in T.
    apply after_trans with (s1 := override s1 r a);
      [eapply ext_trans; [eauto|apply ext_override]|].
    set (s2 := override s1 r a).
    set (s3 := match dget (cps s2) k with Some ps => _ | None => s2 end).
    assert (A3 : after_spec s2 r failed s3).
    { unfold s3. destruct (dget (cps s2) k) as [ps|]; [|apply ext_after, ext_refl].
      split; simpl; auto; try (intros; apply okin_refl).
      intros m M. rewrite dget_dset. destruct (Nat.eqb_spec m (counter s1)); congruence. }
    assert (C3 : counter s3 = counter s2) by apply A3.
    destruct (statements parse s3 r) as [[mine|] s4] eqn:S4; apply ext_statements in S4;
      [|eapply after_ext; eauto].
    assert (A4 := after_ext _ _ _ _ _ A3 S4).
    destruct (dget (by_ctr s4) k) as [rk|]; auto.
    destruct (statements parse s4 rk) as [[theirs|] s5] eqn:S5; apply ext_statements in S5;
      [|eapply after_ext; eauto].
    assert (A5 := after_ext _ _ _ _ _ A4 S5).
    apply after_ext with (s1 := match dget (sts s5) (counter s5) with
                                | Some all => with_sts s5 (dset (sts s5) (counter s5)
                                                (rewire all (length mine) theirs))
                                | None => s5
                                end); [|apply ext_check].
    destruct (dget (sts s5) (counter s5)) as [all|]; auto.
    destruct A5 as [A1 A2 A3' A4' A5' A6 A7 A8 A9]. split; simpl; auto.
    + intros m M. rewrite dget_dset. rewrite A3'. destruct (Nat.eqb_spec m (counter s2)); [contradiction|auto].
    + destruct A9 as [A9|(c' & b & n & B1 & B2 & B3 & B4 & B5 & B6 & B7)]; auto.
      exfalso. revert B1 B4. unfold s2, override, at_. simpl. rewrite nth_upd, Nat.eqb_refl.
      destruct T as [_ T]. specialize (T r). rewrite N in T. unfold okin in T.
      destruct (nth_error (heap s1) r) as [x|]; [|contradiction]. simpl. intros X Y. injection X as <-.
      destruct T as (_ & _ & _ & _ & _ & T). simpl in Y. congruence.
  - destruct (t_memo (c_text c)); [|apply ext_after, ext_check].
    destruct (failed || negb (q_keep q)) eqn:FK; [apply ext_after, ext_check|].
    destruct (c_exec c) as [b|] eqn:EX; [|apply ext_after, ext_refl].
    destruct (c_ctr c) as [n|] eqn:CT; [|apply ext_after, ext_refl].
    eapply after_ext; [|apply ext_check]. split; simpl; auto; try (intros; apply okin_refl).
    right. exists c, b, n. apply orb_false_iff in FK. destruct FK. repeat split; auto.
Qed.
Local Transparent to_ast statements.

(** ** Whole runs *)

Lemma okin_length h h' : (forall r, okin (nth_error h r) (nth_error h' r)) -> length h = length h'.
Proof.
  intros K. destruct (Nat.lt_trichotomy (length h) (length h')) as [L|[L|L]]; auto; exfalso.
  - specialize (K (length h)). destruct (nth_error h (length h)) eqn:E; [apply nth_lt in E; lia|].
    destruct (nth_error h' (length h)) eqn:E'; [exact K|]. apply nth_error_None in E'. lia.
  - specialize (K (length h')). destruct (nth_error h' (length h')) eqn:E; [apply nth_lt in E; lia|].
    destruct (nth_error h (length h')) eqn:E'; [exact K|]. apply nth_error_None in E'. lia.
Qed.

Record run_spec (parse : parser) (s : st) (q : req) (s' : st) (p : report) : Prop := mkRun {
  r_id : p_id p = id_of s q;
  r_ctr : counter s' = S (counter s);
  r_cur : cur s' = dset (cur s) (key (id_of s q)) (length (heap s));
  r_by : by_ctr s' = dset (by_ctr s) (S (counter s)) (length (heap s));
  r_last : lastrun s' = Some (id_of s q, t_body (q_text q));
  r_outs : outs s' = match p_shown p with
                     | Some w => dset (outs s) (S (counter s)) w | None => outs s end;
  r_old : forall r c, nth_error (heap s) r = Some c ->
            exists c', nth_error (heap s') r = Some c' /\ kin c c';
  r_new : exists c, nth_error (heap s') (length (heap s)) = Some c /\ c_id c = id_of s q /\
            c_ctr c = Some (S (counter s)) /\ c_text c = q_text q;
  r_len : length (heap s') = S (length (heap s));
  r_sts : forall m, m <> S (counter s) -> dget (sts s') m = dget (sts s) m;
  r_cps : forall m, m <> S (counter s) -> dget (cps s') m = dget (cps s) m;
  r_code : exists c, made parse s q c (p_code p);
  r_show : match p_code p with Body => True | HeldBack a | Reused _ a => p_shown p = out_get s a end;
  r_table : table s' = table s \/
    (p_code p = Body /\ table s' = table s ++ [(t_body (q_text q), S (counter s))] /\
     exists a, parsed parse (t_body (q_text q)) = Some a /\
       (dget (sts s') (S (counter s)) = dget (sts s) (S (counter s)) \/
        exists ps, dget (sts s') (S (counter s)) = Some ps /\ length ps = length a)) }.

Lemma run_ok parse s q s' p : refs_ok s -> run parse s q = (s', p) -> run_spec parse s q s' p.
Proof.
  intros R. unfold run. destruct (before parse s q) as [[s1 r] code] eqn:B.
  apply before_ok in B; auto. destruct B as [-> (c & Bh & M) B3 B4 B5 B6 B7 B8 B9 B10].
  destruct (execute parse s1 (length (heap s)) q code) as [[s2 failed] v] eqn:X.
  apply (execute_ok _ _ _ _ _ c) in X; auto.
  destruct X as [(c' & X1 & X2 & X3 & X4) X5 X6 X7 X8 X9 X10 X11 X12 X13].
  set (s3 := if q_enabled q then after parse s2 (length (heap s)) q failed else s2).
  assert (A : after_spec s2 (length (heap s)) failed s3).
  { unfold s3. destruct (q_enabled q); [apply after_ok|apply ext_after, ext_refl]. }
  intros E. injection E as E1 E2. subst s' p. destruct A as [A1 A2 A3 A4 A5 A6 A7 A8 A9].
  assert (N2 : nth_error (heap s2) (length (heap s)) = Some c') by (rewrite X1; apply nth_last).
  assert (N3 : exists c3, nth_error (heap s3) (length (heap s)) = Some c3 /\ kin c' c3).
  { specialize (A6 (length (heap s))). rewrite N2 in A6. unfold okin in A6.
    destruct (nth_error (heap s3) (length (heap s))); [eauto|contradiction]. }
  destruct N3 as (c3 & N3 & K3). rewrite N3.
  assert (K : kin c c3) by (eapply kin_trans; eauto).
  destruct K as (K1 & K2 & K4 & K5 & K6 & K7).
  destruct M as [M1 M2 M3 M4 M5 M6 M7].
  split; simpl; try congruence.
  - rewrite A5, X10, B5, B8. reflexivity.
  - intros r c0 N. specialize (A6 r). rewrite X1 in A6. rewrite (nth_before _ _ _ _ N) in A6.
    unfold okin in A6. destruct (nth_error (heap s3) r); [eauto|contradiction].
  - exists c3. repeat split; auto; congruence.
  - rewrite <- (okin_length _ _ A6), X1, app_length. simpl. lia.
  - intros m Q. rewrite A7 by congruence. destruct code.
    + destruct X12 as [X12 _]. rewrite X12 by congruence. now rewrite B10.
    + now rewrite X12, B10.
    + rewrite X12, B10. destruct (parsed parse (t_body (q_text q))); auto.
      rewrite dget_dset. destruct (Nat.eqb_spec m (S (counter s))); congruence.
  - intros m Q. rewrite A8 by congruence. destruct code.
    + rewrite X13 by congruence. now rewrite B9.
    + now rewrite X13, B9.
    + now rewrite X13, B9.
  - exists c. split; auto.
  - destruct code; auto; rewrite X11; unfold out_get; now rewrite B8.
  - destruct A9 as [A9|(c0 & b & n & D1 & D2 & D3 & D4 & D5 & D6 & D7)]; [left; congruence|]. right.
    rewrite N2 in D1. injection D1 as <-. destruct X2 as (Y1 & Y2 & Y3 & Y4 & Y5 & Y6).
    destruct code as [|a|k a].
    + destruct M7 as [M7 M8]. destruct X12 as [X12 X14].
      assert (b = t_body (q_text q)) by congruence. assert (n = S (counter s)) by congruence. subst b n.
      split; [auto|]. split; [congruence|]. destruct (X14 D5) as (a & Pa & Q). exists a. split; auto.
      rewrite D6. destruct Q as [Q|Q].
      * left. congruence.
      * right. exists (map (q_deps q) (seq 0 (length a))).
        rewrite Q, dget_dset, B5, Nat.eqb_refl. split; auto.
        now rewrite map_length, seq_length.
    + exfalso. destruct M7 as [M7 _]. congruence.
    + exfalso. destruct M7 as [_ [M7 _]]. congruence.
Qed.

(** ** What always holds *)

Record W (parse : parser) (s : st) : Prop := mkW {
  w_refs : refs_ok s;
  w_by : forall k r, dget (by_ctr s) k = Some r ->
           k <= counter s /\ exists c, nth_error (heap s) r = Some c /\ c_ctr c = Some k;
  w_sts : forall m, counter s < m -> dget (sts s) m = None;
  w_outs : forall m, counter s < m -> dget (outs s) m = None;
  w_table : forall b k, In (b, k) (table s) -> k <= counter s /\
           exists a, parsed parse b = Some a /\
             forall ps, dget (sts s) k = Some ps -> length ps = length a }.

Lemma W_init parse : W parse init.
Proof. split; simpl; try discriminate; auto; try (intros; contradiction). Qed.

Lemma run_W parse s q s' p : W parse s -> run parse s q = (s', p) -> W parse s'.
Proof.
  intros [W1 W2 W3 W4 W5] E. apply run_ok in E; auto.
  destruct E as [R1 R2 R3 R4 R5 R6 R7 R8 R9 R10 R11 R12 R13 R14]. split.
  - intros k r. rewrite R3, dget_dset, R9. destruct (k =? key (id_of s q)).
    + intros E. injection E as <-. lia.
    + intros E. apply W1 in E. lia.
  - intros k r. rewrite R4, dget_dset, R2. destruct (Nat.eqb_spec k (S (counter s))) as [Q|Q].
    + intros E. injection E as <-. subst k. split; auto. destruct R8 as (c & N & _ & C & _). eauto.
    + intros E. apply W2 in E. destruct E as (L & c & N & C). split; [lia|].
      apply R7 in N. destruct N as (c' & N & K). exists c'. split; auto.
      destruct K as (_ & K & _). congruence.
  - intros m L. rewrite R2 in L. rewrite R10 by lia. apply W3. lia.
  - intros m L. rewrite R2 in L. rewrite R6. destruct (p_shown p); [|apply W4; lia].
    rewrite dget_dset. destruct (Nat.eqb_spec m (S (counter s))); [lia|]. apply W4. lia.
  - intros b k I. rewrite R2.
    assert (Old : In (b, k) (table s) -> k <= S (counter s) /\
             exists a, parsed parse b = Some a /\
               forall ps, dget (sts s') k = Some ps -> length ps = length a).
    { intros J. apply W5 in J. destruct J as (L & a & P & H). split; [lia|]. exists a. split; auto.
      intros ps D. rewrite R10 in D by lia. auto. }
    destruct R14 as [R14|(_ & R14 & a & P & Q)]; rewrite R14 in I; auto.
    apply in_app_iff in I. destruct I as [I|[I|[]]]; auto. injection I as <- <-. split; auto.
    exists a. split; auto. intros ps D. destruct Q as [Q|(ps' & Q & L)].
    + rewrite Q, W3 in D; [discriminate|lia].
    + congruence.
Qed.

(** Changes that keep counters and everything outside of [heap]. *)
Record near (s s' : st) : Prop := mkNear {
  n_rest : rest s = rest s';
  n_len : length (heap s) = length (heap s');
  n_heap : forall r c, nth_error (heap s) r = Some c ->
             exists c', nth_error (heap s') r = Some c' /\ c_ctr c' = c_ctr c /\ c_id c' = c_id c }.

Lemma near_refl s : near s s.
Proof. split; eauto. Qed.

Lemma near_trans a b c : near a b -> near b c -> near a c.
Proof.
  intros [A1 A2 A3] [B1 B2 B3]. split; try congruence. intros r x N.
  apply A3 in N. destruct N as (y & N & E1 & E2). apply B3 in N. destruct N as (z & N & E3 & E4).
  exists z. repeat split; congruence.
Qed.

Lemma ext_near s s' : ext s s' -> near s s'.
Proof.
  intros [E H]. split; auto. { now apply okin_length. }
  intros r c N. specialize (H r). rewrite N in H. unfold okin in H.
  destruct (nth_error (heap s') r) as [c'|]; [|contradiction]. exists c'.
  destruct H as (H1 & H2 & _). repeat split; auto.
Qed.

Lemma near_at s r f : (forall c, c_ctr (f c) = c_ctr c /\ c_id (f c) = c_id c) -> near s (at_ s r f).
Proof.
  intros F. split; [reflexivity| |].
  - unfold at_. simpl. now rewrite length_upd.
  - intros r' c N. unfold at_. simpl. rewrite nth_upd. destruct (Nat.eqb_spec r' r) as [Q|Q].
    + subst. rewrite N. simpl. exists (f c). destruct (F c). auto.
    + eauto.
Qed.

Lemma near_W parse s s' : near s s' -> W parse s -> W parse s'.
Proof.
  intros [E L H] [W1 W2 W3 W4 W5]. unfold rest in E. injection E as E0 E1 E2 E3 E4 E5 E6 E7.
  split.
  - intros k r. rewrite <- E0, <- L. apply W1.
  - intros k r. rewrite <- E1, <- E2. intros D. apply W2 in D. destruct D as (D1 & c & N & C).
    split; auto. apply H in N. destruct N as (c' & N & C' & _). exists c'. split; congruence.
  - intros m. rewrite <- E2, <- E6. apply W3.
  - intros m. rewrite <- E2, <- E5. apply W4.
  - intros b k. rewrite <- E4, <- E2, <- E6. apply W5.
Qed.

Lemma near_new_text parse s i t : near s (new_text parse s i t).
Proof.
  unfold new_text. destruct (dget (cur s) (key (Given i))) as [r|]; [|apply near_refl].
  destruct (nth_error (heap s) r) as [c|]; [|apply near_refl].
  destruct (to_ast parse (at_ s r (fun c => set_text c t)) r) as [o s1] eqn:T.
  apply ext_to_ast, ext_near in T.
  assert (N : near s s1) by (eapply near_trans; [apply near_at|exact T]; intros; split; reflexivity).
  destruct o; auto. eapply near_trans; [exact N|]. apply near_at. intros; split; reflexivity.
Qed.

Lemma near_texts parse l s :
  near s (fold_left (fun s e => new_text parse s (fst e) (snd e)) l s).
Proof.
  revert s. induction l as [|e l IH]; intros s; simpl; [apply near_refl|].
  eapply near_trans; [apply near_new_text|apply IH].
Qed.

Lemma untracked_W parse s i t : W parse s -> W parse (untracked s i t).
Proof.
  intros H. unfold untracked. destruct (dget (cur s) (key i)) eqn:D; auto.
  destruct H as [W1 W2 W3 W4 W5]. split; simpl; auto.
  - intros k r. simpl. rewrite dget_dset, app_length. simpl. destruct (k =? key i).
    + intros E. injection E as <-. lia.
    + intros E. apply W1 in E. lia.
  - intros k r E. apply W2 in E. destruct E as (L & c & N & C). split; auto.
    exists c. split; auto. now apply nth_before.
Qed.

Lemma notify_W parse s f l : W parse s -> W parse (notify parse s f l).
Proof.
  intros H. unfold notify. apply fold_left_inv.
  - destruct (f || differs s l); auto. eapply near_W; [apply near_texts|auto].
  - intros s' e _. apply untracked_W.
Qed.

Lemma check_near parse s i : near s (check parse s i).
Proof.
  unfold check. destruct (dget (cur s) (key i)); [|apply near_refl].
  destruct (to_ast parse s n) eqn:T. simpl. apply ext_near. eapply ext_to_ast; eauto.
Qed.

Lemma step_W parse s e : W parse s -> W parse (step parse s e).
Proof.
  intros H. destruct e; simpl.
  - destruct (run parse s q) as [s' p] eqn:E. simpl. eapply run_W; eauto.
  - now apply notify_W.
  - eapply near_W; [apply check_near|auto].
Qed.

Lemma steps_W parse evs s : W parse s -> W parse (fold_left (step parse) evs s).
Proof. revert s. induction evs; simpl; auto using step_W. Qed.

(** ** C84 *)

Lemma check_keeps P parse s r (b : bool) : soundon P parse s ->
  soundon P parse (if b then snd (to_ast parse s r) else s).
Proof.
  intros A. destruct b; auto. destruct (to_ast parse s r) as [o s'] eqn:T. simpl.
  eapply to_ast_keeps; eauto.
Qed.

Lemma statements_keeps P parse s r o s' : soundon P parse s -> statements parse s r = (o, s') ->
  soundon P parse s'.
Proof.
  unfold statements. intros A. destruct (to_ast parse s r) as [a s1] eqn:T. intros E.
  injection E as _ <-. eapply to_ast_keeps; eauto.
Qed.

Local Opaque to_ast statements.
Lemma after_keeps P parse s r q failed : soundon P parse s -> ~ P r ->
  soundon P parse (after parse s r q failed).
Proof.
  intros A NP. unfold after. destruct (nth_error (heap s) r) as [c|]; auto.
  destruct (c_skip c) as [k|].
  - destruct (c_prev c) as [p|]; auto.
    destruct (to_ast parse s p) as [o s1] eqn:T. eapply to_ast_keeps in T; eauto.
    destruct o as [a|]; auto.
    assert (A2 : soundon P parse (override s1 r a)).
    { intros r' c' PR. unfold override, at_. simpl. rewrite nth_upd.
      destruct (Nat.eqb_spec r' r); [congruence|]. now apply T. }
    set (s3 := match dget (cps (override s1 r a)) k with Some ps => _ | None => _ end).
    assert (A3 : soundon P parse s3) by (unfold s3; destruct (dget (cps (override s1 r a)) k); exact A2).
    destruct (statements parse s3 r) as [o4 s4] eqn:S4. eapply statements_keeps in S4; eauto.
    destruct o4; auto. destruct (dget (by_ctr s4) k); auto.
    destruct (statements parse s4 n) as [o5 s5] eqn:S5. eapply statements_keeps in S5; eauto.
    destruct o5; auto. apply check_keeps. destruct (dget (sts s5) (counter s5)); exact S5.
  - destruct (t_memo (c_text c)); [|now apply check_keeps].
    destruct (failed || negb (q_keep q)); [now apply check_keeps|].
    destruct (c_exec c); auto. destruct (c_ctr c); auto. now apply check_keeps.
Qed.

Lemma after_sound P parse s r q failed c : soundon P parse s -> nth_error (heap s) r = Some c ->
  c_skip c = None -> soundon P parse (after parse s r q failed).
Proof.
  intros A N K. unfold after. rewrite N, K. destruct (t_memo (c_text c)).
  - destruct (failed || negb (q_keep q)); [now apply check_keeps|].
    destruct (c_exec c); auto. destruct (c_ctr c); auto. now apply check_keeps.
  - now apply check_keeps.
Qed.
Local Transparent to_ast statements.

Lemma soundon_app (P : nat -> Prop) parse s h c : heap s = h ++ [c] ->
  (forall r x, P r -> nth_error h r = Some x -> sound parse x) -> (P (length h) -> sound parse c) ->
  soundon P parse s.
Proof.
  intros E A C r x PR N. rewrite E in N. destruct (Nat.lt_ge_cases r (length h)) as [L|L].
  - rewrite nth_error_app1 in N; eauto.
  - rewrite nth_error_app2 in N by lia. destruct (r - length h) as [|d] eqn:D; simpl in N.
    + injection N as <-. apply C. replace (length h) with r by lia. exact PR.
    + destruct d; discriminate.
Qed.

(** A run does not disturb the trees of older cells. *)
Lemma run_keeps (P : nat -> Prop) parse s q : W parse s -> (forall r, P r -> r < length (heap s)) ->
  soundon P parse s -> soundon P parse (fst (run parse s q)).
Proof.
  intros HW L A. unfold run. destruct (before parse s q) as [[s1 r] code] eqn:B.
  apply before_ok in B; [|apply HW]. destruct B as [-> (c & Bh & M) B3 B4 B5 B6 B7 B8 B9 B10].
  destruct (execute parse s1 (length (heap s)) q code) as [[s2 failed] v] eqn:X.
  apply (execute_ok _ _ _ _ _ c) in X; auto. simpl.
  destruct X as [(c' & X1 & X2 & X3 & X4) X5 X6 X7 X8 X9 X10 X11 X12 X13].
  assert (NP : ~ P (length (heap s))) by (intros H; apply L in H; lia).
  assert (S2 : soundon P parse s2) by (eapply soundon_app; [exact X1|exact A|tauto]).
  destruct (q_enabled q); auto. now apply after_keeps.
Qed.

Lemma run_body_sound P parse s q : W parse s -> soundon P parse s ->
  executed parse s q = Body ->
  soundon (fun r => P r \/ r = length (heap s)) parse (fst (run parse s q)).
Proof.
  intros HW A. unfold executed, run. destruct (before parse s q) as [[s1 r] code] eqn:B.
  apply before_ok in B; [|apply HW]. destruct B as [-> (c & Bh & M) B3 B4 B5 B6 B7 B8 B9 B10].
  destruct (execute parse s1 (length (heap s)) q code) as [[s2 failed] v] eqn:X.
  apply (execute_ok _ _ _ _ _ c) in X; auto. simpl. intros ->.
  destruct X as [(c' & X1 & X2 & X3 & X4) X5 X6 X7 X8 X9 X10 X11 X12 X13].
  destruct M as [M1 M2 M3 M4 M5 M6 [M7 M8]].
  assert (S2 : soundon (fun r => P r \/ r = length (heap s)) parse s2).
  { eapply soundon_app; [exact X1| |].
    - intros r x [PR|PR] N; [eapply A; eauto|]. subst. apply nth_lt in N. lia.
    - intros _ t a E1 E2. rewrite X3 in E1.
      destruct M5 as [M5|M5]; rewrite M5 in E1; [discriminate|]. injection E1 as <-.
      destruct X4 as [X4|[X4 _]]; [|congruence]. destruct M6 as [M6|[M6 _]]; congruence. }
  destruct (q_enabled q); auto. apply after_sound with (c := c'); auto.
  - rewrite X1. apply nth_last.
  - destruct X2 as (_ & _ & _ & _ & _ & X2). congruence.
Qed.

Lemma rewire_all mine theirs : length mine = length theirs -> rewire mine (length theirs) theirs = theirs.
Proof.
  revert theirs. induction mine as [|m mine IH]; intros [|p theirs]; simpl; intros E; try discriminate; auto.
  f_equal. apply IH. congruence.
Qed.

Lemma ext_nth s s' r c : ext s s' -> nth_error (heap s) r = Some c ->
  exists c', nth_error (heap s') r = Some c' /\ kin c c'.
Proof.
  intros [_ H] N. specialize (H r). rewrite N in H. unfold okin in H.
  destruct (nth_error (heap s') r); [eauto|contradiction].
Qed.

Lemma statements_known (P : nat -> Prop) parse s r c n a ps : soundon P parse s -> P r ->
  nth_error (heap s) r = Some c ->
  c_ctr c = Some n -> parsed parse (t_body (c_text c)) = Some a -> dget (sts s) n = Some ps ->
  length a = length ps ->
  exists s', statements parse s r = (Some ps, s') /\ soundon P parse s' /\ ext s s'.
Proof.
  intros A PR N C PA D L. unfold statements. destruct (to_ast parse s r) as [o s'] eqn:T.
  assert (E := ext_to_ast _ _ _ _ _ T). eapply to_ast_soundon in T; eauto. destruct T as [A' T].
  rewrite (T _ N), PA. destruct (ext_nth _ _ _ _ E N) as (c' & N' & K). rewrite N'. simpl.
  destruct K as (_ & K & _). rewrite <- K, C.
  destruct E as [ER EH]. assert (ES : sts s = sts s') by (unfold rest in ER; congruence).
  rewrite <- ES, D, L, Nat.leb_refl, firstn_all. exists s'. split; auto. split; auto. split; auto.
Qed.

Lemma run_reused (P : nat -> Prop) parse s q s' rep k a t p : W parse s -> soundon P parse s ->
  run parse s q = (s', rep) ->
  p_code rep = Reused k a -> contents s (id_of s q) = Some t -> t_body t = t_body (q_text q) ->
  dget (cur s) (key (id_of s q)) = Some p -> P p ->
  soundon (fun r => P r \/ r = length (heap s)) parse s' /\
  (forall ps tk rk, contents_of_run s k = Some tk -> t_body tk = t_body (q_text q) ->
     dget (by_ctr s) k = Some rk -> P rk ->
     dget (sts s) k = Some ps -> dget (sts s') (S (counter s)) = Some ps) /\
  (forall ps, dget (cps s) k = Some ps -> dget (cps s') (S (counter s)) = Some ps).
Proof.
  intros HW A. unfold run. destruct (before parse s q) as [[s1 r] code] eqn:B.
  apply before_ok in B; [|apply HW]. destruct B as [-> (c & Bh & M) B3 B4 B5 B6 B7 B8 B9 B10].
  destruct (execute parse s1 (length (heap s)) q code) as [[s2 failed] v] eqn:X.
  apply (execute_ok _ _ _ _ _ c) in X; auto. intros E EC CT BT CU PP. injection E as E1 E2. subst rep.
  simpl in EC. subst code. rewrite <- E1. clear E1.
  destruct X as [(c' & X1 & X2 & X3 & X4) X5 X6 X7 X8 X9 X10 X11 X12 X13].
  destruct M as [M1 M2 M3 M4 M5 M6 (M7 & M8 & M9 & M10 & M11 & M12 & M13 & (p' & M14) & x & M15)].
  assert (p' = p) by congruence. subst p'.
  rewrite M9. set (n := length (heap s)) in *.
  rewrite M15 in B10.
  (* the previous cell *)
  unfold contents in CT. rewrite M14 in CT.
  destruct (nth_error (heap s) p) as [cp|] eqn:NP; [|discriminate]. simpl in CT. injection CT as CT.
  assert (LP : p < n) by (eapply nth_lt; eauto).
  assert (NP2 : nth_error (heap s2) p = Some cp) by (rewrite X1; now apply nth_before).
  assert (NR2 : nth_error (heap s2) n = Some c') by (rewrite X1; apply nth_last).
  destruct X2 as (K1 & K2 & K3 & K4 & K5 & K6).
  set (P' := fun r => P r /\ r < n).
  assert (A2 : soundon P' parse s2).
  { eapply soundon_app; [exact X1| |].
    - intros r y [PR _] N. eapply A; eauto.
    - intros [_ PR]. fold n in PR. lia. }
  assert (Pprev : parsed parse (t_body (c_text cp)) = Some x) by congruence.
  unfold after. rewrite NR2, <- K6, M8, <- K5, M4, M14.
  destruct (to_ast parse s2 p) as [o s3] eqn:T.
  assert (NR3 : nth_error (heap s3) n = Some c').
  { rewrite (to_ast_other _ _ _ _ _ _ T); auto. lia. }
  assert (E3 := ext_to_ast _ _ _ _ _ T).
  eapply to_ast_soundon in T; [|exact A2|split; auto]. destruct T as [A3 T].
  rewrite (T _ NP2), Pprev. clear T.
  set (s4 := override s3 n x).
  set (P4 := fun r => P' r \/ r = n).
  assert (A4 : soundon P4 parse s4).
  { apply override_sound; auto. intros c0 t0 N0 L0. rewrite NR3 in N0. injection N0 as <-.
    rewrite X3 in L0. destruct M5 as [M5|M5]; rewrite M5 in L0; [discriminate|].
    injection L0 as <-. exact M15. }
  assert (E4 : ext s2 s4) by (eapply ext_trans; [exact E3|apply ext_override]).
  set (s5 := match dget (cps s4) k with Some ps => _ | None => s4 end).
  assert (H5 : heap s5 = heap s4 /\ counter s5 = counter s4 /\ sts s5 = sts s4 /\ by_ctr s5 = by_ctr s4).
  { unfold s5. destruct (dget (cps s4) k); auto. }
  destruct H5 as (H5 & C5 & T5 & Y5).
  assert (A5 : soundon P4 parse s5) by (intros r0 c0 PR; rewrite H5; now apply A4).
  assert (E4' := E4). destruct E4 as [R4 H4]. unfold rest in R4. injection R4 as V0 V1 V2 V3 V4 V5 V6 V7.
  assert (R41 : by_ctr s2 = by_ctr s4) by exact V1. assert (R42 : counter s2 = counter s4) by exact V2.
  assert (R46 : sts s2 = sts s4) by exact V6. assert (R47 : cps s2 = cps s4) by exact V7.
  clear V0 V1 V2 V3 V4 V5 V6 V7. clearbody s4.
  assert (CN : counter s5 = S (counter s)) by congruence.
  assert (P5 : forall ps, dget (cps s) k = Some ps -> dget (cps s5) (S (counter s)) = Some ps).
  { intros ps D. unfold s5. rewrite <- R47, X13, B9, D. cbn [cps with_cps]. rewrite dget_dset.
    rewrite <- R42, X7, B5, Nat.eqb_refl. auto. }
  destruct (ext_nth s2 s4 n c' E4' NR2) as (c4 & N4 & KK).
  rewrite <- H5 in N4. destruct KK as (Q1 & Q2 & Q3 & _).
  assert (D5 : dget (sts s5) (S (counter s)) = Some (map (fun _ => []) x)).
  { rewrite T5, <- R46, X12, B10, dget_dset, Nat.eqb_refl. auto. }
  destruct (statements_known P4 parse s5 n c4 (S (counter s)) x (map (fun _ => []) x))
    as (s6 & S6 & A6 & E6); auto; try congruence; [now right|now rewrite map_length|].
  rewrite S6. destruct E6 as [R6 H6]. unfold rest in R6. injection R6 as R60 R61 R62 R63 R64 R65 R66 R67.
  assert (P6 : forall ps, dget (cps s) k = Some ps -> dget (cps s6) (S (counter s)) = Some ps)
    by (intros; rewrite <- R67; auto).
  (* what the invariant is to be for *)
  assert (FIN : forall s8, soundon P4 parse s8 -> heap s8 <> [] ->
            (forall r y, nth_error (heap s8) r = Some y -> r <= n) ->
            soundon (fun r => P r \/ r = n) parse s8).
  { intros s8 A8 _ L8 r0 y PR N. destruct PR as [PR|PR]; [|exact (A8 _ _ (or_intror PR) N)].
    destruct (Nat.eq_dec r0 n) as [Q|Q]; [exact (A8 _ _ (or_intror Q) N)|].
    assert (PR4 : P4 r0) by (left; split; [exact PR|]; specialize (L8 _ _ N); lia).
    exact (A8 _ _ PR4 N). }
  assert (L2 : length (heap s2) = S n) by (rewrite X1, app_length; simpl; unfold n; lia).
  assert (L6 : length (heap s6) = S n).
  { rewrite <- (okin_length _ _ H6), H5, <- (okin_length _ _ H4). exact L2. }
  assert (FIN' : forall s8, soundon P4 parse s8 -> length (heap s8) = S n ->
            soundon (fun r => P r \/ r = n) parse s8).
  { intros s8 A8 L8. apply FIN; auto.
    - intros H8. rewrite H8 in L8. discriminate.
    - intros r0 y N. apply nth_lt in N. lia. }
  assert (BY : dget (by_ctr s6) k = dget (by_ctr s) k).
  { rewrite <- R61, Y5, <- R41, X6, B4, dget_dset. destruct (Nat.eqb_spec k (S (counter s))); [lia|auto]. }
  rewrite BY. destruct (dget (by_ctr s) k) as [rk|] eqn:DK.
  2:{ split; [now apply FIN'|]. split; auto. intros ps tk rk _ _ D. discriminate. }
  destruct (w_by _ _ HW _ _ DK) as (Lk & ck & Nk & Ck).
  assert (LK : rk < n) by (eapply nth_lt; eauto).
  assert (NK2 : nth_error (heap s2) rk = Some ck) by (rewrite X1; now apply nth_before).
  destruct (ext_nth s2 s4 rk ck E4' NK2) as (ck4 & Nk4 & KK4). rewrite <- H5 in Nk4.
  destruct (ext_nth s5 s6 rk ck4) as (ck6 & Nk6 & KK6); auto.
  { split; auto. unfold rest. congruence. }
  assert (KK := kin_trans _ _ _ KK4 KK6). destruct KK as (Z1 & Z2 & Z3 & _).
  destruct (w_table _ _ HW _ _ M10) as (_ & x' & Px & Lx).
  assert (x' = x) by congruence. subst x'.
  assert (DS6 : dget (sts s6) k = dget (sts s) k).
  { rewrite <- R66, T5, <- R46, X12, B10, dget_dset.
    destruct (Nat.eqb_spec k (S (counter s))); [lia|auto]. }
  destruct (statements parse s6 rk) as [o7 s7] eqn:S7.
  assert (A7 := statements_keeps _ _ _ _ _ _ A6 S7).
  assert (E7 := ext_statements _ _ _ _ _ S7).
  destruct E7 as [R7 H7]. unfold rest in R7. injection R7 as R70 R71 R72 R73 R74 R75 R76 R77.
  assert (L7 : length (heap s7) = S n) by (rewrite <- (okin_length _ _ H7); exact L6).
  assert (P7 : forall ps, dget (cps s) k = Some ps -> dget (cps s7) (S (counter s)) = Some ps)
    by (intros; rewrite <- R77; auto).
  assert (KN : forall ps tk rk', contents_of_run s k = Some tk -> t_body tk = t_body (q_text q) ->
            Some rk = Some rk' -> P rk' -> dget (sts s) k = Some ps -> o7 = Some ps).
  { intros ps tk rk' CK BK RK PK D. injection RK as <-. unfold contents_of_run in CK.
    rewrite DK, Nk in CK. simpl in CK. injection CK as CK.
    destruct (statements_known P4 parse s6 rk ck6 k x ps) as (s7' & S7' & _); auto; try congruence.
    - left. split; auto.
    - symmetry. auto. }
  destruct o7 as [theirs|].
  2:{ split; [now apply FIN'|]. split; auto. intros ps tk rk' CK BK RK PK D. exfalso.
      specialize (KN ps tk rk' CK BK RK PK D). discriminate. }
  rewrite <- R72, <- R76, <- R62, <- R66, CN, D5.
  assert (EX : forall (b : bool) s8, rest (if b then snd (to_ast parse s8 n) else s8) = rest s8 /\
                 length (heap (if b then snd (to_ast parse s8 n) else s8)) = length (heap s8)).
  { intros b s8. destruct (ext_check parse s8 n b) as [ER EH]. split; [congruence|].
    symmetry. now apply okin_length. }
  split; [|split].
  - apply FIN'.
    + apply check_keeps. intros r0 c0 PR N0. eapply A7; eauto.
    + match goal with |- length (heap (if ?b then snd (to_ast parse ?s8 n) else _)) = _ =>
        destruct (EX b s8) as [_ ->] end. exact L7.
  - intros ps tk rk' CK BK RK PK D. specialize (KN ps tk rk' CK BK RK PK D). injection KN as ->.
    match goal with |- dget (sts (if ?b then snd (to_ast parse ?s8 n) else _)) _ = _ =>
      destruct (EX b s8) as [ER _]; assert (ES : sts (if b then snd (to_ast parse s8 n) else s8) = sts s8)
        by (unfold rest in ER; congruence) end.
    rewrite ES. cbn [sts with_sts]. rewrite dget_dset, Nat.eqb_refl. f_equal.
    rewrite map_length, <- (Lx _ D). apply rewire_all. rewrite map_length. symmetry. auto.
  - intros ps D.
    match goal with |- dget (cps (if ?b then snd (to_ast parse ?s8 n) else _)) _ = _ =>
      destruct (EX b s8) as [ER _]; assert (ES : cps (if b then snd (to_ast parse s8 n) else s8) = cps s8)
        by (unfold rest in ER; congruence) end.
    rewrite ES. cbn [cps with_sts]. auto.
Qed.

Lemma set_text_sound P parse s r t : soundon P parse s -> soundon P parse (at_ s r (fun c => set_text c t)).
Proof.
  intros A r' c PR. unfold at_. simpl. rewrite nth_upd.
  destruct (Nat.eqb_spec r' r) as [Q|Q]; [|now apply A]. subst r'.
  destruct (nth_error (heap s) r) as [x|] eqn:N; simpl; [|discriminate]. intros E. injection E as <-.
  apply A in N; auto.
Qed.

Lemma new_text_sound P parse s i t : soundon P parse s -> soundon P parse (new_text parse s i t).
Proof.
  intros A. unfold new_text. destruct (dget (cur s) (key (Given i))) as [r|]; auto.
  destruct (nth_error (heap s) r) as [c|]; auto.
  destruct (to_ast parse (at_ s r (fun c => set_text c t)) r) as [o s1] eqn:T.
  apply (to_ast_keeps P) in T; [|now apply set_text_sound]. destruct o; auto. now apply set_text_sound.
Qed.

(** The cells with ids that are not in [bad] have sound trees. *)
Definition good (parse : parser) (bad : list cid) (s : st) : Prop :=
  forall i r c, ~ In i bad -> dget (cur s) (key i) = Some r -> nth_error (heap s) r = Some c ->
    sound parse c.

Lemma good_soundon parse bad s : good parse bad s <->
  soundon (fun r => exists i, ~ In i bad /\ dget (cur s) (key i) = Some r) parse s.
Proof.
  unfold good, soundon. split.
  - intros G r c (i & I & D) N. eauto.
  - intros G i r c I D N. eauto.
Qed.

Lemma untracked_good parse s i t bad : W parse s -> good parse bad s -> good parse bad (untracked s i t).
Proof.
  intros HW G. unfold untracked. destruct (dget (cur s) (key i)) eqn:D; auto.
  intros j r c I E N. simpl in *. rewrite dget_dset in E.
  destruct (Nat.eqb_spec (key j) (key i)) as [Q|Q].
  - injection E as <-. rewrite nth_last in N. injection N as <-. intros t' a X. discriminate.
  - assert (L := w_refs _ _ HW _ _ E). rewrite nth_error_app1 in N by auto. eapply G; eauto.
Qed.

Lemma texts_good parse bad l s : good parse bad s ->
  good parse bad (fold_left (fun s e => new_text parse s (fst e) (snd e)) l s).
Proof.
  revert s. induction l as [|e l IH]; intros s G; simpl; auto. apply IH.
  apply good_soundon. apply good_soundon in G.
  assert (E : cur (new_text parse s (fst e) (snd e)) = cur s).
  { destruct (near_new_text parse s (fst e) (snd e)) as [E _ _]. unfold rest in E. congruence. }
  rewrite E. now apply new_text_sound.
Qed.

Lemma step_good parse s e bad : W parse s -> good parse bad s ->
  good parse (mark parse s bad e) (step parse s e).
Proof.
  intros HW G. destruct e as [q|f l|i]; simpl.
  - destruct (run parse s q) as [s' p] eqn:E. simpl.
    assert (R := run_ok _ _ _ _ _ (w_refs _ _ HW) E).
    destruct R as [R1 R2 R3 R4 R5 R6 R7 R8 R9 R10 R11 R12 R13 R14].
    set (P := fun r => exists i, ~ In i bad /\ dget (cur s) (key i) = Some r).
    assert (GS : soundon P parse s) by (now apply good_soundon).
    assert (PL : forall r, P r -> r < length (heap s)).
    { intros r (i & _ & D). eapply (w_refs _ _ HW); eauto. }
    assert (KP : soundon P parse s').
    { replace s' with (fst (run parse s q)) by now rewrite E. now apply run_keeps. }
    assert (OLD : forall j r c, ~ In j bad -> j <> id_of s q -> dget (cur s') (key j) = Some r ->
              nth_error (heap s') r = Some c -> sound parse c).
    { intros j r c I Q D N. rewrite R3, dget_dset in D.
      destruct (Nat.eqb_spec (key j) (key (id_of s q))) as [K|K]; [apply key_inj in K; congruence|].
      eapply KP; [|exact N]. exists j. auto. }
    assert (XP : executed parse s q = p_code p) by (unfold executed; now rewrite E).
    rewrite XP. destruct (p_code p) as [|a|k a] eqn:PC.
    + assert (NEW := run_body_sound P parse s q HW GS XP). rewrite E in NEW. simpl in NEW.
      intros j r c I D N. destruct (cid_eqb (id_of s q) j) eqn:CE.
      * apply cid_eqb_eq in CE. subst j. rewrite R3, dget_dset, Nat.eqb_refl in D. injection D as <-.
        eapply NEW; [|exact N]. now right.
      * eapply OLD; eauto.
        -- intros B. apply I. apply filter_In. rewrite CE. auto.
        -- intros Q. subst j. rewrite cid_eqb_refl in CE. discriminate.
    + intros j r c I D N. eapply OLD; eauto; [intros B; apply I; now right|].
      intros Q. subst j. apply I. now left.
    + unfold same_body. destruct (contents s (id_of s q)) as [t|] eqn:CT.
      * destruct (t_body t =? t_body (q_text q)) eqn:BT.
        -- apply Nat.eqb_eq in BT. intros j r c I D N.
           destruct (cid_eqb (id_of s q) j) eqn:CE.
           ++ apply cid_eqb_eq in CE. subst j. rewrite R3, dget_dset, Nat.eqb_refl in D.
              injection D as <-.
              destruct R12 as (c0 & [_ _ _ _ _ _ (_ & _ & _ & _ & _ & _ & _ & (pr & M14) & _)]).
              assert (PP : P pr) by (exists (id_of s q); auto).
              destruct (run_reused P parse s q s' p k a t pr HW GS E PC CT BT M14 PP) as [NEW _].
              eapply NEW; [|exact N]. now right.
           ++ eapply OLD; eauto. intros Q. subst j. rewrite cid_eqb_refl in CE. discriminate.
        -- intros j r c I D N. eapply OLD; eauto; [intros B; apply I; now right|].
           intros Q. subst j. apply I. now left.
      * intros j r c I D N. eapply OLD; eauto; [intros B; apply I; now right|].
        intros Q. subst j. apply I. now left.
  - unfold notify.
    set (s1 := if f || differs s l then _ else s).
    assert (W1 : W parse s1).
    { unfold s1. destruct (f || differs s l); auto. eapply near_W; [apply near_texts|auto]. }
    assert (G1 : good parse bad s1) by (unfold s1; destruct (f || differs s l); auto using texts_good).
    clearbody s1. revert s1 W1 G1. induction l as [|e l IH]; intros s1 W1 G1; simpl; auto.
    apply IH; auto using untracked_W, untracked_good.
  - unfold check. destruct (dget (cur s) (key i)) as [r|]; auto.
    apply good_soundon. apply good_soundon in G.
    assert (EC := ext_check parse s r true). simpl in EC. destruct EC as [ER _].
    assert (E : cur (snd (to_ast parse s r)) = cur s) by (unfold rest in ER; congruence).
    rewrite E. now apply (check_keeps _ _ _ _ true).
Qed.

Lemma steps_good parse evs : forall s bad, W parse s -> good parse bad s ->
  W parse (fold_left (step parse) evs s) /\
  good parse (spoiled parse s bad evs) (fold_left (step parse) evs s).
Proof.
  induction evs as [|e evs IH]; intros s bad HW G; simpl; auto.
  apply IH; auto using step_W, step_good.
Qed.

Lemma init_good parse : good parse [] init.
Proof. intros i r c _ _ N. destruct r; discriminate. Qed.

Lemma analysed_sound parse s i t bad : good parse bad s -> ~ In i bad -> contents s i = Some t ->
  analysed parse s i = parsed parse (t_body t).
Proof.
  unfold contents, analysed. intros G I. destruct (dget (cur s) (key i)) as [r|] eqn:D; [|discriminate].
  destruct (nth_error (heap s) r) as [c|] eqn:N; simpl; [|discriminate]. intros E. injection E as <-.
  destruct (to_ast parse s r) as [o s'] eqn:T. apply good_soundon in G.
  apply (to_ast_soundon _ _ _ _ _ _ G) in T; [|eauto]. simpl. destruct T as [_ T]. auto.
Qed.

(** ** C85 *)

(** The cells of recorded runs have sound trees. *)
Definition recorded (s : st) (r : nat) : Prop :=
  exists b k, In (b, k) (table s) /\ dget (by_ctr s) k = Some r.

Lemma step_recorded parse s e : W parse s -> soundon (recorded s) parse s ->
  soundon (recorded (step parse s e)) parse (step parse s e).
Proof.
  intros HW G.
  assert (NE : forall s', near s s' -> soundon (recorded s) parse s' -> soundon (recorded s') parse s').
  { intros s' [E _ _] A r c (b & k & I & D). apply A. exists b, k. unfold rest in E.
    injection E as E0 E1 E2 E3 E4 E5 E6 E7. split; congruence. }
  destruct e as [q|f l|i]; simpl.
  - destruct (run parse s q) as [s' p] eqn:E. simpl.
    assert (R := run_ok _ _ _ _ _ (w_refs _ _ HW) E).
    destruct R as [R1 R2 R3 R4 R5 R6 R7 R8 R9 R10 R11 R12 R13 R14].
    assert (PL : forall r, recorded s r -> r < length (heap s)).
    { intros r (b & k & _ & D). apply (w_by _ _ HW) in D. destruct D as (_ & c & N & _).
      eapply nth_lt; eauto. }
    assert (KP : soundon (recorded s) parse s').
    { replace s' with (fst (run parse s q)) by now rewrite E. now apply run_keeps. }
    assert (OLD : forall b k r, In (b, k) (table s) -> dget (by_ctr s') k = Some r -> recorded s r).
    { intros b k r I D. exists b, k. split; auto. rewrite R4, dget_dset in D.
      destruct (Nat.eqb_spec k (S (counter s))) as [Q|Q]; auto.
      exfalso. apply (w_table _ _ HW) in I. destruct I as [I _]. lia. }
    destruct R14 as [R14|(PB & R14 & _)].
    + intros r c (b & k & I & D) N. rewrite R14 in I. exact (KP _ _ (OLD _ _ _ I D) N).
    + intros r c (b & k & I & D) N. rewrite R14 in I. apply in_app_iff in I.
      destruct I as [I|[I|[]]]; [exact (KP _ _ (OLD _ _ _ I D) N)|]. injection I as <- <-.
      rewrite R4, dget_dset, Nat.eqb_refl in D. injection D as <-.
      assert (XP : executed parse s q = Body) by (unfold executed; now rewrite E).
      assert (NEW := run_body_sound _ parse s q HW G XP). rewrite E in NEW.
      exact (NEW _ _ (or_intror eq_refl) N).
  - unfold notify.
    set (s1 := if f || differs s l then _ else s).
    assert (N1 : near s s1) by (unfold s1; destruct (f || differs s l); [apply near_texts|apply near_refl]).
    assert (G1 : soundon (recorded s1) parse s1).
    { apply NE; auto. unfold s1. destruct (f || differs s l); auto.
      apply fold_left_inv; auto. intros. now apply new_text_sound. }
    assert (W1 := near_W _ _ _ N1 HW). clearbody s1. clear N1.
    revert s1 W1 G1. induction l as [|e l IH]; intros s1 W1 G1; simpl; auto.
    apply IH; auto using untracked_W. unfold untracked.
    destruct (dget (cur s1) (key (Given (fst e)))); auto.
    intros r c (b & k & I & D) N. simpl in *.
    assert (D' := D). apply (w_by _ _ W1) in D'. destruct D' as (_ & c0 & N0 & _).
    rewrite nth_error_app1 in N by (eapply nth_lt; eauto). apply (G1 r c); [|exact N]. exists b, k. auto.
  - apply NE; [apply check_near|]. unfold check. destruct (dget (cur s) (key i)) as [r|]; auto.
    now apply (check_keeps _ _ _ _ true).
Qed.

Lemma steps_recorded parse evs : forall s, W parse s -> soundon (recorded s) parse s ->
  soundon (recorded (fold_left (step parse) evs s)) parse (fold_left (step parse) evs s).
Proof.
  induction evs as [|e evs IH]; intros s HW G; simpl; auto. apply IH; auto using step_W, step_recorded.
Qed.

Lemma init_recorded parse : soundon (recorded init) parse init.
Proof. intros r c _ N. destruct r; discriminate. Qed.

Lemma reused_run parse s q s' p k a t tk bad : W parse s -> good parse bad s ->
  soundon (recorded s) parse s -> run parse s q = (s', p) -> p_code p = Reused k a ->
  contents s (id_of s q) = Some t -> t_body t = t_body (q_text q) -> ~ In (id_of s q) bad ->
  contents_of_run s k = Some tk -> t_body tk = t_body (q_text q) ->
  (forall ps, dget (sts s) k = Some ps -> dget (sts s') (counter s') = Some ps) /\
  (forall ps, dget (cps s) k = Some ps -> dget (cps s') (counter s') = Some ps).
Proof.
  intros HW G GR E PC CT BT NB CK BK.
  assert (R := run_ok _ _ _ _ _ (w_refs _ _ HW) E).
  rewrite (r_ctr _ _ _ _ _ R). destruct (r_code _ _ _ _ _ R) as (c0 & M). rewrite PC in M.
  destruct M as [_ _ _ _ _ _ (_ & _ & _ & M10 & _ & _ & _ & (pr & M14) & _)].
  set (P := fun r => (exists i, ~ In i bad /\ dget (cur s) (key i) = Some r) \/ recorded s r).
  assert (GS : soundon P parse s).
  { apply good_soundon in G. intros r c [PR|PR] N; [exact (G _ _ PR N)|exact (GR _ _ PR N)]. }
  assert (PP : P pr) by (left; eauto).
  destruct (run_reused P parse s q s' p k a t pr HW GS E PC CT BT M14 PP) as (_ & H1 & H2).
  split; auto. intros ps D. assert (CK' := CK). unfold contents_of_run in CK'.
  destruct (dget (by_ctr s) k) as [rk|] eqn:DK; [|discriminate].
  apply (H1 ps tk rk); auto. right. exists (t_body (q_text q)), k. auto.
Qed.

(** ** C86 *)

Lemma last_result_app l p i v :
  last_result (l ++ [p]) i v =
  if cid_eqb (p_id p) i then match p_code p with Body => p_shown p | _ => last_result l i v end
  else last_result l i v.
Proof.
  revert v. induction l as [|x l IH]; intros v; simpl; [reflexivity|]. apply IH.
Qed.

Definition J (s : st) (log : list report) : Prop :=
  forall i, match dget (cur s) (key i) with
            | Some r => exists c, nth_error (heap s) r = Some c /\
                match c_ctr c with
                | Some n => n <= counter s /\ dget (outs s) n = last_result log i None
                | None => last_result log i None = None
                end
            | None => last_result log i None = None
            end.

Lemma near_J s s' log : near s s' -> J s log -> J s' log.
Proof.
  intros [E L H] G i. specialize (G i). unfold rest in E. injection E as E0 E1 E2 E3 E4 E5 E6 E7.
  rewrite <- E0, <- E2, <- E5. destruct (dget (cur s) (key i)); auto.
  destruct G as (c & N & G). apply H in N. destruct N as (c' & N & C & _). exists c'. split; auto.
  now rewrite C.
Qed.

Lemma untracked_J s i t log : J s log -> J (untracked s i t) log.
Proof.
  intros G. unfold untracked. destruct (dget (cur s) (key i)) eqn:D; auto.
  intros j. specialize (G j). simpl. rewrite dget_dset. destruct (Nat.eqb_spec (key j) (key i)) as [Q|Q].
  - apply key_inj in Q. subst j. rewrite D in G. eexists. split; [apply nth_last|]. simpl. auto.
  - destruct (dget (cur s) (key j)); auto. destruct G as (c & N & G). exists c. split; auto.
    now apply nth_before.
Qed.

Lemma run_J parse s q s' p log : W parse s -> J s log -> run parse s q = (s', p) ->
  ~ reused p -> J s' (log ++ [p]) /\ (held p -> p_shown p = last_result log (p_id p) None).
Proof.
  intros HW G E NR. assert (R := run_ok _ _ _ _ _ (w_refs _ _ HW) E).
  destruct R as [R1 R2 R3 R4 R5 R6 R7 R8 R9 R10 R11 (c & R12) R13 R14].
  assert (HS : held p -> p_shown p = last_result log (p_id p) None).
  { intros (a & HA). rewrite HA in R13, R12. destruct R12 as [_ _ _ _ _ _ (_ & _ & _ & _ & _ & _ & MA)].
    rewrite R13, MA, R1. specialize (G (id_of s q)). destruct (dget (cur s) (key (id_of s q))) as [r|]; auto.
    destruct G as (c' & N & G). rewrite N. simpl. destruct (c_ctr c'); auto. tauto. }
  split; auto. intros i. rewrite last_result_app, R3, dget_dset, R1, R2.
  destruct (Nat.eqb_spec (key i) (key (id_of s q))) as [Q|Q].
  - apply key_inj in Q. subst i. rewrite cid_eqb_refl.
    destruct R8 as (c' & N & _ & C & _). exists c'. split; auto. rewrite C. split; auto.
    assert (O : dget (outs s') (S (counter s)) = p_shown p).
    { rewrite R6. destruct (p_shown p); [now rewrite dget_dset, Nat.eqb_refl|].
      apply (w_outs _ _ HW). lia. }
    rewrite O. destruct (p_code p) eqn:PC; auto.
    + rewrite <- R1. apply HS. exists show. auto.
    + exfalso. apply NR. exists k, show. auto.
  - assert (NE : cid_eqb (id_of s q) i = false).
    { destruct (cid_eqb (id_of s q) i) eqn:CE; auto. apply cid_eqb_eq in CE. subst. now destruct Q. }
    rewrite NE. specialize (G i). destruct (dget (cur s) (key i)); auto.
    destruct G as (c' & N & G). apply R7 in N. destruct N as (c2 & N & (_ & KC & _)).
    exists c2. split; auto. rewrite <- KC. destruct (c_ctr c'); auto. destruct G as [G1 G2].
    split; [lia|]. rewrite R6. destruct (p_shown p); auto. rewrite dget_dset.
    destruct (Nat.eqb_spec n0 (S (counter s))); [lia|auto].
Qed.

Lemma step_J parse s e log : is_run e = false -> J s log -> J (step parse s e) log.
Proof.
  destruct e; simpl; [discriminate| |]; intros _ G.
  - unfold notify. apply fold_left_inv.
    + destruct (force || differs s l); auto. eapply near_J; [apply near_texts|auto].
    + intros. now apply untracked_J.
  - eapply near_J; [apply check_near|auto].
Qed.

Lemma held_shown parse evs : forall s log, W parse s -> J s log ->
  Forall (fun p => ~ reused p) (logs parse s evs) ->
  forall pre e post, logs parse s evs = pre ++ e :: post -> held e ->
  p_shown e = last_result (log ++ pre) (p_id e) None.
Proof.
  induction evs as [|ev evs IH]; intros s log HW G F pre e post E HE.
  - destruct pre; discriminate.
  - destruct (is_run ev) eqn:R.
    + destruct ev as [q| |]; try discriminate. destruct (run parse s q) as [s' p] eqn:RU.
      assert (LE : logs parse s (Run q :: evs) = p :: logs parse s' evs)
        by (simpl; now rewrite RU).
      rewrite LE in F, E. inversion F as [|x y F1 F2]; subst.
      destruct (run_J _ _ _ _ _ _ HW G RU F1) as [J1 J2]. destruct pre as [|x pre].
      * simpl in E. injection E as E _. subst e. rewrite app_nil_r. auto.
      * simpl in E. injection E as E1 E2. subst x.
        rewrite (IH s' (log ++ [p]) (run_W _ _ _ _ _ HW RU) J1 F2 pre e post E2 HE).
        now rewrite <- app_assoc.
    + assert (LE : logs parse s (ev :: evs) = logs parse (step parse s ev) evs)
        by (destruct ev; [discriminate| |]; reflexivity).
      rewrite LE in F, E. apply (IH (step parse s ev) log) with (post := post); auto using step_W, step_J.
Qed.

Lemma J_init : J init [].
Proof. intros i. simpl. destruct (key i); reflexivity. Qed.

Lemma lastrun_near s s' : near s s' -> lastrun s' = lastrun s /\ counter s' = counter s.
Proof. intros [E _ _]. unfold rest in E. split; congruence. Qed.

Lemma lastrun_step parse s e : is_run e = false ->
  lastrun (step parse s e) = lastrun s /\ counter (step parse s e) = counter s.
Proof.
  assert (U : forall s i t, lastrun (untracked s i t) = lastrun s /\ counter (untracked s i t) = counter s).
  { intros x i t. unfold untracked. destruct (dget (cur x) (key i)); auto. }
  destruct e; simpl; [discriminate| |]; intros _.
  - unfold notify.
    assert (F : forall l x, lastrun (fold_left (fun s e => untracked s (Given (fst e)) (snd e)) l x) = lastrun x /\
                counter (fold_left (fun s e => untracked s (Given (fst e)) (snd e)) l x) = counter x).
    { clear - U. induction l as [|e l IH]; intros x; simpl; auto.
      destruct (IH (untracked x (Given (fst e)) (snd e))) as [A B].
      destruct (U x (Given (fst e)) (snd e)) as [C D]. split; congruence. }
    destruct (F l (if force || differs s l then fold_left (fun s e => new_text parse s (fst e) (snd e)) l s else s))
      as [A B]. rewrite A, B. destruct (force || differs s l); auto.
    apply lastrun_near, near_texts.
  - apply lastrun_near, check_near.
Qed.

Lemma held_cause parse s q a : W parse s -> executed parse s q = HeldBack a ->
  q_enabled q = true /\ q_warn q = true /\ q_unsafe q = true /\
  lastrun s <> Some (id_of s q, t_body (q_text q)).
Proof.
  intros HW. unfold executed. destruct (run parse s q) as [s' p] eqn:E. simpl. intros X.
  apply run_ok in E; [|apply HW]. destruct E as [_ _ _ _ _ _ _ _ _ _ _ (c & M) _ _].
  rewrite X in M. destruct M as [_ _ _ _ _ _ (_ & _ & M1 & M2 & M3 & M4 & _)].
  repeat split; auto. intros L. rewrite L in M4. simpl in M4.
  now rewrite cid_eqb_refl, Nat.eqb_refl in M4.
Qed.

(** A run without an id that the checker warns of is held back. *)
Lemma auto_held parse s q x : q_id q = None -> q_enabled q = true -> q_traced q = true ->
  q_warn q = true -> q_unsafe q = true -> t_memo (q_text q) = None ->
  parsed parse (t_body (q_text q)) = Some x ->
  (forall m b, lastrun s = Some (Auto m, b) -> m <= counter s) ->
  exists a, executed parse s q = HeldBack a.
Proof.
  intros Q1 Q2 Q3 Q4 Q5 Q6 P L. unfold executed, run.
  assert (B : exists s' r a, before parse s q = (s', r, HeldBack a)).
  { unfold before, create. rewrite Q1, Q2, Q3, Q4, Q5. simpl.
    rewrite !upd_last, nth_last. simpl. unfold memo_ctr. simpl. rewrite Q6.
    unfold at_, with_last, with_heap. simpl. rewrite ?upd_last.
    match goal with |- context [to_ast parse (mkSt (_ ++ [?c]) ?a ?b ?d ?e ?f ?g ?h ?i) _] =>
      rewrite (to_ast_new parse (heap s) c (mkSt (heap s ++ [c]) a b d e f g h i) eq_refl eq_refl) end.
    simpl. rewrite P.
    assert (RE : repeats (lastrun s) (Auto (S (counter s))) (t_body (q_text q)) = false).
    { unfold repeats. destruct (lastrun s) as [[[m|m] b]|] eqn:E; auto. simpl.
      specialize (L m b eq_refl). destruct (Nat.eqb_spec (S (counter s)) m) as [EQ|NE]; [lia|].
      destruct m; auto. destruct (Nat.eqb_spec (counter s) m); [lia|auto]. }
    rewrite RE. simpl. eauto. }
  destruct B as (s' & r & a & B). rewrite B.
  destruct (execute parse s' r q (HeldBack a)) as [[s2 f] v]. simpl. eauto.
Qed.
