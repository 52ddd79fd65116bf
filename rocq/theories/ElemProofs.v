(** Proofs about the symbols for the elements of a list. *)
Require Import List ZArith Bool Arith Lia.
Import ListNotations.
Require Import Verif.Base Verif.ElemModel Verif.ElemSpec.
Local Open Scope Z_scope.

(** ** Tables *)
Lemma zget_zdel d k k' : zget (zdel d k) k' = if k' =? k then None else zget d k'.
Proof.
  induction d as [|[j v] d IH]; simpl.
  - destruct (k' =? k); auto.
  - destruct (Z.eqb_spec j k) as [->|N]; simpl.
    + rewrite IH. destruct (Z.eqb_spec k' k); auto.
    + rewrite IH. destruct (Z.eqb_spec k' j) as [->|N']; auto.
      destruct (Z.eqb_spec j k); auto. congruence.
Qed.
Lemma zget_zset d k v k' : zget (zset d k v) k' = if k' =? k then Some v else zget d k'.
Proof. unfold zset. simpl. rewrite zget_zdel. destruct (k' =? k); auto. Qed.
Lemma zget_key d k v : zget d k = Some v -> In k (map fst d).
Proof.
  induction d as [|[j w] d IH]; simpl; [discriminate|]. destruct (Z.eqb_spec k j); auto.
Qed.

Lemma len_nonneg l : 0 <= len l.
Proof. unfold len. lia. Qed.
Lemma key_zget d k : In k (map fst d) -> exists v, zget d k = Some v.
Proof.
  induction d as [|[j w] d IH]; simpl; [tauto|]. intros J. destruct (Z.eqb_spec k j); eauto.
  destruct J; [congruence|auto].
Qed.

Lemma zget_remap s f t k : f <> t -> zget (remap s f t) k =
  match zget s f with
  | None => zget s k
  | Some y => if k =? t then Some y else if k =? f then None else zget s k
  end.
Proof.
  intros N. unfold remap. destruct (zget s f); auto. rewrite zget_zset, zget_zdel. auto.
Qed.

(** ** Ranges *)
Lemma range_empty a b : b <= a -> range a b = [].
Proof. intros H. unfold range. replace (Z.to_nat (b - a)) with O by lia. auto. Qed.
Lemma range_cons a b : a < b -> range a b = a :: range (a + 1) b.
Proof.
  intros H. unfold range. replace (Z.to_nat (b - a)) with (S (Z.to_nat (b - (a + 1)))) by lia.
  simpl. f_equal; [lia|]. rewrite <- seq_shift, map_map. apply map_ext. intros i. lia.
Qed.
Lemma range_snoc a b : a < b -> range a b = range a (b - 1) ++ [b - 1].
Proof.
  intros H. unfold range. replace (Z.to_nat (b - a)) with (S (Z.to_nat (b - 1 - a))) by lia.
  rewrite seq_S, map_app. simpl. f_equal. f_equal. lia.
Qed.
Lemma In_range a b i : In i (range a b) <-> a <= i < b.
Proof.
  unfold range. rewrite in_map_iff. split.
  - intros (n & <- & J). apply in_seq in J. lia.
  - intros H. exists (Z.to_nat (i - a)). split; [lia|]. apply in_seq. lia.
Qed.

(** ** Moving symbols *)
Lemma downward_get n : forall a b s, b - a = Z.of_nat n -> zget s (a - 1) = None ->
  forall k, zget (fold_left (fun s i => remap s i (i - 1)) (range a b) s) k =
    if (a - 1 <=? k) && (k <? b - 1) then zget s (k + 1)
    else if k =? b - 1 then None else zget s k.
Proof.
  induction n as [|n IH]; intros a b s E H k.
  - rewrite range_empty by lia. simpl.
    destruct (Z.leb_spec (a - 1) k), (Z.ltb_spec k (b - 1)); simpl; try lia;
      destruct (Z.eqb_spec k (b - 1)); auto; subst; replace (b - 1) with (a - 1) by lia; auto.
  - rewrite range_cons by lia. simpl.
    assert (G : forall k, zget (remap s a (a - 1)) k =
              if k =? a - 1 then zget s a else if k =? a then None else zget s k).
    { intros k'. rewrite zget_remap by lia. destruct (zget s a) eqn:Ga; auto.
      destruct (Z.eqb_spec k' (a - 1)) as [->|]; auto. destruct (Z.eqb_spec k' a) as [->|]; auto. }
    assert (H1 : zget (remap s a (a - 1)) (a + 1 - 1) = None).
    { rewrite G. destruct (Z.eqb_spec (a + 1 - 1) (a - 1)); [lia|].
      destruct (Z.eqb_spec (a + 1 - 1) a); auto; lia. }
    rewrite IH by (auto; lia).
    rewrite !G.
    destruct (Z.leb_spec (a + 1 - 1) k), (Z.ltb_spec k (b - 1)), (Z.leb_spec (a - 1) k),
      (Z.eqb_spec k (b - 1)), (Z.eqb_spec (k + 1) (a - 1)), (Z.eqb_spec (k + 1) a), (Z.eqb_spec k (a - 1)),
      (Z.eqb_spec k a); simpl; auto; try lia.
    subst k. f_equal. lia.
Qed.

Definition or_sym (a b : option sym) : option sym := match a with Some y => Some y | None => b end.
Lemma upward_get n : forall a b s, b - a = Z.of_nat n ->
  forall k, zget (fold_left (fun s i => remap s (i - 1) i) (rev (range a b)) s) k =
    if a <? b then
      if k =? b - 1 then or_sym (zget s (b - 2)) (zget s (b - 1))
      else if (a <=? k) && (k <? b - 1) then zget s (k - 1)
      else if k =? a - 1 then None else zget s k
    else zget s k.
Proof.
  induction n as [|n IH]; intros a b s E k.
  - rewrite range_empty by lia. simpl. destruct (Z.ltb_spec a b); auto. lia.
  - rewrite range_snoc by lia. rewrite rev_app_distr. simpl.
    assert (G : forall k, zget (remap s (b - 1 - 1) (b - 1)) k =
              if k =? b - 1 then or_sym (zget s (b - 2)) (zget s (b - 1))
              else if k =? b - 2 then None else zget s k).
    { intros k'. rewrite zget_remap by lia. replace (b - 1 - 1) with (b - 2) by lia.
      destruct (zget s (b - 2)) eqn:Gb; simpl; auto.
      destruct (Z.eqb_spec k' (b - 1)) as [->|]; auto. destruct (Z.eqb_spec k' (b - 2)) as [->|]; auto. }
    rewrite IH by lia. rewrite !G. 
    replace (b - 1 - 1) with (b - 2) by lia. replace (b - 1 - 2) with (b - 3) by lia.
    destruct (Z.ltb_spec a (b - 1)), (Z.ltb_spec a b); try lia.
    + destruct (Z.eqb_spec (b - 3) (b - 1)), (Z.eqb_spec (b - 3) (b - 2)), (Z.eqb_spec (b - 2) (b - 1)); try lia.
      rewrite Z.eqb_refl.
      destruct (Z.eqb_spec k (b - 2)), (Z.eqb_spec k (b - 1)), (Z.leb_spec a k), (Z.ltb_spec k (b - 2)),
        (Z.ltb_spec k (b - 1)), (Z.eqb_spec (k - 1) (b - 1)), (Z.eqb_spec (k - 1) (b - 2)), (Z.eqb_spec k (a - 1));
        simpl; auto; try lia.
      subst k. replace (b - 2 - 1) with (b - 3) by lia. destruct (zget s (b - 3)); auto.
    + destruct (Z.eqb_spec k (b - 1)), (Z.leb_spec a k), (Z.ltb_spec k (b - 1)), (Z.eqb_spec k (b - 2)),
        (Z.eqb_spec k (a - 1)); simpl; auto; lia.
Qed.

Lemma downward_spec l s pos : zget s pos = None -> pos <= len l ->
  forall k, zget (downward l s pos) k =
    if (pos <=? k) && (k <? len l) then zget s (k + 1) else if k =? len l then None else zget s k.
Proof.
  intros H L k. unfold downward. rewrite (downward_get (Z.to_nat (len l - pos))); [|lia|].
  - replace (pos + 1 - 1) with pos by lia. replace (len l + 1 - 1) with (len l) by lia. auto.
  - replace (pos + 1 - 1) with pos by lia. auto.
Qed.

Lemma delete_spec l s name : 0 <= name <= len l ->
  forall k, zget (delete l s name) k =
    if k <? name then zget s k else if k <? len l then zget s (k + 1)
    else if k =? len l then None else zget s k.
Proof.
  intros H k. unfold delete.
  assert (E : match zget s name with None => if name =? -1 then len l else name | Some _ => name end = name).
  { destruct (zget s name); auto. destruct (Z.eqb_spec name (-1)); auto. lia. }
  rewrite E. rewrite downward_spec; [|rewrite zget_zdel, Z.eqb_refl; auto|lia].
  rewrite !zget_zdel.
  destruct (Z.leb_spec name k), (Z.ltb_spec k (len l)), (Z.ltb_spec k name), (Z.eqb_spec k (len l)),
    (Z.eqb_spec (k + 1) name), (Z.eqb_spec k name); simpl; auto; try lia.
Qed.
Lemma delete_last l s : zget s (-1) = None ->
  forall k, zget (delete l s (-1)) k = if k =? len l then None else zget s k.
Proof.
  intros H k. unfold delete. rewrite H. simpl.
  rewrite downward_spec; [|rewrite zget_zdel, Z.eqb_refl; auto|lia].
  rewrite !zget_zdel.
  destruct (Z.leb_spec (len l) k), (Z.ltb_spec k (len l)), (Z.eqb_spec k (len l)); simpl; auto; lia.
Qed.
Lemma delete_far l s name : len l < name ->
  forall k, zget (delete l s name) k = if k =? name then None else zget s k.
Proof.
  intros H k. unfold delete, downward.
  assert (E : match zget s name with None => if name =? -1 then len l else name | Some _ => name end = name).
  { destruct (zget s name); auto. destruct (Z.eqb_spec name (-1)); auto. unfold len in *. lia. }
  rewrite E. rewrite range_empty by lia. apply zget_zdel.
Qed.

(** Deleting everything. *)
Lemma In_insert_name n l x : In x (insert_name n l) <-> x = n \/ In x l.
Proof.
  induction l as [|m l IH]; simpl; [intuition|]. destruct (_ <=? _); simpl; [intuition|].
  rewrite IH. intuition.
Qed.
Lemma In_sort_names l x : In x (sort_names l) <-> In x l.
Proof.
  induction l as [|n l IH]; simpl; [tauto|]. rewrite In_insert_name, IH. intuition.
Qed.
Lemma clear_get names : (forall n, In n names -> 0 <= n) -> forall s k,
  zget (fold_left (delete []) names s) k = if existsb (Z.eqb k) names then None else zget s k.
Proof.
  induction names as [|n names IH]; simpl; intros H s k; auto.
  rewrite IH by auto. assert (0 <= n) by auto.
  assert (E : zget (delete [] s n) k = if k =? n then None else zget s k).
  { destruct (Z.eq_dec n 0) as [->|N].
    - rewrite delete_spec by (unfold len; simpl; lia). unfold len. simpl.
      destruct (Z.ltb_spec k 0), (Z.eqb_spec k 0); auto; lia.
    - apply delete_far. unfold len. simpl. lia. }
  rewrite E. destruct (k =? n); simpl; auto. destruct (existsb (Z.eqb k) names); auto.
Qed.

(** Adding symbols. *)
Lemma zget_upsert s n i o s' n' : upsert s n i o = (s', n') ->
  (forall k, k <> i -> zget s' k = zget s k) /\
  exists y, zget s' i = Some y /\ s_obj y = o /\ (forall z, zget s i = Some z -> s_id y = s_id z).
Proof.
  unfold upsert. destruct (zget s i) as [z|] eqn:G; intros E; injection E as <- <-.
  - split; [intros k N; rewrite zget_zset; destruct (Z.eqb_spec k i); congruence|].
    eexists. split; [rewrite zget_zset, Z.eqb_refl; reflexivity|]. split; auto. simpl. congruence.
  - split; [intros k N; rewrite zget_zset; destruct (Z.eqb_spec k i); congruence|].
    eexists. split; [rewrite zget_zset, Z.eqb_refl; reflexivity|]. split; auto. discriminate.
Qed.
Lemma index_pos l i : 0 <= i -> index l i = nth_error l (Z.to_nat i).
Proof. intros H. unfold index. destruct (Z.ltb_spec i 0); auto. lia. Qed.
Lemma extend_get l m : forall orig s n, 0 <= orig -> len l - orig = Z.of_nat m ->
  let s' := fst (fold_left (fun sn i => match index l i with
                                        | Some o => upsert (fst sn) (snd sn) i o
                                        | None => sn
                                        end) (range orig (len l)) (s, n)) in
  (forall k, ~ orig <= k < len l -> zget s' k = zget s k) /\
  (forall k, orig <= k < len l -> exists y, zget s' k = Some y /\ nth_error l (Z.to_nat k) = Some (s_obj y)).
Proof.
  induction m as [|m IH]; intros orig s n P E; simpl.
  - rewrite range_empty by lia. simpl. split; auto. intros k H. lia.
  - rewrite range_cons by lia. simpl. rewrite index_pos by lia.
    destruct (nth_error l (Z.to_nat orig)) as [o|] eqn:G.
    2:{ apply nth_error_None in G. unfold len in *. lia. }
    destruct (upsert s n orig o) as [s1 n1] eqn:U. destruct (zget_upsert _ _ _ _ _ _ U) as [A (y & B & C & _)].
    destruct (IH (orig + 1) s1 n1 ltac:(lia) ltac:(lia)) as [F1 F2]. simpl in F1, F2. split.
    + intros k N. rewrite F1 by lia. apply A. lia.
    + intros k H. destruct (Z.eq_dec k orig) as [->|N].
      * exists y. rewrite F1 by lia. split; auto. congruence.
      * apply F2. lia.
Qed.

(** ** Lists *)
Definition at_ (l : list nat) (k : Z) : option nat := if k <? 0 then None else nth_error l (Z.to_nat k).
Lemma at_None l k : at_ l k = None <-> k < 0 \/ len l <= k.
Proof.
  unfold at_, len. destruct (Z.ltb_spec k 0); [split; auto|]. rewrite nth_error_None. lia.
Qed.
Lemma at_Some_range l k o : at_ l k = Some o -> 0 <= k < len l.
Proof.
  intros H. destruct (Z_lt_dec k 0); [|destruct (Z_lt_dec k (len l)); [lia|]];
    assert (at_ l k = None) by (apply at_None; lia); congruence.
Qed.
Lemma at_in_range l k : 0 <= k < len l -> exists o, at_ l k = Some o.
Proof.
  intros H. destruct (at_ l k) eqn:E; eauto. apply at_None in E. lia.
Qed.
Lemma at_app l m k : at_ (l ++ m) k = if k <? len l then at_ l k else at_ m (k - len l).
Proof.
  unfold at_, len. destruct (Z.ltb_spec k 0), (Z.ltb_spec k (Z.of_nat (length l))),
    (Z.ltb_spec (k - Z.of_nat (length l)) 0); auto; try lia.
  - apply nth_error_app1. lia.
  - rewrite nth_error_app2 by lia. f_equal. lia.
Qed.
Lemma nth_firstn {A} (l : list A) i k : (k < i)%nat -> nth_error (firstn i l) k = nth_error l k.
Proof.
  revert i k. induction l as [|x l IH]; intros [|i] [|k] H; simpl; auto; try lia. apply IH. lia.
Qed.
Lemma nth_skipn {A} (l : list A) i k : nth_error (skipn i l) k = nth_error l (i + k)%nat.
Proof.
  revert i. induction l as [|x l IH]; intros [|i]; simpl; auto. destruct k; auto.
Qed.
Lemma len_cut l j : (j < length l)%nat -> len (cut l j) = len l - 1.
Proof. intros H. unfold len, cut. rewrite app_length, firstn_length, skipn_length. lia. Qed.
Lemma at_cut l j k : (j < length l)%nat ->
  at_ (cut l j) k = if k <? Z.of_nat j then at_ l k else at_ l (k + 1).
Proof.
  intros H. unfold at_, cut. destruct (Z.ltb_spec k 0), (Z.ltb_spec k (Z.of_nat j)), (Z.ltb_spec (k + 1) 0); auto; try lia.
  - rewrite nth_error_app1 by (rewrite firstn_length; lia). apply nth_firstn. lia.
  - rewrite nth_error_app2 by (rewrite firstn_length; lia). rewrite firstn_length, nth_skipn. f_equal. lia.
Qed.
Lemma len_put l j v : (j <= length l)%nat -> len (put l j v) = len l + 1.
Proof. intros H. unfold len, put. rewrite app_length, firstn_length. simpl. rewrite skipn_length. lia. Qed.
Lemma at_put l j v k : (j <= length l)%nat ->
  at_ (put l j v) k = if k <? Z.of_nat j then at_ l k else if k =? Z.of_nat j then Some v else at_ l (k - 1).
Proof.
  intros H. unfold at_, put. destruct (Z.ltb_spec k 0), (Z.ltb_spec k (Z.of_nat j)), (Z.eqb_spec k (Z.of_nat j)),
    (Z.ltb_spec (k - 1) 0); auto; try lia;
    try (rewrite nth_error_app1 by (rewrite firstn_length; lia); apply nth_firstn; lia);
    rewrite nth_error_app2 by (rewrite firstn_length; lia); rewrite firstn_length;
    try (replace (Z.to_nat k - Nat.min j (length l))%nat with O by lia; reflexivity).
  replace (Z.to_nat k - Nat.min j (length l))%nat with (S (Z.to_nat (k - 1) - j))%nat by lia. simpl.
  rewrite nth_skipn. f_equal. lia.
Qed.
Lemma cut_at_Some l i l' : cut_at l i = Some l' ->
  let j := if i <? 0 then i + len l else i in
  0 <= j < len l /\ l' = cut l (Z.to_nat j).
Proof.
  unfold cut_at. destruct (_ && _)%bool eqn:B; [|discriminate]. intros E. injection E as <-.
  apply andb_true_iff in B. rewrite Z.leb_le, Z.ltb_lt in B. auto.
Qed.
Lemma find_Some eqb v l i : find eqb v l = Some i -> (i < length l)%nat.
Proof.
  revert i. induction l as [|x l IH]; simpl; intros i H; [discriminate|].
  destruct (eqb x v); [injection H as <-; lia|]. destruct (find eqb v l); [|discriminate].
  injection H as <-. specialize (IH _ eq_refl). lia.
Qed.

(** ** One statement *)
Section Step.
Variable eqb : nat -> nat -> bool.
Notation step := (step eqb).
Notation exec := (exec eqb).

(** The position that is removed. *)
Definition removed (o : op) (l : list nat) : option Z :=
  match o with
  | Remove v => option_map Z.of_nat (find eqb v l)
  | Pop (Some i) | Del i => Some (if i <? 0 then i + len l else i)
  | _ => None
  end.

Definition after (t : st) (o : op) (l' : list nat) (s' : syms) : Prop :=
  match o with
  | Append _ | Extend _ =>
      (forall k, ~ len (t_list t) <= k < len l' -> zget s' k = zget (t_syms t) k) /\
      (forall k, len (t_list t) <= k < len l' -> exists y, zget s' k = Some y /\ at_ l' k = Some (s_obj y))
  | Insert pos v _ =>
      (exists y, zget s' pos = Some y /\ s_obj y = v) /\
      forall k, k <> pos -> zget s' k =
        if k <? pos then zget (t_syms t) k
        else if k <? len (t_list t) then zget (t_syms t) (k - 1)
        else if k =? len (t_list t) then or_sym (zget (t_syms t) (k - 1)) (zget (t_syms t) k)
        else zget (t_syms t) k
  | Pop None => s' = t_syms t
  | Clear => forall k, zget s' k = None
  | _ => exists j, removed o (t_list t) = Some j /\ 0 <= j < len (t_list t) /\
      (forall k, zget s' k = if k <? j then zget (t_syms t) k else if k <? len l' then zget (t_syms t) (k + 1)
                  else if k =? len l' then None else zget (t_syms t) k)
  end.

Lemma removed_after t i l' : natural t -> -1 <= i -> cut_at (t_list t) i = Some l' ->
  let j := if i <? 0 then i + len (t_list t) else i in
  0 <= j < len (t_list t) /\
  forall k, zget (delete l' (t_syms t) i) k =
    if k <? j then zget (t_syms t) k else if k <? len l' then zget (t_syms t) (k + 1)
    else if k =? len l' then None else zget (t_syms t) k.
Proof.
  intros N H C. destruct (cut_at_Some _ _ _ C) as [R E]. simpl in R. split; auto. intros k.
  assert (L : len l' = len (t_list t) - 1).
  { subst l'. apply len_cut. remember (if i <? 0 then i + len (t_list t) else i) as j. unfold len in R. lia. }
  destruct (Z.ltb_spec i 0) as [I|I].
  - assert (i = -1) by lia. subst i. rewrite delete_last.
    + destruct (Z.ltb_spec k (-1 + len (t_list t))), (Z.ltb_spec k (len l')), (Z.eqb_spec k (len l')); auto; lia.
    + destruct (zget (t_syms t) (-1)) eqn:G; auto. apply N in G. lia.
  - apply delete_spec. lia.
Qed.

Lemma step_after t o l' : natural t -> inside (t_list t) o -> exec o (t_list t) = Some l' ->
  exists s' n', step t o = mkSt l' s' n' /\ after t o l' s'.
Proof.
  intros N I E. unfold ElemModel.step, run_stmt, run_calls. rewrite E. simpl.
  destruct o as [v|vs|pos v plain|v|[i|]| |i]; simpl in *.
  - injection E as <-.
    pose proof (extend_get (t_list t ++ [v]) 1 (len (t_list t)) (t_syms t) (t_next t)) as X.
    destruct (fold_left _ _ _) as [s' n']. simpl in X.
    destruct X as [X1 X2]; [unfold len; lia|unfold len; rewrite app_length; simpl; lia|].
    exists s', n'. split; auto. split; auto. intros k K. destruct (X2 k K) as (y & Y1 & Y2). exists y. split; auto.
    unfold at_. destruct (Z.ltb_spec k 0); auto. unfold len in K. lia.
  - injection E as <-.
    pose proof (extend_get (t_list t ++ vs) (length vs) (len (t_list t)) (t_syms t) (t_next t)) as X.
    destruct (fold_left _ _ _) as [s' n']. simpl in X.
    destruct X as [X1 X2]; [unfold len; lia|unfold len; rewrite app_length; lia|].
    exists s', n'. split; auto. split; auto. intros k K. destruct (X2 k K) as (y & Y1 & Y2). exists y. split; auto.
    unfold at_. destruct (Z.ltb_spec k 0); auto. unfold len in K. lia.
  - destruct I as [I ->]. destruct (Z.ltb_spec pos 0); [lia|].
    rewrite Z.min_l in E by lia. injection E as <-.
    assert (P : (Z.to_nat pos <= length (t_list t))%nat) by (unfold len in I; lia).
    pose proof (len_put (t_list t) (Z.to_nat pos) v P) as L.
    rewrite index_pos by lia.
    assert (A : nth_error (put (t_list t) (Z.to_nat pos) v) (Z.to_nat pos) = Some v).
    { pose proof (at_put (t_list t) (Z.to_nat pos) v pos P) as X. unfold at_ in X at 1.
      destruct (Z.ltb_spec pos 0); [lia|]. rewrite X. rewrite Z2Nat.id by lia.
      destruct (Z.ltb_spec pos pos); [lia|]. rewrite Z.eqb_refl. auto. }
    rewrite A. set (l' := put (t_list t) (Z.to_nat pos) v) in *.
    pose proof (upward_get (Z.to_nat (len l' - (pos + 1))) (pos + 1) (len l') (t_syms t) ltac:(lia)) as U.
    fold (upward l' (t_syms t) pos) in U.
    destruct (upsert (upward l' (t_syms t) pos) (t_next t) pos v) as [s' n'] eqn:X.
    destruct (zget_upsert _ _ _ _ _ _ X) as [X1 (y & X2 & X3 & _)].
    exists s', n'. split; auto. split; eauto. intros k K. rewrite X1 by auto. rewrite U.
    replace (len l' - 1) with (len (t_list t)) by lia. replace (len l' - 2) with (len (t_list t) - 1) by lia.
    destruct (Z.ltb_spec (pos + 1) (len l')), (Z.eqb_spec k (len (t_list t))), (Z.ltb_spec k pos),
      (Z.ltb_spec k (len (t_list t))), (Z.leb_spec (pos + 1) k), (Z.eqb_spec k (pos + 1 - 1)); simpl; subst; auto; try lia.
  - destruct (find eqb v (t_list t)) as [i|] eqn:F; [|discriminate]. injection E as <-. simpl.
    do 2 eexists. split; [reflexivity|]. exists (Z.of_nat i). split; auto.
    pose proof (find_Some _ _ _ _ F). unfold len at 1. split; [lia|]. intros k. apply delete_spec.
    rewrite len_cut by auto. unfold len. lia.
  - destruct (removed_after t i l' N I E) as [R1 R2]. do 2 eexists. split; [reflexivity|].
    eexists. split; [reflexivity|]. auto.
  - do 2 eexists. split; reflexivity.
  - injection E as <-. do 2 eexists. split; [reflexivity|]. intros k. rewrite clear_get.
    + destruct (existsb (Z.eqb k) (sort_names (map fst (t_syms t)))) eqn:X; auto.
      destruct (zget (t_syms t) k) eqn:G; auto. exfalso.
      assert (Y : existsb (Z.eqb k) (sort_names (map fst (t_syms t))) = true).
      { apply existsb_exists. exists k. split; [|apply Z.eqb_refl]. apply In_sort_names. eapply zget_key; eauto. }
      congruence.
    + intros n J. rewrite In_sort_names in J. apply key_zget in J. destruct J as (w & W). apply (N n w W).
  - destruct (removed_after t i l' N I E) as [R1 R2]. do 2 eexists. split; [reflexivity|].
    eexists. split; [reflexivity|]. auto.
Qed.

Lemma exec_list t o : t_list (step t o) = match exec o (t_list t) with Some l => l | None => t_list t end.
Proof.
  unfold ElemModel.step, run_stmt, run_calls. destruct (exec o (t_list t)); auto.
  destruct (handle_all _ _ _ _); auto.
Qed.
Lemma step_raises t o : exec o (t_list t) = None -> step t o = t.
Proof. intros E. unfold ElemModel.step, run_stmt, run_calls. rewrite E. auto. Qed.

Lemma removed_list o l l' j : exec o l = Some l' -> removed o l = Some j -> 0 <= j < len l ->
  len l' = len l - 1 /\ forall k, at_ l' k = if k <? j then at_ l k else at_ l (k + 1).
Proof.
  intros E R J.
  assert (X : l' = cut l (Z.to_nat j)).
  { destruct o as [| | |v|[i|]| |i]; simpl in *; try discriminate.
    - destruct (find eqb v l); [|discriminate]. simpl in R. injection R as <-. injection E as <-. f_equal. lia.
    - injection R as <-. apply cut_at_Some in E. apply E.
    - injection R as <-. apply cut_at_Some in E. apply E. }
  subst l'. assert (Z.to_nat j < length l)%nat by (unfold len in J; lia). split; [apply len_cut; auto|].
  intros k. rewrite at_cut by auto. rewrite Z2Nat.id by lia. auto.
Qed.
End Step.

Lemma mirrors_at t : mirrors t <-> forall i y, zget (t_syms t) i = Some y -> at_ (t_list t) i = Some (s_obj y).
Proof.
  unfold mirrors, at_. split; intros H i y G; specialize (H i y G); destruct (Z.ltb_spec i 0); try tauto; try lia.
  discriminate.
Qed.
Lemma covers_at t : covers t <-> forall i o, at_ (t_list t) i = Some o -> exists y, zget (t_syms t) i = Some y /\ s_obj y = o.
Proof.
  unfold covers. split; intros H i o G.
  - pose proof (at_Some_range _ _ _ G). specialize (H (Z.to_nat i) o). rewrite Z2Nat.id in H by lia. apply H.
    unfold at_ in G. destruct (Z.ltb_spec i 0); [lia|auto].
  - apply H. unfold at_. destruct (Z.ltb_spec (Z.of_nat i) 0); [lia|]. rewrite Nat2Z.id. auto.
Qed.
Lemma mirrors_natural t : mirrors t -> natural t.
Proof. intros M i y G. apply (M i y G). Qed.

Section Steps.
Variable eqb : nat -> nat -> bool.
Notation step := (step eqb).
Notation steps := (steps eqb).
Notation exec := (exec eqb).

Ltac cases := repeat match goal with
  | H : context[if ?a <? ?b then _ else _] |- _ => destruct (Z.ltb_spec a b)
  | H : context[if ?a =? ?b then _ else _] |- _ => destruct (Z.eqb_spec a b)
  | |- context[if ?a <? ?b then _ else _] => destruct (Z.ltb_spec a b)
  | |- context[if ?a =? ?b then _ else _] => destruct (Z.eqb_spec a b)
  end.

Lemma step_natural t o : natural t -> inside (t_list t) o -> natural (step t o).
Proof.
  intros N I. destruct (exec o (t_list t)) as [l'|] eqn:E; [|rewrite step_raises; auto].
  destruct (step_after eqb _ _ _ N I E) as (s' & n' & -> & A). intros i y G. simpl in G.
  assert (R : forall j, 0 <= j -> (forall k, zget s' k = if k <? j then zget (t_syms t) k
     else if k <? len l' then zget (t_syms t) (k + 1) else if k =? len l' then None else zget (t_syms t) k) -> 0 <= i).
  { intros j J H. rewrite H in G. cases; try discriminate; try lia; apply N in G; lia. }
  destruct o as [v|vs|pos v plain|v|[j|]| |j]; cbn [after] in A.
  - destruct A as [A _]. destruct (Z_lt_dec i 0); [|lia]. rewrite A in G by (unfold len; lia). apply N in G. lia.
  - destruct A as [A _]. destruct (Z_lt_dec i 0); [|lia]. rewrite A in G by (unfold len; lia). apply N in G. lia.
  - destruct A as [_ A]. destruct I as [I _]. destruct (Z_lt_dec i 0); [|lia]. rewrite A in G by lia.
    pose proof (len_nonneg (t_list t)). cases; try lia; apply N in G; lia.
  - destruct A as (j & _ & J & A). apply (R j); [lia|auto].
  - destruct A as (j' & _ & J & A). apply (R j'); [lia|auto].
  - subst s'. apply (N _ _ G).
  - rewrite A in G. discriminate.
  - destruct A as (j' & _ & J & A). apply (R j'); [lia|auto].
Qed.

Lemma step_mirrors t o : mirrors t -> inside (t_list t) o -> no_bare_pop o -> mirrors (step t o).
Proof.
  intros M I B. pose proof (mirrors_natural _ M) as N. rewrite mirrors_at in M |- *.
  destruct (exec o (t_list t)) as [l'|] eqn:E; [|rewrite step_raises; auto].
  destruct (step_after eqb _ _ _ N I E) as (s' & n' & -> & A). intros i y G. simpl in G |- *.
  assert (R : forall j, removed eqb o (t_list t) = Some j -> 0 <= j < len (t_list t) ->
    (forall k, zget s' k = if k <? j then zget (t_syms t) k
     else if k <? len l' then zget (t_syms t) (k + 1) else if k =? len l' then None else zget (t_syms t) k) ->
    at_ l' i = Some (s_obj y)).
  { intros j Rm J H. destruct (removed_list eqb _ _ _ _ E Rm J) as [L Al]. rewrite Al. rewrite H in G.
    cases; try discriminate; apply M in G; auto. apply at_Some_range in G. lia. }
  destruct o as [v|vs|pos v plain|v|[j|]| |j]; cbn [after] in A.
  - destruct A as [A1 A2]. simpl in E. injection E as <-.
    destruct (Z_le_dec (len (t_list t)) i); [destruct (Z_lt_dec i (len (t_list t ++ [v])))|].
    + destruct (A2 i) as (y' & Y1 & Y2); [lia|]. congruence.
    + rewrite A1 in G by lia. apply M, at_Some_range in G. lia.
    + rewrite A1 in G by lia. apply M in G. rewrite at_app. cases; auto. lia.
  - destruct A as [A1 A2]. simpl in E. injection E as <-.
    destruct (Z_le_dec (len (t_list t)) i); [destruct (Z_lt_dec i (len (t_list t ++ vs)))|].
    + destruct (A2 i) as (y' & Y1 & Y2); [lia|]. congruence.
    + rewrite A1 in G by lia. apply M, at_Some_range in G. lia.
    + rewrite A1 in G by lia. apply M in G. rewrite at_app. cases; auto. lia.
  - destruct A as [(y0 & Y1 & Y2) A]. destruct I as [I Pl]. simpl in E.
    destruct (Z.ltb_spec pos 0); [lia|]. rewrite Z.min_l in E by lia. injection E as <-.
    rewrite at_put by (unfold len in I; lia). rewrite Z2Nat.id by lia.
    destruct (Z.eq_dec i pos) as [->|Ni].
    + cases; try lia. congruence.
    + rewrite A in G by auto. cases; try lia; auto.
      * destruct (zget (t_syms t) (i - 1)) eqn:G1; simpl in G.
        -- injection G as ->. auto.
        -- apply M, at_Some_range in G. lia.
      * apply M, at_Some_range in G. lia.
  - destruct A as (j & J1 & J2 & A). eapply R; eauto.
  - destruct A as (j' & J1 & J2 & A). eapply R; eauto.
  - exfalso. apply B. reflexivity.
  - rewrite A in G. discriminate.
  - destruct A as (j' & J1 & J2 & A). eapply R; eauto.
Qed.

Lemma step_covers t o : natural t -> covers t -> inside (t_list t) o -> covers (step t o).
Proof.
  intros N C I. rewrite covers_at in C |- *.
  destruct (exec o (t_list t)) as [l'|] eqn:E; [|rewrite step_raises; auto].
  destruct (step_after eqb _ _ _ N I E) as (s' & n' & -> & A). intros i x G. simpl in G |- *.
  assert (R : forall j, removed eqb o (t_list t) = Some j -> 0 <= j < len (t_list t) ->
    (forall k, zget s' k = if k <? j then zget (t_syms t) k
     else if k <? len l' then zget (t_syms t) (k + 1) else if k =? len l' then None else zget (t_syms t) k) ->
    exists y, zget s' i = Some y /\ s_obj y = x).
  { intros j Rm J H. destruct (removed_list eqb _ _ _ _ E Rm J) as [L Al]. pose proof (at_Some_range _ _ _ G) as Ri.
    rewrite Al in G. rewrite H. cases; try lia; auto. }
  pose proof (at_Some_range _ _ _ G) as Ri.
  destruct o as [v|vs|pos v plain|v|[j|]| |j]; cbn [after] in A.
  - destruct A as [A1 A2]. simpl in E. injection E as <-.
    destruct (Z_le_dec (len (t_list t)) i).
    + destruct (A2 i) as (y' & Y1 & Y2); [lia|]. exists y'. split; congruence.
    + rewrite A1 by lia. rewrite at_app in G. cases; auto. lia.
  - destruct A as [A1 A2]. simpl in E. injection E as <-.
    destruct (Z_le_dec (len (t_list t)) i).
    + destruct (A2 i) as (y' & Y1 & Y2); [lia|]. exists y'. split; congruence.
    + rewrite A1 by lia. rewrite at_app in G. cases; auto. lia.
  - destruct A as [(y0 & Y1 & Y2) A]. destruct I as [I Pl]. simpl in E.
    destruct (Z.ltb_spec pos 0); [lia|]. rewrite Z.min_l in E by lia. injection E as <-.
    rewrite len_put in Ri by (unfold len in I; lia).
    rewrite at_put in G by (unfold len in I; lia). rewrite Z2Nat.id in G by lia.
    destruct (Z.eq_dec i pos) as [->|Ni].
    + cases; try lia. exists y0. split; congruence.
    + rewrite A by auto. cases; try lia; auto. destruct (C _ _ G) as (y & -> & Yx). simpl. eauto.
  - destruct A as (j & J1 & J2 & A). eapply R; eauto.
  - destruct A as (j' & J1 & J2 & A). eapply R; eauto.
  - subst s'. apply C. cbn [ElemModel.exec] in E. apply cut_at_Some in E.
    change (-1 <? 0) with true in E. cbv iota zeta in E.
    destruct E as [E1 ->]. assert (K : (Z.to_nat (-1 + len (t_list t)) < length (t_list t))%nat) by (unfold len in *; lia).
    rewrite at_cut in G by auto. rewrite len_cut in Ri by auto. rewrite Z2Nat.id in G by lia.
    cases; auto. lia.
  - simpl in E. injection E as <-. unfold len in Ri. simpl in Ri. lia.
  - destruct A as (j' & J1 & J2 & A). eapply R; eauto.
Qed.

Lemma step_follows t o l' i y j : mirrors t -> inside (t_list t) o -> exec o (t_list t) = Some l' ->
  zget (t_syms t) i = Some y -> goes eqb o (t_list t) i = Some j -> zget (t_syms (step t o)) j = Some y.
Proof.
  intros M I E G J. pose proof (mirrors_natural _ M) as N. rewrite mirrors_at in M.
  destruct (step_after eqb _ _ _ N I E) as (s' & n' & -> & A). simpl.
  pose proof (at_Some_range _ _ _ (M _ _ G)) as Ri.
  assert (R : forall r, removed eqb o (t_list t) = Some r -> 0 <= r < len (t_list t) ->
    (if i <? r then Some i else if i =? r then None else Some (i - 1)) = Some j ->
    (forall k, zget s' k = if k <? r then zget (t_syms t) k
     else if k <? len l' then zget (t_syms t) (k + 1) else if k =? len l' then None else zget (t_syms t) k) ->
    zget s' j = Some y).
  { intros r Rm Rr Q H. destruct (removed_list eqb _ _ _ _ E Rm Rr) as [L _]. rewrite H.
    cases; try discriminate; try (injection Q as <-); try lia; auto.
    replace (i - 1 + 1) with i by lia. auto. }
  destruct o as [v|vs|pos v plain|v|[p|]| |p]; cbn [after] in A; simpl in J.
  - injection J as <-. destruct A as [A _]. rewrite A; auto. lia.
  - injection J as <-. destruct A as [A _]. rewrite A; auto. lia.
  - destruct A as [_ A]. destruct I as [I _]. destruct (Z.ltb_spec i pos); injection J as <-.
    + rewrite A by lia. cases; auto; lia.
    + rewrite A by lia. replace (i + 1 - 1) with i by lia. rewrite G. cases; auto; lia.
  - destruct A as (r & J1 & J2 & A). eapply R; eauto. simpl in J1.
    destruct (find eqb v (t_list t)); [|discriminate]. injection J1 as <-. auto.
  - destruct A as (r & J1 & J2 & A). eapply R; eauto. simpl in J1. injection J1 as <-. auto.
  - subst s'. cases; try discriminate; try (injection J as <-); auto. lia.
  - discriminate.
  - destruct A as (r & J1 & J2 & A). eapply R; eauto. simpl in J1. injection J1 as <-. auto.
Qed.

Lemma steps_mirrors os : forall t, mirrors t -> all_inside eqb os (t_list t) -> Forall no_bare_pop os ->
  mirrors (steps os t).
Proof.
  induction os as [|o os IH]; simpl; intros t M I B; auto. destruct I as [I1 I2]. inversion B; subst.
  apply IH; auto.
  - apply step_mirrors; auto.
  - rewrite exec_list. auto.
Qed.
Lemma steps_covers os : forall t, natural t -> covers t -> all_inside eqb os (t_list t) ->
  natural (steps os t) /\ covers (steps os t).
Proof.
  induction os as [|o os IH]; simpl; intros t M C I; auto. destruct I as [I1 I2].
  apply IH; auto.
  - apply step_natural; auto.
  - apply step_covers; auto.
  - rewrite exec_list. auto.
Qed.
End Steps.

(** ** Several calls that only add at the end *)

Definition correct (l : list nat) (s : syms) : Prop :=
  forall i y, zget s i = Some y -> 0 <= i /\ nth_error l (Z.to_nat i) = Some (s_obj y).
Definition complete (l : list nat) (s : syms) (upto : Z) : Prop :=
  forall i o, Z.of_nat i < upto -> nth_error l i = Some o ->
    exists y, zget s (Z.of_nat i) = Some y /\ s_obj y = o.
Definition is_extend (h : handler) : Prop := exists orig, h = HExtend orig /\ 0 <= orig.

Lemma handle_extend l s n orig : 0 <= orig -> exists s' n',
  handle l s n (HExtend orig) = (s', n', None) /\
  (forall k, ~ orig <= k < len l -> zget s' k = zget s k) /\
  (forall k, orig <= k < len l -> exists y, zget s' k = Some y /\ nth_error l (Z.to_nat k) = Some (s_obj y)).
Proof.
  intros P. simpl. destruct (Z_le_dec orig (len l)) as [L|L].
  - pose proof (extend_get l (Z.to_nat (len l - orig)) orig s n P ltac:(lia)) as G. cbv zeta in G.
    destruct (fold_left _ _ _) as [s' n']. exists s', n'. split; auto.
  - rewrite range_empty by lia. simpl. exists s, n. split; auto. split; auto. intros; lia.
Qed.

Lemma handle_all_extend l hs : Forall is_extend hs -> forall s n s' n',
  handle_all l s n hs = (s', n') -> correct l s ->
  correct l s' /\ (forall u, complete l s u -> complete l s' u) /\
  (forall orig, In (HExtend orig) hs -> complete l s orig -> complete l s' (len l)).
Proof.
  induction 1 as [|h hs (orig & -> & P) _ IH]; intros s n s' n' H C.
  - simpl in H. injection H as <- <-. split; auto. split; auto. intros ? [].
  - destruct (handle_extend l s n orig P) as (s1 & n1 & E & A & B). cbn [handle_all] in H. rewrite E in H.
    assert (C1 : correct l s1).
    { intros i y G. destruct (Z_le_dec orig i); [destruct (Z_lt_dec i (len l))|].
      - destruct (B i ltac:(lia)) as (z & Z1 & Z2). split; [lia|]. congruence.
      - apply C. rewrite <- A; auto; lia.
      - apply C. rewrite <- A; auto; lia. }
    destruct (IH _ _ _ _ H C1) as (D1 & D2 & D3). split; auto.
    assert (M : forall u, complete l s u -> complete l s1 u).
    { intros u K i o U N. assert (Z.of_nat i < len l) by (unfold len; apply Nat2Z.inj_lt, nth_error_Some; congruence).
      destruct (Z_le_dec orig (Z.of_nat i)).
      - destruct (B (Z.of_nat i) ltac:(lia)) as (y & Y1 & Y2). exists y. split; auto. rewrite Nat2Z.id in Y2. congruence.
      - rewrite A by lia. apply K; auto. }
    split; auto. intros o [J|J] K; [|apply (D3 o); auto].
    injection J as <-. apply D2. intros i x U N. destruct (Z_le_dec orig (Z.of_nat i)).
    + destruct (B (Z.of_nat i) ltac:(lia)) as (y & Y1 & Y2). exists y. split; auto. rewrite Nat2Z.id in Y2. congruence.
    + rewrite A by lia. apply K; auto. lia.
Qed.

Lemma run_calls_adds eqb cs : Forall (fun c => adds (snd c)) cs -> forall hist l l' hs,
  run_calls eqb hist l cs = Some (l', hs) ->
  (exists more, l' = l ++ more) /\ Forall is_extend hs /\
  match cs with [] => hs = [] /\ l' = l | (k, _) :: _ => In (HExtend (len (nth k hist l))) hs end.
Proof.
  induction 1 as [|[k o] cs A _ IH]; intros hist l l' hs H; simpl in H.
  - injection H as <- <-. split; [exists []; rewrite app_nil_r; auto|]. split; auto.
  - simpl in A. assert (X : exists m, exec eqb o l = Some (l ++ m)) by (destruct o; simpl in A; try contradiction; simpl; eauto).
    destruct X as [m X]. rewrite X in H.
    destruct (run_calls eqb (hist ++ [l ++ m]) (l ++ m) cs) as [[l2 hs2]|] eqn:R; [|discriminate].
    injection H as <- <-. destruct (IH _ _ _ _ R) as ((m2 & ->) & F & _).
    assert (Y : handler_of eqb o (nth k hist l) l = HExtend (len (nth k hist l))) by (destruct o; simpl in A; try contradiction; auto).
    rewrite Y. split; [exists (m ++ m2); apply app_assoc_reverse|]. split; [|left; auto].
    constructor; auto. exists (len (nth k hist l)). split; auto. apply len_nonneg.
Qed.

Lemma run_stmt_adds eqb t cs t' :
  Forall (fun c => adds (snd c)) cs -> run_stmt eqb t cs = Some t' -> mirrors t ->
  mirrors t' /\ (covers t -> covers t').
Proof.
  unfold run_stmt. intros F H M.
  destruct (run_calls eqb [t_list t] (t_list t) cs) as [[l hs]|] eqn:R; [|discriminate].
  destruct (handle_all l (t_syms t) (t_next t) hs) as [s n] eqn:E. injection H as <-.
  destruct (run_calls_adds _ _ F _ _ _ _ R) as ((m & ->) & X & K).
  assert (C : correct (t_list t ++ m) (t_syms t)).
  { intros i y G. destruct (M _ _ G) as [P N]. split; auto. rewrite nth_error_app1; auto.
    apply nth_error_Some. congruence. }
  destruct (handle_all_extend _ _ X _ _ _ _ E C) as (D1 & D2 & D3). split; [exact D1|].
  intros V i o N. simpl in N |- *.
  assert (B : complete (t_list t ++ m) (t_syms t) (len (t_list t))).
  { intros j x U J. apply V. rewrite nth_error_app1 in J; auto. unfold len in U. lia. }
  destruct cs as [|[k c] cs].
  - destruct K as [-> Q]. simpl in E. injection E as <- <-. apply V. congruence.
  - apply (D3 (len (nth k [t_list t] (t_list t)))); auto.
    + destruct k as [|[|k]]; auto.
    + unfold len. apply Nat2Z.inj_lt, nth_error_Some. congruence.
Qed.
