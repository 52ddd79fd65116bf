(** Proofs about the text of slices and about redirected seeds. *)
Require Import String Ascii List ZArith Bool Arith Lia Sorted Permutation.
Import ListNotations.
Require Import Verif.Base Verif.TimestampModel Verif.TimestampProofs Verif.SessionModel
  Verif.SessionProofs Verif.SliceModel Verif.SliceSpec Verif.SliceProofs.
Local Open Scope nat_scope.

(** ** Stripping *)

Lemma append_nil (s : string) : (s ++ "")%string = s.
Proof. induction s; simpl; congruence. Qed.

Lemma append_assoc (a b c : string) : ((a ++ b) ++ c = a ++ (b ++ c))%string.
Proof. induction a; simpl; congruence. Qed.

Lemma is_space_white c : is_space c = true <-> white c.
Proof.
  unfold is_space, white. generalize (nat_of_ascii c). intros n. split.
  - rewrite !orb_true_iff, !andb_true_iff, Nat.eqb_eq, !Nat.leb_le. simpl. lia.
  - intros H. simpl in H.
    repeat match type of H with
    | _ \/ _ => destruct H as [<-|H]; [reflexivity|]
    | False => destruct H
    end.
Qed.

Lemma is_space_black c : is_space c = false <-> ~ white c.
Proof. rewrite <- is_space_white. destruct (is_space c); split; congruence. Qed.

Lemma join_joined sep l : joined sep l (join sep l).
Proof.
  induction l as [|a l IH]; [constructor|]. destruct l as [|b l]; [constructor|].
  change (join sep (a :: b :: l)) with (a ++ sep ++ join sep (b :: l))%string.
  now constructor.
Qed.

Lemma lstrip_spec s : exists a, s = (a ++ lstrip s)%string /\ blank a /\
  forall c s', lstrip s = String c s' -> ~ white c.
Proof.
  induction s as [|c s (a & E & B & F)].
  - exists ""%string. simpl. repeat split; auto. discriminate.
  - simpl. destruct (is_space c) eqn:S.
    + apply is_space_white in S. exists (String c a). simpl. rewrite <- E. auto.
    + apply is_space_black in S. exists ""%string. simpl. split; auto. split; auto.
      intros ? ? [= <- <-]. auto.
Qed.

Lemma rstrip_spec s : exists b, s = (rstrip s ++ b)%string /\ blank b /\
  (forall c s', rstrip s = (s' ++ String c "")%string -> ~ white c) /\
  (forall c s', rstrip s = String c s' -> exists s'', s = String c s'').
Proof.
  induction s as [|c s (b & E & B & F & G)].
  - exists ""%string. simpl. repeat split; auto.
    + intros c [|? ?]; discriminate.
    + discriminate.
  - simpl. destruct (rstrip s) as [|c' r] eqn:R.
    + destruct (is_space c) eqn:S; [apply is_space_white in S|apply is_space_black in S].
      * exists (String c s). simpl in E. simpl. subst b. 
        split; auto. split; auto. split; [intros ? [|? ?]; discriminate|discriminate].
      * exists b. simpl in E. simpl. subst b. 
        split; auto. split; auto. split.
        -- intros d [|? [|? ?]]; simpl; try congruence.
        -- intros d s' [= <- <-]. eauto.
    + exists b. rewrite E. split; auto. split; auto. split.
      * intros d [|x s']; simpl; [congruence|]. intros [= <- H]. eapply F. exact H.
      * intros d s' [= <- <-]. eauto.
Qed.

Lemma strip_stripped s : stripped s (strip s).
Proof.
  unfold strip. destruct (lstrip_spec s) as (a & E & B & F).
  destruct (rstrip_spec (lstrip s)) as (b & E' & B' & F' & G). split; [|split].
  - exists a, b. rewrite <- E', <- E. auto.
  - intros c s' H. destruct (G _ _ H) as [s'' H']. eauto.
  - exact F'.
Qed.

(** ** Grouping by cell *)

Lemma zget_In {V} (d : list (Z * V)) k v : zget d k = Some v -> In (k, v) d.
Proof.
  induction d as [|[k' v'] d IH]; simpl; [discriminate|].
  destruct (Z.eqb_spec k k') as [->|]; [intros [= ->]; auto|auto].
Qed.

Lemma In_zget {V} (d : list (Z * V)) k v :
  NoDup (map fst d) -> In (k, v) d -> zget d k = Some v.
Proof.
  induction d as [|[k' v'] d IH]; simpl; [tauto|]. intros N [H|H].
  - injection H as -> ->. now rewrite Z.eqb_refl.
  - inversion N; subst. destruct (Z.eqb_spec k k') as [->|]; auto.
    exfalso. apply H2. apply in_map_iff. exists (k', v). auto.
Qed.

Lemma zset_keys {V} (d : list (Z * V)) k v :
  NoDup (map fst d) ->
  NoDup (map fst (zset d k v)) /\
  forall k', In k' (map fst (zset d k v)) <-> k' = k \/ In k' (map fst d).
Proof.
  induction d as [|[k' v'] d IH]; simpl; intros N.
  - split; [constructor; [simpl; tauto|constructor]|]. intuition auto.
  - inversion N; subst. destruct (Z.eqb_spec k k') as [->|Hk]; simpl.
    + split; [constructor; auto|]. intuition auto.
    + destruct (IH H2) as [A B]. split.
      * constructor; auto. rewrite B. intuition auto.
      * intros x. rewrite B. intuition auto.
Qed.

Definition group_step (w : world) (d : list (Z * list string)) (u : nat)
  : res (list (Z * list string)) :=
  rmap (fun o => let k := cell_num (so_ts o) in
          zset d k ((match zget d k with Some l => l | None => [] end) ++ [so_text o])%list)
       (wobj w u).

Lemma texts_of_cell_app w l l' n :
  texts_of_cell w (l ++ l') n = texts_of_cell w l n ++ texts_of_cell w l' n.
Proof. unfold texts_of_cell. apply flat_map_app. Qed.

Definition opt_texts (l : list string) : option (list string) :=
  match l with [] => None | _ => Some l end.

Lemma group_fold w : forall l done d d',
  NoDup (map fst d) ->
  (forall n, zget d n = opt_texts (texts_of_cell w done n)) ->
  rfold (group_step w) l d = Ok d' ->
  NoDup (map fst d') /\ (forall n, zget d' n = opt_texts (texts_of_cell w (done ++ l) n)).
Proof.
  induction l as [|u l IH]; intros done d d' N G; simpl.
  - intros [= <-]. rewrite app_nil_r. auto.
  - unfold group_step at 1. destruct (wobj w u) as [o|] eqn:O; simpl; [|discriminate].
    apply wobj_Ok in O. intros H.
    replace (done ++ u :: l) with ((done ++ [u]) ++ l) by (rewrite <- app_assoc; auto).
    eapply IH; [| |exact H].
    + apply zset_keys; auto.
    + intros n. rewrite zget_zset. rewrite texts_of_cell_app. cbn [texts_of_cell flat_map].
      rewrite O, app_nil_r. rewrite G.
      destruct (Z.eqb_spec n (cell_num (so_ts o))) as [->|Hn].
      * rewrite Z.eqb_refl. destruct (texts_of_cell w done _); simpl; auto.
      * destruct (Z.eqb_spec (cell_num (so_ts o)) n); [congruence|].
        rewrite app_nil_r, G. auto.
Qed.

Lemma group_total w : forall l d,
  (forall u, In u l -> u < length (objs w)) -> exists d', rfold (group_step w) l d = Ok d'.
Proof.
  induction l as [|u l IH]; intros d B; simpl; [eauto|].
  unfold group_step at 1. destruct (nth_error (objs w) u) as [o|] eqn:O.
  - apply wobj_Ok in O. rewrite O. simpl. apply IH. intros; apply B; right; auto.
  - apply nth_error_None in O. specialize (B u (or_introl eq_refl)). lia.
Qed.

Lemma cell_dict_spec w l d : cell_dict w l = Ok d ->
  NoDup (map fst d) /\
  forall n t, In (n, t) d <->
    texts_of_cell w l n <> [] /\ t = join nl (texts_of_cell w l n).
Proof.
  unfold cell_dict. change (rfold _ l []) with (rfold (group_step w) l []).
  destruct (rfold (group_step w) l []) as [g|] eqn:R; simpl; [|discriminate].
  intros [= <-]. apply (group_fold w l [] []) in R; [|constructor|auto].
  destruct R as [N G]. simpl in G. split.
  - rewrite map_map. simpl. auto.
  - intros n t. rewrite in_map_iff. split.
    + intros ([k ls] & [= <- <-] & H). apply In_zget in H; auto. rewrite G in H.
      destruct (texts_of_cell w l k); simpl in *; [discriminate|].
      injection H as <-. split; auto. discriminate.
    + intros [A ->]. exists (n, texts_of_cell w l n). split; auto. apply zget_In.
      rewrite G. destruct (texts_of_cell w l n); auto. congruence.
Qed.

Lemma cell_dict_total w l : (forall u, In u l -> u < length (objs w)) ->
  exists d, cell_dict w l = Ok d.
Proof.
  intros B. unfold cell_dict. change (rfold _ l []) with (rfold (group_step w) l []).
  destruct (group_total w l [] B) as [g ->]. simpl. eauto.
Qed.

Lemma sorted_blocks (d : list (Z * string)) : NoDup (map fst d) ->
  StronglySorted Z.lt (map fst (sort_by (fun a b => (fst a <=? fst b)%Z) d)) /\
  Permutation (sort_by (fun a b => (fst a <=? fst b)%Z) d) d.
Proof.
  intros N. pose proof (sort_by_perm (fun a b : Z * string => (fst a <=? fst b)%Z) d) as P.
  split; auto.
  assert (S : StronglySorted (fun a b : Z * string => (fst a <=? fst b)%Z = true)
     (sort_by (fun a b => (fst a <=? fst b)%Z) d)).
  { apply sort_by_sorted; intros; lia. }
  assert (N' : NoDup (map fst (sort_by (fun a b : Z * string => (fst a <=? fst b)%Z) d))).
  { eapply Permutation_NoDup; [|exact N]. apply Permutation_map, Permutation_sym, P. }
  revert S N'. generalize (sort_by (fun a b : Z * string => (fst a <=? fst b)%Z) d).
  clear. induction l as [|a l IH]; simpl; intros S N; [constructor|].
  inversion S; inversion N; subst. constructor; auto.
  apply Forall_forall. intros k Hk. rewrite Forall_forall in H2.
  pose proof Hk as Hk'. apply in_map_iff in Hk. destruct Hk as (b & <- & Hb).
  specialize (H2 b Hb). destruct (Z.eq_dec (fst a) (fst b)); [|lia].
  rewrite e in H5. contradiction.
Qed.

Lemma format_slice_keys black b d : map fst (format_slice black b d) = map fst d.
Proof. unfold format_slice. destruct b; auto. rewrite map_map. reflexivity. Qed.

(** ** Redirected seeds *)

Definition seed_step (w : world) (acc : list seed) (sd : seed) : res (list seed) :=
  rbind (match sd with
         | SObj u => rmap (fun o => STs (so_ts o)) (wobj w u)
         | _ => Ok sd
         end) (fun sd =>
  let n := match sd with SCtr n => n | STs t => cell_num t | SObj _ => 0%Z end in
  rbind (of_option KeyError (zget (w_skipped w) n)) (fun mem =>
    Ok (acc ++ [if (mem =? -1)%Z then sd
                else match sd with
                     | SCtr _ => SCtr mem
                     | STs t => STs (mkTs mem (stmt_num t))
                     | SObj u => SObj u
                     end]))).

Lemma ts_eta t : mkTs (cell_num t) (stmt_num t) = t.
Proof. destruct t; auto. Qed.

Lemma seed_step_spec w acc sd acc' : seed_step w acc sd = Ok acc' ->
  exists sd', acc' = acc ++ [sd'] /\ forall sd'', redirected w sd sd'' <-> sd'' = sd'.
Proof.
  unfold seed_step, redirected.
  destruct sd as [n|t|u]; simpl.
  - destruct (zget (w_skipped w) n) as [mem|] eqn:M; simpl; [|discriminate].
    intros [= <-]. eexists; split; [reflexivity|]. intros sd''.
    destruct (Z.eqb_spec mem (-1)) as [->|Hm].
    + split.
      * intros (? & ? & [= <-] & E & [[_ ->]|[N _]]); auto. congruence.
      * intros ->. exists n, (-1)%Z. auto.
    + split.
      * intros (? & ? & [= <-] & E & [[N _]|[_ ->]]); congruence.
      * intros ->. exists n, mem. auto.
  - destruct (zget (w_skipped w) (cell_num t)) as [mem|] eqn:M; simpl; [|discriminate].
    intros [= <-]. eexists; split; [reflexivity|]. intros sd''.
    destruct (Z.eqb_spec mem (-1)) as [->|Hm].
    + split.
      * intros (? & ? & [= <-] & E & [[_ ->]|[N _]]); [|congruence]. now rewrite ts_eta.
      * intros ->. exists (cell_num t), (-1)%Z. cbn [moved_to]; rewrite ts_eta; auto.
    + split.
      * intros (? & ? & [= <-] & E & [[N _]|[_ ->]]); congruence.
      * intros ->. exists (cell_num t), mem. auto.
  - destruct (wobj w u) as [o|] eqn:O; simpl; [|discriminate]. apply wobj_Ok in O.
    rewrite O.
    destruct (zget (w_skipped w) (cell_num (so_ts o))) as [mem|] eqn:M; simpl; [|discriminate].
    intros [= <-]. eexists; split; [reflexivity|]. intros sd''.
    destruct (Z.eqb_spec mem (-1)) as [->|Hm].
    + split.
      * intros (? & ? & [= <-] & E & [[_ (o' & [= <-] & ->)]|[N _]]); [|congruence].
        now rewrite ts_eta.
      * intros ->. exists (cell_num (so_ts o)), (-1)%Z. split; auto. split; auto.
        left. split; auto. exists o. split; auto. now rewrite ts_eta.
    + split.
      * intros (? & ? & [= <-] & E & [[N _]|[_ (o' & [= <-] & ->)]]); congruence.
      * intros ->. exists (cell_num (so_ts o)), mem. split; auto. split; auto.
        right. split; auto. exists o. auto.
Qed.

Lemma seeds_spec w : forall seeds acc acc',
  rfold (seed_step w) seeds acc = Ok acc' ->
  forall sd', In sd' acc' <-> In sd' acc \/ exists sd, In sd seeds /\ redirected w sd sd'.
Proof.
  induction seeds as [|sd seeds IH]; intros acc acc'; simpl.
  - intros [= <-] sd'. split; auto. intros [?|(? & [] & _)]; auto.
  - destruct (seed_step w acc sd) as [acc1|] eqn:S; simpl; [|discriminate].
    intros H sd'. rewrite (IH _ _ H).
    destruct (seed_step_spec _ _ _ _ S) as (s1 & -> & R). rewrite in_app_iff. simpl.
    split.
    + intros [[?|[<-|[]]]|(x & ? & ?)]; eauto.
      right. exists sd. split; auto. now apply R.
    + intros [?|(x & [<-|?] & Q)]; eauto. apply R in Q. subst. auto.
Qed.

Lemma process_memoized_seeds_spec w seeds seeds' :
  process_memoized_seeds w seeds = Ok seeds' ->
  forall sd', In sd' seeds' <-> exists sd, In sd seeds /\ redirected w sd sd'.
Proof.
  unfold process_memoized_seeds. fold (seed_step w).
  change (rfold _ seeds []) with (rfold (seed_step w) seeds []).
  intros H sd'. rewrite (seeds_spec _ _ _ _ H). simpl. intuition auto.
Qed.

Lemma process_memoized_seeds_total w : forall seeds acc,
  (forall sd, In sd seeds -> exists n mem, seed_ctr w sd = Some n /\
                                           zget (w_skipped w) n = Some mem) ->
  exists seeds', rfold (seed_step w) seeds acc = Ok seeds'.
Proof.
  induction seeds as [|sd seeds IH]; intros acc K; simpl; [eauto|].
  assert (E : exists acc1, seed_step w acc sd = Ok acc1).
  { destruct (K sd (or_introl eq_refl)) as (n & mem & A & B). unfold seed_step.
    destruct sd as [n'|t|u]; simpl in *.
    - injection A as ->. rewrite B. simpl. eauto.
    - injection A as ->. rewrite B. simpl. eauto.
    - destruct (nth_error (objs w) u) as [o|] eqn:O; [|discriminate].
      injection A as <-. apply wobj_Ok in O. rewrite O. simpl. rewrite B. simpl. eauto. }
  destruct E as [acc1 ->]. simpl. apply IH. intros; apply K; right; auto.
Qed.

(** ** The whole text *)

Lemma NoDup_keys_fun {V} (d : list (Z * V)) n a b :
  NoDup (map fst d) -> In (n, a) d -> In (n, b) d -> a = b.
Proof. intros N A B. apply In_zget in A, B; auto. congruence. Qed.

Lemma slice_text_shows w l d black blacken headers :
  cell_dict w l = Ok d ->
  shows w l black blacken headers (slice_text headers (format_slice black blacken d)).
Proof.
  intros H. apply cell_dict_spec in H. destruct H as [N H].
  set (d' := format_slice black blacken d).
  assert (N' : NoDup (map fst d')) by (unfold d'; rewrite format_slice_keys; auto).
  destruct (sorted_blocks d' N') as [S P].
  exists (sort_by (fun a b => (fst a <=? fst b)%Z) d').
  split; auto. split; [|split].
  - intros n. split.
    + intros [t Ht]. apply (Permutation_in _ P) in Ht.
      assert (K : In n (map fst d)).
      { rewrite <- (format_slice_keys black blacken d). apply in_map_iff. exists (n, t). auto. }
      apply in_map_iff in K. destruct K as ([n' t'] & E & K). simpl in E. subst n'.
      apply H in K. tauto.
    + intros T. assert (K : In n (map fst d')).
      { unfold d'. rewrite format_slice_keys. apply in_map_iff.
        exists (n, join nl (texts_of_cell w l n)). split; auto. apply H. auto. }
      apply in_map_iff in K. destruct K as ([n' t'] & E & K). simpl in E. subst n'.
      exists t'. apply (Permutation_in _ (Permutation_sym P)). auto.
  - intros n t Ht. apply (Permutation_in _ P) in Ht. unfold d', format_slice in Ht.
    exists (join nl (texts_of_cell w l n)). split; [apply join_joined|].
    unfold formatted. destruct blacken.
    + apply in_map_iff in Ht. destruct Ht as ([n' t'] & [= -> E] & K).
      apply H in K. destruct K as [_ ->]. destruct (black _); subst; auto.
      apply strip_stripped.
    + apply H in Ht. tauto.
  - eexists. split; [|apply strip_stripped]. apply join_joined.
Qed.
