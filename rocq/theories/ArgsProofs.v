From Coq Require Import List Arith Bool Lia.
From Verif Require Import Base Loops ArgsModel ArgsSpec.
Import ListNotations.

Lemma nth_skipn : forall (l : list nat) k j, nth_error (skipn k l) j = nth_error l (k + j).
Proof.
  induction l as [|x l IH]; intros [|k] j; simpl; auto.
  destruct j; reflexivity.
Qed.

Lemma nth_firstn : forall (l : list nat) k j,
  nth_error (firstn k l) j = if j <? k then nth_error l j else None.
Proof.
  induction l as [|x l IH]; intros [|k] [|j]; simpl; auto.
  - destruct (j <? k); destruct (S j <? S k); reflexivity.
  - rewrite IH. reflexivity.
Qed.

Lemma In_combine_nth : forall (l r : list nat) p e,
  In (p, e) (combine l r) <-> exists i, nth_error l i = Some p /\ nth_error r i = Some e.
Proof.
  induction l as [|x l IH]; intros [|y r] p e; simpl.
  - split; [tauto|]. intros ([|i] & A & B); discriminate.
  - split; [tauto|]. intros ([|i] & A & B); discriminate.
  - split; [tauto|]. intros ([|i] & A & B); discriminate.
  - rewrite IH. split.
    + intros [E | (i & A & B)]; [exists 0; inversion E; auto | exists (S i); auto].
    + intros ([|i] & A & B); simpl in *; [left; congruence | right; eauto].
Qed.

Lemma In_zip : forall ps es p e,
  In (p, e) (zip_args ps es) <->
  exists i, nth_error ps i = Some p /\ nth_error es i = Some (Plain e) /\
            forall j, j < i -> exists e', nth_error es j = Some (Plain e').
Proof.
  induction ps as [|x ps IH]; intros es p e; simpl.
  - split; [tauto|]. intros ([|i] & A & B); discriminate.
  - destruct es as [|[y|y] es]; simpl.
    + split; [tauto|]. intros ([|i] & A & B & C); discriminate.
    + rewrite IH. split.
      * intros [E | (i & A & B & C)].
        -- inversion E; subst. exists 0. repeat apply conj; auto. intros j L. lia.
        -- exists (S i). repeat apply conj; auto. intros [|j] L; simpl; eauto. apply C. lia.
      * intros ([|i] & A & B & C); simpl in *; [left; congruence | right].
        exists i. repeat apply conj; auto. intros j L. apply (C (S j)). lia.
    + split; [tauto|]. intros ([|i] & A & B & C); [discriminate|].
      destruct (C 0 ltac:(lia)) as [e' E]. discriminate.
Qed.

(** The dictionary made from a list of pairs. *)
Lemma dget_made : forall (ms : list (nat * nat)) (s : dict (option nat)) p,
  let s' := fold_left (fun s (pe : nat * nat) => dset s (fst pe) (Some (snd pe))) ms s in
  (dget s' p = dget s p /\ ~ In p (map fst ms)) \/
  exists e, dget s' p = Some (Some e) /\ In (p, e) ms.
Proof.
  induction ms as [|[q x] ms IH]; intros s p; cbn [fold_left map fst snd].
  - left. split; auto.
  - cbv zeta in *. destruct (IH (dset s q (Some x)) p) as [[A B] | (e & A & B)].
    + destruct (Nat.eq_dec q p) as [->|N].
      * right. exists x. rewrite A, dget_dset_same. split; [reflexivity | now left].
      * left. rewrite A, dget_dset_other by congruence. split; [reflexivity|].
        intros [E|I]; auto.
    + right. exists e. split; [exact A | now right].
Qed.

Lemma dget_rest : forall (seen ps : list nat) (s : dict (option nat)) p,
  let s' := fold_left (fun s p => if memb p seen then s else dset s p None) ps s in
  dget s' p = if negb (memb p seen) && memb p ps then Some None else dget s p.
Proof.
  induction ps as [|q ps IH]; intros s p; cbn [fold_left].
  - simpl. now rewrite andb_false_r.
  - cbv zeta in *. rewrite IH. clear IH. simpl memb.
    destruct (memb p seen) eqn:Sp; simpl.
    + destruct (memb q seen) eqn:Sq; [reflexivity|].
      rewrite dget_dset_other; [reflexivity|]. intros ->. congruence.
    + destruct (memb p ps) eqn:Mp.
      * now rewrite orb_true_r.
      * rewrite orb_false_r. destruct (Nat.eqb_spec p q) as [->|N].
        -- rewrite Sp, dget_dset_same. reflexivity.
        -- destruct (memb q seen); [reflexivity|].
           rewrite dget_dset_other by congruence. reflexivity.
Qed.

Lemma dget_parameters : forall d c p,
  (exists e, dget (parameters d c) p = Some (Some e) /\ In (p, e) (matches d c)) \/
  (~ In p (map fst (matches d c)) /\
   dget (parameters d c) p = if memb p (definition_args d) then Some None else None).
Proof.
  intros d c p. unfold parameters. cbv zeta. rewrite dget_rest.
  destruct (dget_made (matches d c) [] p) as [[A B] | (e & A & B)]; cbv zeta in *.
  - right. split; [exact B|].
    rewrite (proj2 (memb_nIn _ _) B). simpl. rewrite A. reflexivity.
  - left. exists e. split; [|exact B].
    assert (I : In p (map fst (matches d c))) by (apply in_map_iff; exists (p, e); auto).
    rewrite (proj2 (memb_In _ _) I). simpl. exact A.
Qed.

Lemma dwf_parameters : forall d c, dwf (parameters d c).
Proof.
  intros d c. unfold parameters. cbv zeta.
  assert (A : dwf (fold_left (fun (s : dict (option nat)) (pe : nat * nat) =>
                    dset s (fst pe) (Some (snd pe))) (matches d c) [])).
  { assert (G : forall ms (s : dict (option nat)), dwf s ->
      dwf (fold_left (fun (s : dict (option nat)) (pe : nat * nat) =>
        dset s (fst pe) (Some (snd pe))) ms s)).
    { induction ms; simpl; intros; auto using dwf_dset. }
    apply G, dwf_nil. }
  revert A.
  generalize (fold_left (fun (s : dict (option nat)) (pe : nat * nat) =>
                    dset s (fst pe) (Some (snd pe))) (matches d c) []).
  induction (definition_args d) as [|q ps IH]; simpl; intros s A; auto.
  apply IH. destruct (memb q _); auto using dwf_dset.
Qed.

(** Parts of the matches. *)
Definition plain_args (d : fundef) : list nat :=
  let n := length (d_defaults d) in
  if n =? 0 then d_args d else but_last_n n (d_args d).

Lemma plain_args_firstn : forall d,
  plain_args d = firstn (length (d_args d) - length (d_defaults d)) (d_args d).
Proof.
  intros d. unfold plain_args, but_last_n. destruct (Nat.eqb_spec (length (d_defaults d)) 0) as [E|N];
    [|reflexivity]. rewrite E, Nat.sub_0_r, firstn_all. reflexivity.
Qed.

Lemma last_skipn : forall n l, last_n n l = if n =? 0 then l else skipn (length l - n) l.
Proof. reflexivity. Qed.

Lemma combine_last : forall (l r : list nat),
  combine (last_n (length r) l) r = combine (skipn (length l - length r) l) r.
Proof.
  intros l r. unfold last_n. destruct (Nat.eqb_spec (length r) 0) as [E|N]; [|reflexivity].
  destruct r; [|discriminate]. rewrite !combine_nil. reflexivity.
Qed.

Lemma default_combine : forall d p e, d_pos d = [] ->
  (default_of d p e <->
   In (p, e) (combine (last_n (length (d_defaults d)) (d_args d)) (d_defaults d))).
Proof.
  intros d p e P. rewrite combine_last, In_combine_nth. unfold default_of. rewrite P. simpl.
  split; intros (i & A & B); exists i; rewrite ?nth_skipn in *; auto.
Qed.

(** The plain parameters, without self, as a beginning of the takers. *)
Lemma plain_takers : forall m d, valid_def d -> d_pos d = [] -> self_first m d ->
  match plain_args d with 0 :: ps => ps | _ => plain_args d end =
  firstn (length (takers m d) - length (d_defaults d)) (takers m d).
Proof.
  intros m d [ND LD] P S. rewrite plain_args_firstn. unfold takers, self_first in *.
  rewrite P in *. simpl in *.
  destruct m.
  - destruct (proj1 S eq_refl) as (ps & E & L). rewrite E. simpl.
    replace (match length (d_defaults d) with 0 => Datatypes.S (length ps) | Datatypes.S l => length ps - l end)
      with (Datatypes.S (length ps - length (d_defaults d))) by (destruct (length (d_defaults d)); lia).
    reflexivity.
  - destruct (d_args d) as [|x ps] eqn:E; [simpl; now destruct (length (d_defaults d))|].
    destruct (firstn (length (x :: ps) - length (d_defaults d)) (x :: ps)) as [|[|y] q] eqn:F;
      try reflexivity.
    exfalso. assert (A : length (d_defaults d) <= length ps).
    { destruct (le_lt_dec (length (x :: ps)) (length (d_defaults d))) as [G|G]; simpl in *; [|lia].
      replace (match length (d_defaults d) with 0 => Datatypes.S (length ps) | Datatypes.S l => length ps - l end)
        with 0 in F by (destruct (length (d_defaults d)); lia). discriminate. }
    simpl in F.
    replace (match length (d_defaults d) with 0 => Datatypes.S (length ps) | Datatypes.S l => length ps - l end)
      with (Datatypes.S (length ps - length (d_defaults d))) in F by (destruct (length (d_defaults d)); lia).
    simpl in F. inversion F; subst.
    assert (false = true) by (apply S; exists ps; auto). discriminate.
Qed.

Definition given (c : call) : list (nat * nat) :=
  flat_map (fun k : option nat * nat =>
    match fst k with Some x => [(x, snd k)] | None => [] end) (c_keywords c).

Lemma In_given : forall c p e, In (p, e) (given c) <-> In (Some p, e) (c_keywords c).
Proof.
  intros c p e. unfold given. rewrite in_flat_map. split.
  - intros ([[x|] y] & I & J); simpl in J; [|tauto].
    destruct J as [J|[]]. inversion J; subst. exact I.
  - intros I. exists (Some p, e). split; [exact I | now left].
Qed.

Definition known (d : fundef) (c : call) : bool :=
  forallb (fun k : option nat * nat => match fst k with
    Some x => memb x (last_n (length (d_defaults d)) (d_args d)) | None => false end)
    (c_keywords c).

Lemma In_last : forall n l p, In p (last_n n l) -> In p l.
Proof.
  intros n l p. unfold last_n. destruct (n =? 0); auto.
  intros I. rewrite <- (firstn_skipn (length l - n) l). apply in_app_iff. auto.
Qed.

Lemma In_matches : forall m d c p e, valid_def d -> d_pos d = [] -> self_first m d ->
  (In (p, e) (matches d c) <->
   known d c = true /\
   ((exists i, i < length (takers m d) - length (d_defaults d) /\
               nth_error (takers m d) i = Some p /\ argument_is c i e) \/
    In (Some p, e) (c_keywords c) \/
    (default_of d p e /\ forall e', ~ In (Some p, e') (c_keywords c)))).
Proof.
  intros m d c p e V P S. unfold matches. cbv zeta. fold (known d c).
  destruct (known d c) eqn:K; simpl; [|split; [tauto | intros [A _]; discriminate]].
  fold (plain_args d). rewrite (plain_takers m d V P S). fold (given c).
  rewrite !in_app_iff, In_zip, In_given, filter_In, <- default_combine by exact P. simpl.
  assert (N : negb (memb p (map fst (given c))) = true <->
              forall e', ~ In (Some p, e') (c_keywords c)).
  { rewrite negb_true_iff, memb_nIn, in_map_iff. split.
    - intros A e' I. apply A. exists (p, e'). split; [reflexivity|]. now apply In_given.
    - intros A ([q e'] & E & I). simpl in E. subst. apply (A e'). now apply In_given. }
  rewrite N. split.
  - intros A. split; [reflexivity|]. destruct A as [(i & A & B) | A]; [left | tauto].
    rewrite nth_firstn in A. destruct (Nat.ltb_spec i (length (takers m d) - length (d_defaults d)));
      [|discriminate]. exists i. auto.
  - intros [_ [(i & L & A & B) | A]]; [left | tauto].
    exists i. rewrite nth_firstn, (proj2 (Nat.ltb_lt _ _) L). auto.
Qed.

Lemma known_named : forall d c, known d c = true -> forall p e, In (Some p, e) (c_keywords c) ->
  In p (last_n (length (d_defaults d)) (d_args d)).
Proof.
  intros d c K p e I. unfold known in K. rewrite forallb_forall in K.
  specialize (K _ I). simpl in K. now apply memb_In.
Qed.

Lemma takers_args : forall m d p, In p (takers m d) -> In p (d_pos d ++ d_args d).
Proof.
  intros [|] d p; unfold takers; auto. destruct (d_pos d ++ d_args d); simpl; auto.
Qed.

Lemma default_args : forall d p e, default_of d p e -> In p (d_pos d ++ d_args d).
Proof. intros d p e (i & _ & A). eapply nth_error_In, A. Qed.

Lemma matches_args : forall m d c p e, valid_def d -> d_pos d = [] -> self_first m d ->
  In (p, e) (matches d c) -> In p (definition_args d).
Proof.
  intros m d c p e V P S I. apply (In_matches m) in I; auto. destruct I as [K I].
  unfold definition_args. apply in_app_iff. left.
  destruct I as [(i & _ & A & _) | [A | [A _]]].
  - apply nth_error_In, takers_args in A. now rewrite P in A.
  - eapply In_last, known_named; eauto.
  - apply default_args in A. now rewrite P in A.
Qed.

(** Every parameter gets a symbol, nothing else does. *)
Lemma names : forall m d c, valid_def d -> d_pos d = [] -> self_first m d ->
  forall p, dget (parameters d c) p <> None <-> In p (definition_args d).
Proof.
  intros m d c V P S p. destruct (dget_parameters d c p) as [(e & A & B) | [B A]]; rewrite A.
  - split; [|discriminate]. intros _. eapply matches_args; eauto.
  - destruct (memb p (definition_args d)) eqn:M.
    + split; [|discriminate]. intros _. now apply memb_In.
    + split; [congruence|]. intros I. apply memb_In in I. congruence.
Qed.

Lemma sound : forall m d c, valid_def d -> d_pos d = [] -> self_first m d ->
  forall p e, dget (parameters d c) p = Some (Some e) ->
  by_position m d c p e \/ by_keyword d c p e \/
  (default_of d p e /\ forall e', ~ by_keyword d c p e').
Proof.
  intros m d c V P S p e G.
  destruct (dget_parameters d c p) as [(e' & A & B) | [B A]].
  - rewrite G in A. inversion A; subst e'. clear A.
    apply (In_matches m) in B; auto. destruct B as [K [(i & _ & A & B) | [B | [A B]]]].
    + left. exists i. auto.
    + right. left. split; [exact B|]. apply in_app_iff. left. eapply In_last, known_named; eauto.
    + right. right. split; [exact A|]. intros e' [C _]. exact (B e' C).
  - rewrite G in A. destruct (memb p (definition_args d)); discriminate.
Qed.

(** Ordinary definitions. *)
Lemma tail_default : forall d i p, d_pos d = [] ->
  length (d_defaults d) <= length (d_args d) ->
  nth_error (d_args d) i = Some p -> length (d_args d) - length (d_defaults d) <= i ->
  exists e, default_of d p e.
Proof.
  intros d i p P L N G.
  assert (I : i < length (d_args d)) by (apply nth_error_Some; congruence).
  destruct (nth_error (d_defaults d) (i - (length (d_args d) - length (d_defaults d)))) as [e|] eqn:E.
  - exists e. exists (i - (length (d_args d) - length (d_defaults d))). split; [exact E|].
    rewrite P. simpl. rewrite <- N. f_equal. lia.
  - exfalso. apply nth_error_None in E. lia.
Qed.

Lemma In_last_default : forall d p e, d_pos d = [] -> default_of d p e ->
  In p (last_n (length (d_defaults d)) (d_args d)).
Proof.
  intros d p e P D. apply default_combine in D; auto. eapply in_combine_l, D.
Qed.

Lemma nodup_args : forall d, valid_def d -> NoDup (d_pos d ++ d_args d).
Proof.
  intros d [N _]. unfold definition_args in N. rewrite app_assoc in N.
  revert N. generalize (d_pos d ++ d_args d), (d_kwonly d ++
    match d_vararg d with Some v => [v] | None => [] end ++
    match d_kwarg d with Some v => [v] | None => [] end).
  intros l r. induction l as [|x l IH]; simpl; [constructor|].
  intros N. inversion N; subst. constructor; auto. intros I. apply H1, in_app_iff. auto.
Qed.

Lemma nodup_takers : forall m d, valid_def d -> NoDup (takers m d).
Proof.
  intros m d V. pose proof (nodup_args d V) as N. unfold takers. destruct m; auto.
  destruct (d_pos d ++ d_args d); simpl; auto. now inversion N.
Qed.

Lemma nth_takers : forall m d i p, nth_error (takers m d) i = Some p ->
  nth_error (d_pos d ++ d_args d) (if m then S i else i) = Some p.
Proof.
  intros [|] d i p; unfold takers; auto. destruct (d_pos d ++ d_args d); simpl; auto.
  now destruct i.
Qed.

Lemma length_takers : forall m d, self_first m d ->
  length (takers m d) = length (d_pos d ++ d_args d) - (if m then 1 else 0).
Proof.
  intros [|] d S; unfold takers; [|lia].
  destruct (proj1 S eq_refl) as (ps & E & _). rewrite E. simpl. lia.
Qed.

Lemma conventional_known : forall m d c, ordinary d -> valid_call m d c -> only_defaults_named d c ->
  known d c = true.
Proof.
  intros m d c (P & K & VA & KA) (_ & VK & _) C. apply forallb_forall. intros [k e] I.
  destruct (VK _ I) as (p & E & J). simpl in E. subst k. simpl. apply memb_In.
  specialize (J KA). destruct (d_defaults d) as [|x ds] eqn:D.
  - simpl. rewrite K, app_nil_r in J. exact J.
  - assert (G : d_defaults d <> []) by congruence.
    destruct (C G p e) as [e' F]; [split; auto|].
    rewrite <- D. eapply In_last_default; eauto.
Qed.

Lemma same_key : forall A B (l : list (A * B)) a b b', NoDup (map fst l) ->
  In (a, b) l -> In (a, b') l -> b = b'.
Proof.
  intros A B l a b b'. induction l as [|[x y] l IH]; simpl; [tauto|].
  intros N I J. inversion N; subst. destruct I as [I|I], J as [J|J].
  - congruence.
  - inversion I; subst. exfalso. apply H1. apply in_map_iff. exists (a, b'). auto.
  - inversion J; subst. exfalso. apply H1. apply in_map_iff. exists (a, b). auto.
  - auto.
Qed.

Lemma position_fun : forall m d c p e e', valid_def d ->
  by_position m d c p e -> by_position m d c p e' -> e = e'.
Proof.
  intros m d c p e e' V (i & A & B & _) (j & C & D & _).
  assert (i = j).
  { eapply (proj1 (NoDup_nth_error (takers m d)) (nodup_takers m d V)).
    - apply nth_error_Some. congruence.
    - congruence. }
  subst j. congruence.
Qed.

Lemma default_fun : forall d p e e', valid_def d -> default_of d p e -> default_of d p e' -> e = e'.
Proof.
  intros d p e e' V (i & A & B) (j & C & D).
  assert (G : length (d_pos d ++ d_args d) - length (d_defaults d) + i =
              length (d_pos d ++ d_args d) - length (d_defaults d) + j).
  { eapply (proj1 (NoDup_nth_error _) (nodup_args d V)).
    - apply nth_error_Some. congruence.
    - congruence. }
  assert (i = j) by lia. subst j. congruence.
Qed.

Lemma default_taken : forall m d p e, valid_def d -> self_first m d -> default_of d p e ->
  In p (takers m d).
Proof.
  intros m d p e [_ L] S (i & A & B). unfold takers. destruct m.
  - destruct (proj1 S eq_refl) as (ps & E & G). rewrite E in *. simpl in B |- *.
    replace (match length (d_defaults d) with 0 => Datatypes.S (length ps) | Datatypes.S l => length ps - l end)
      with (Datatypes.S (length ps - length (d_defaults d))) in B by (destruct (length (d_defaults d)); lia).
    simpl in B. eapply nth_error_In, B.
  - eapply nth_error_In, B.
Qed.

Lemma ordinary_exact : forall m d c, valid_def d -> ordinary d -> self_first m d ->
  valid_call m d c -> conventional m d c ->
  forall p e, dget (parameters d c) p = Some (Some e) <-> receives m d c p e.
Proof.
  intros m d c V O S VC C p e. pose proof O as (P & K & _). pose proof VC as (VS & VK & _ & NK & XX).
  pose proof C as [C1 C2].
  pose proof (conventional_known m d c O VC C2) as KN.
  assert (KW : forall q x, In (Some q, x) (c_keywords c) <-> by_keyword d c q x).
  { intros q x. split; [|intros [A _]; exact A]. intros I. split; [exact I|].
    apply in_app_iff. left. eapply In_last, known_named; eauto. }
  assert (M : forall q x, In (q, x) (matches d c) <-> receives m d c q x).
  { intros q x. rewrite (In_matches m) by auto. split.
    - intros [_ [(i & _ & A & B) | [A | [A B]]]].
      + left. exists i. auto.
      + right. left. now apply KW.
      + right. right. repeat apply conj; auto.
        * eapply default_taken; eauto.
        * intros x'. eapply C1, A.
        * intros x' G. apply (B x'). now apply KW.
    - intros R. split; [exact KN|]. destruct R as [(i & A & B) | [A | (A & _ & _ & B)]].
      + left. exists i. repeat apply conj; auto; try apply B.
        destruct (le_lt_dec (length (takers m d) - length (d_defaults d)) i) as [G|G]; auto.
        exfalso. pose proof (nth_takers m d i q A) as N.
        assert (I : i < length (takers m d)) by (apply nth_error_Some; congruence).
        pose proof (length_takers m d S) as LT.
        destruct V as [_ LD]. rewrite P in *. simpl in *.
        destruct (tail_default d (if m then Datatypes.S i else i) q P LD N) as [x' F].
        * destruct m; lia.
        * apply (C1 q x' x F). exists i. auto.
      + right. left. now apply KW.
      + right. right. split; [exact A|]. intros x' G. apply (B x'). now apply KW. }
  assert (FN : forall q x x', receives m d c q x -> receives m d c q x' -> x = x').
  { intros q x x' [A|[A|(A & A0 & A1 & A2)]] [B|[B|(B & B0 & B1 & B2)]].
    - eapply position_fun; eauto.
    - destruct (XX q x x' A B).
    - destruct (B1 x A).
    - destruct (XX q x' x B A).
    - destruct A as [A _], B as [B _]. eapply same_key; eauto.
    - destruct (B2 x A).
    - destruct (A1 x' B).
    - destruct (A2 x' B).
    - eapply default_fun; eauto. }
  destruct (dget_parameters d c p) as [(e' & A & B) | [B A]]; rewrite A.
  - split.
    + intros E. inversion E; subst. now apply M.
    + intros R. f_equal. f_equal. apply (FN p); auto. now apply M.
  - split.
    + destruct (memb p (definition_args d)); discriminate.
    + intros R. exfalso. apply B. apply M in R. apply in_map_iff. exists (p, e). auto.
Qed.

(** A positional argument for a parameter with a default is lost. *)
Lemma default_wins : forall m d c, valid_def d -> ordinary d -> self_first m d ->
  valid_call m d c -> only_defaults_named d c ->
  forall p e e', default_of d p e' -> by_position m d c p e ->
  dget (parameters d c) p = Some (Some e').
Proof.
  intros m d c V O SF VC C p e e' D B. pose proof O as (P & K & _).
  pose proof VC as (VS & VK & _ & NK & XX).
  pose proof (conventional_known m d c O VC C) as KN.
  assert (NW : forall x, ~ In (Some p, x) (c_keywords c)).
  { intros x I. apply (XX p e x B). split; [exact I|]. apply in_app_iff. left.
    eapply In_last, known_named; eauto. }
  assert (M : In (p, e') (matches d c)).
  { apply (In_matches m); auto. }
  destruct (dget_parameters d c p) as [(x & A & I) | [I A]].
  - rewrite A. f_equal. f_equal. apply (In_matches m) in I; auto.
    destruct I as [_ [(i & L & N & _) | [I | [I _]]]].
    + exfalso. destruct D as (j & D1 & D2). pose proof (nth_takers m d i p N) as N'.
      assert (J : j < length (d_defaults d)) by (apply nth_error_Some; congruence).
      pose proof (length_takers m d SF) as LT.
      assert (G : (if m then S i else i) =
                  length (d_pos d ++ d_args d) - length (d_defaults d) + j).
      { eapply (proj1 (NoDup_nth_error _) (nodup_args d V)).
        - apply nth_error_Some. congruence.
        - congruence. }
      destruct m; lia.
    + destruct (NW x I).
    + eapply default_fun; eauto.
  - exfalso. apply I. apply in_map_iff. exists (p, e'). auto.
Qed.

(** Passing a parameter by keyword that is not among the last ones drops every match. *)
Lemma unknown_drops : forall d c p e, In (Some p, e) (c_keywords c) ->
  ~ In p (last_n (length (d_defaults d)) (d_args d)) ->
  forall q x, dget (parameters d c) q <> Some (Some x).
Proof.
  intros d c p e I N q x G.
  destruct (dget_parameters d c q) as [(y & A & B) | [_ A]].
  - unfold matches in B. cbv zeta in B. fold (known d c) in B.
    destruct (known d c) eqn:K; simpl in B; [|tauto].
    apply N. eapply known_named; eauto.
  - rewrite G in A. destruct (memb q (definition_args d)); discriminate.
Qed.

Lemma kwonly_drops : forall d c p e, valid_def d -> In p (d_kwonly d) -> by_keyword d c p e ->
  forall q x, dget (parameters d c) q <> Some (Some x).
Proof.
  intros d c p e [N _] K [I _]. apply (unknown_drops d c p e I). intros J. apply In_last in J.
  assert (N' : NoDup (d_args d ++ d_kwonly d ++
    match d_vararg d with Some v => [v] | None => [] end ++
    match d_kwarg d with Some v => [v] | None => [] end)).
  { revert N. unfold definition_args. induction (d_pos d); simpl; auto.
    intros N. inversion N; auto. }
  revert J N'. generalize (d_args d). intros l J N'. induction l as [|y l IH]; simpl in *; [tauto|].
  inversion N'; subst. destruct J as [->|J]; auto.
  apply H1. apply in_app_iff. right. apply in_app_iff. auto.
Qed.

Lemma plain_drops : forall d c p e, valid_def d -> d_pos d = [] -> d_defaults d <> [] ->
  by_keyword d c p e -> (forall e', ~ default_of d p e') ->
  forall q x, dget (parameters d c) q <> Some (Some x).
Proof.
  intros d c p e [_ L] P D [I _] N. apply (unknown_drops d c p e I). intros J.
  unfold last_n in J. destruct (Nat.eqb_spec (length (d_defaults d)) 0) as [E|_].
  - destruct (d_defaults d); [congruence | discriminate].
  - apply In_nth_error in J. destruct J as [i J]. rewrite nth_skipn in J.
    rewrite P in L. simpl in L.
    destruct (tail_default d _ p P L J) as [e' F]; [lia|]. exact (N e' F).
Qed.
