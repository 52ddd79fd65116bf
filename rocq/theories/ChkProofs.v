(** Proofs about verdicts. *)

From Coq Require Import List Bool Arith Sorted Lia.
From Verif Require Import Base Loops ChkModel ChkSpec.
Import ListNotations.

Lemma dget_invalidate cs n m :
  dget (invalidate cs n) m =
  if m =? n then option_map (fun c => mkCell (cid c) (content c) None (override c)) (dget cs m)
  else dget cs m.
Proof.
  unfold invalidate. destruct (dget cs n) as [c|] eqn:E.
  - rewrite dget_dset. destruct (Nat.eqb_spec m n) as [->|N]; [rewrite E|]; reflexivity.
  - destruct (Nat.eqb_spec m n) as [->|N]; [rewrite E|]; reflexivity.
Qed.

(** Two cells are alike but for the verdict. *)
Definition alike (c c' : cell) : Prop :=
  cid c = cid c' /\ content c = content c' /\ override c = override c'.

Lemma fold_invalidate l : forall cs m,
  match dget cs m, dget (fold_left invalidate l cs) m with
  | Some c, Some c' => alike c c' /\ verdict c' = if memb m l then None else verdict c
  | None, None => True
  | _, _ => False
  end.
Proof.
  induction l as [|n l IH]; intros cs m; cbn [fold_left].
  - destruct (dget cs m); [split; [repeat split|reflexivity]|exact I].
  - specialize (IH (invalidate cs n) m). rewrite dget_invalidate in IH.
    unfold memb in *. cbn [existsb].
    destruct (Nat.eqb_spec m n) as [EQ|N]; [subst m|].
    + destruct (dget cs n) as [c|]; cbn [option_map] in IH.
      * destruct (dget (fold_left invalidate l (invalidate cs n)) n) as [c'|]; [|destruct IH].
        destruct IH as [A V]. split; [exact A|]. cbn in V |- *.
        destruct (existsb (Nat.eqb n) l); exact V.
      * exact IH.
    + cbn [orb]. exact IH.
Qed.

(** What a program depends on is the same in two states. *)
Definition same_view (S S' : state) : Prop :=
  (forall n, match dget (cells S) n, dget (cells S') n with
             | Some c, Some c' => cid c = cid c' /\ content c = content c'
             | None, None => True | _, _ => False end) /\
  current S = current S' /\
  (forall x, option_map obj (dget (syms S) x) = option_map obj (dget (syms S') x)).

Lemma view_content S S' n txt : same_view S S' -> has_content S n txt -> has_content S' n txt.
Proof.
  intros (C & _) (c & E & T). specialize (C n). rewrite E in C.
  destruct (dget (cells S') n) as [c'|] eqn:E'; [|destruct C].
  exists c'. split; [exact E'|]. destruct C as [_ C]. congruence.
Qed.

Lemma view_present S S' n : same_view S S' -> present S n -> present S' n.
Proof.
  intros (C & K & _) (c & E & T). specialize (C n). rewrite E in C.
  destruct (dget (cells S') n) as [c'|] eqn:E'; [|destruct C].
  exists c'. split; [exact E'|]. destruct C as [C _]. rewrite <- C, <- K. exact T.
Qed.

Lemma view_sym S S' : same_view S S' -> same_view S' S.
Proof.
  intros (C & K & Y). repeat split; [|congruence|congruence].
  intros n. specialize (C n).
  destruct (dget (cells S) n), (dget (cells S') n); auto. destruct C. split; congruence.
Qed.

Lemma declarations_same O S S' live decls :
  (forall y x, In y live -> top O y = Some x ->
     option_map (fun s => text O (obj s)) (dget (syms S) x)
     = option_map (fun s => text O (obj s)) (dget (syms S') x)) ->
  declarations O S live decls -> declarations O S' live decls.
Proof.
  intros Y [N D]. split; [exact N|]. intros x t. rewrite D. split.
  - intros (y & s & Hy & T & E & X). specialize (Y y x Hy T). rewrite E in Y. cbn in Y.
    destruct (dget (syms S') x) as [s'|] eqn:E'; [|discriminate Y].
    exists y, s'. cbn in Y. repeat split; auto. congruence.
  - intros (y & s & Hy & T & E & X). specialize (Y y x Hy T). rewrite E in Y. cbn in Y.
    destruct (dget (syms S) x) as [s'|] eqn:E'; [|discriminate Y].
    exists y, s'. cbn in Y. repeat split; auto. congruence.
Qed.

Lemma contents_same S S' ctr lc cs : same_cells S S' (ctr :: lc) ->
  contents S ctr lc cs -> contents S' ctr lc cs.
Proof.
  intros C (ctrs & ST & M & F). exists ctrs. split; [exact ST|].
  assert (IN : forall n, In n ctrs -> In n (ctr :: lc)).
  { intros n Hn. apply M in Hn. destruct Hn as [->|[Hn _]]; [left; reflexivity|right; exact Hn]. }
  split.
  - intros n. rewrite M. split; (intros [H|[H1 H2]]; [left; exact H|right; split; [exact H1|]]).
    + apply (C n (or_intror H1)), H2.
    + apply (C n (or_intror H1)), H2.
  - clear M ST. induction F as [|n t ctrs cs H F IH]; constructor.
    + apply C; [apply IN; left; reflexivity|exact H].
    + apply IH. intros m Hm. apply IN. right; exact Hm.
Qed.

Lemma view_same_cells S S' l : same_view S S' -> same_cells S S' l.
Proof.
  intros V n _. split; [intros t|]; split; intros H;
    (eapply view_content || eapply view_present); eauto using view_sym.
Qed.

Lemma up_to_date_view O S S' ctr live lc b : same_view S S' ->
  up_to_date O S ctr live lc b -> up_to_date O S' ctr live lc b.
Proof.
  intros V (decls & cs & D & C & E). exists decls, cs. split; [|split; [|exact E]].
  - eapply declarations_same; [|exact D]. intros y x _ _. destruct V as (_ & _ & Y).
    specialize (Y x). destruct (dget (syms S) x), (dget (syms S') x); cbn in *; congruence.
  - eapply contents_same; [apply view_same_cells, V|exact C].
Qed.

(** ** Building *)

Lemma rmapm_Ok {A B} (f : A -> res B) l r : rmapm f l = Ok r -> Forall2 (fun a b => f a = Ok b) l r.
Proof.
  revert r. induction l as [|a l IH]; intros r E; cbn [rmapm] in E.
  - inversion E. constructor.
  - apply rbind_Ok in E. destruct E as (b & Eb & E). apply rmap_Ok in E.
    destruct E as (r0 & Er & E0). subst r. constructor; auto.
Qed.

Lemma tops_in O live x : In x (tops O live) <-> exists y, In y live /\ top O y = Some x.
Proof.
  induction live as [|y r IH]; cbn [tops].
  - split; [intros []|intros (y & [] & _)].
  - destruct (top O y) as [t|] eqn:T; rewrite ?In_sadd, IH.
    + split.
      * intros [->|(z & Hz & Tz)]; [exists y; split; [left; reflexivity|exact T]|].
        exists z. split; [right; exact Hz|exact Tz].
      * intros (z & [<-|Hz] & Tz); [left; congruence|right; eauto].
    + split.
      * intros (z & Hz & Tz). exists z. split; [right; exact Hz|exact Tz].
      * intros (z & [<-|Hz] & Tz); [congruence|eauto].
Qed.

Lemma tops_nodup O live : NoDup (tops O live).
Proof.
  induction live as [|y r IH]; cbn [tops]; [constructor|].
  destruct (top O y) as [t|]; [|exact IH]. unfold sadd. destruct (memb t (tops O r)) eqn:M; [exact IH|].
  apply memb_nIn in M.
  assert (X : forall l, NoDup l -> ~ In t l -> NoDup (l ++ [t])).
  { intros l. induction l as [|a l IHl]; intros N NI; cbn; [repeat constructor; auto|].
    inversion N; subst. constructor.
    - rewrite in_app_iff. intros [H|[->|[]]]; [contradiction|]. apply NI; left; reflexivity.
    - apply IHl; auto. intros H. apply NI; right; exact H. }
  first [apply X; assumption | constructor; assumption].
Qed.

Lemma insert_in n l x : In x (insert n l) <-> x = n \/ In x l.
Proof.
  induction l as [|m r IH]; cbn [insert]; [cbn; intuition|].
  destruct (n <? m); [cbn; intuition|]. destruct (Nat.eqb_spec n m) as [->|N]; [cbn; intuition|].
  cbn [In]. rewrite IH. intuition.
Qed.

Lemma insert_sorted n l : StronglySorted lt l -> StronglySorted lt (insert n l).
Proof.
  induction 1 as [|m r S IH F]; cbn [insert]; [repeat constructor|].
  destruct (Nat.ltb_spec n m) as [L|G].
  - constructor; [constructor; assumption|]. constructor; [exact L|].
    eapply Forall_impl; [|exact F]. cbn. intros a Ha. lia.
  - destruct (Nat.eqb_spec n m) as [->|N]; [constructor; assumption|].
    constructor; [exact IH|]. apply Forall_forall. intros x Hx. apply insert_in in Hx.
    destruct Hx as [->|Hx]; [lia|]. rewrite Forall_forall in F. auto.
Qed.

Lemma is_current_spec S n b : is_current S n = Ok b -> (b = true <-> present S n).
Proof.
  unfold is_current. destruct (dget (cells S) n) as [c|] eqn:E; [|discriminate].
  intros X. injection X as <-. split.
  - destruct (dget (current S) (cid c)) as [m|] eqn:Q; [|discriminate].
    intros H. apply Nat.eqb_eq in H. subst m. exists c. auto.
  - intros (c' & E' & Q). assert (c' = c) by congruence. subst c'. rewrite Q.
    apply Nat.eqb_refl.
Qed.

Lemma slice_ctrs_spec S ctr lc ctrs : slice_ctrs S ctr lc = Ok ctrs ->
  StronglySorted lt ctrs /\
  forall n, In n ctrs <-> n = ctr \/ (In n lc /\ present S n).
Proof.
  unfold slice_ctrs. intros E.
  assert (G : forall lc acc r,
    rfold (fun acc n => rmap (fun b : bool => if b then insert n acc else acc) (is_current S n))
      lc acc = Ok r -> StronglySorted lt acc ->
    StronglySorted lt r /\ forall n, In n r <-> In n acc \/ (In n lc /\ present S n)).
  { clear. induction lc as [|m lc IH]; intros acc r E ST; cbn [rfold] in E.
    - inversion E; subst. split; [exact ST|]. intros n. cbn. tauto.
    - apply rbind_Ok in E. destruct E as (acc' & E1 & E2). apply rmap_Ok in E1.
      destruct E1 as (b & B & <-). pose proof (is_current_spec _ _ _ B) as P.
      assert (ST' : StronglySorted lt (if b then insert m acc else acc)).
      { destruct b; [apply insert_sorted|]; exact ST. }
      destruct (IH _ _ E2 ST') as [I1 I2]. split; [exact I1|]. intros n. rewrite I2.
      destruct b.
      + rewrite insert_in. cbn [In]. split.
        * intros [[->|H]|[H1 H2]]; auto. right. split; [left; reflexivity|apply P; reflexivity].
        * intros [H|[[->|H1] H2]]; auto.
      + cbn [In]. split.
        * intros [H|[H1 H2]]; auto.
        * intros [H|[[->|H1] H2]]; auto. apply P in H2. discriminate H2. }
  destruct (G _ _ _ E) as [G1 G2]; [repeat constructor|]. split; [exact G1|].
  intros n. rewrite G2. cbn [In]. split; [intros [[->|[]]|H]; auto|intros [->|H]; auto].
Qed.

Lemma f2_in {A B} (R : A -> B -> Prop) l r : Forall2 R l r ->
  (forall a, In a l -> exists b, In b r /\ R a b) /\
  (forall b, In b r -> exists a, In a l /\ R a b).
Proof.
  induction 1 as [|a b l r H F [I1 I2]]; [split; intros a []|]. split.
  - intros x [<-|Hx]; [exists b; split; [left; reflexivity|exact H]|].
    destruct (I1 _ Hx) as (y & Hy & Q). exists y. split; [right; exact Hy|exact Q].
  - intros y [<-|Hy]; [exists a; split; [left; reflexivity|exact H]|].
    destruct (I2 _ Hy) as (x & Hx & Q). exists x. split; [right; exact Hx|exact Q].
Qed.

Lemma declare_Ok O S x d : declare O S x = Ok d ->
  exists s, dget (syms S) x = Some s /\ d = (x, text O (obj s)).
Proof.
  unfold declare. intros E. apply rmap_Ok in E. destruct E as (s & E & <-).
  apply of_option_Ok in E. eauto.
Qed.

Lemma build_spec O S ctr live lc decls cs : build O S ctr live lc = Ok (decls, cs) ->
  declarations O S live decls /\ contents S ctr lc cs.
Proof.
  unfold build. intros E. apply rbind_Ok in E. destruct E as (d & ED & E).
  apply rbind_Ok in E. destruct E as (ctrs & EC & E). apply rmap_Ok in E.
  destruct E as (cs' & ES & X). inversion X; subst d cs'. clear X.
  apply rmapm_Ok in ED. apply rmapm_Ok in ES. split.
  - assert (MF : map fst decls = tops O live).
    { clear - ED. induction ED as [|x d l ds H F IH]; [reflexivity|]. cbn [map].
      apply declare_Ok in H. destruct H as (s & _ & ->). cbn [fst]. congruence. }
    split; [rewrite MF; apply tops_nodup|]. destruct (f2_in _ _ _ ED) as [D1 D2].
    intros x t. split.
    + intros H. destruct (D2 _ H) as (x' & Hx & Q). apply declare_Ok in Q.
      destruct Q as (s & Es & Eq). inversion Eq; subst. apply tops_in in Hx.
      destruct Hx as (y & Hy & T). exists y, s. auto.
    + intros (y & s & Hy & T & Es & <-). destruct (D1 x) as (d & Hd & Q); [apply tops_in; eauto|].
      apply declare_Ok in Q. destruct Q as (s' & Es' & ->). congruence.
  - destruct (slice_ctrs_spec _ _ _ _ EC) as [S1 S2]. exists ctrs. split; [exact S1|].
    split; [exact S2|]. clear - ES. induction ES as [|n t l r H F IH]; constructor; [|exact IH].
    apply rmap_Ok in H. destruct H as (c & Ec & <-). apply of_option_Ok in Ec. exists c. auto.
Qed.

(** ** One check *)

Lemma note_live_view ctr x S S' : note_live ctr S x = Ok S' ->
  cells S' = cells S /\ current S' = current S /\
  (forall y, match dget (syms S) y, dget (syms S') y with
             | Some s, Some s' => obj s' = obj s /\ ckind s' = ckind s /\
                 (forall n, In n (where_live s) -> In n (where_live s')) /\
                 (y = x -> In ctr (where_live s'))
             | None, None => True | _, _ => False end).
Proof.
  unfold note_live. destruct (dget (syms S) x) as [s|] eqn:E; [|discriminate].
  intros X. inversion X; subst; cbn [cells current syms]. repeat split.
  intros y. rewrite dget_dset. destruct (Nat.eqb_spec y x) as [->|N].
  - rewrite E. cbn. repeat split; auto; intros; apply In_sadd; auto.
  - destruct (dget (syms S) y); [|exact I]. repeat split; auto. intros; contradiction.
Qed.

Lemma note_all ctr live : forall S S', rfold (note_live ctr) live S = Ok S' ->
  cells S' = cells S /\ current S' = current S /\
  (forall y, match dget (syms S) y, dget (syms S') y with
             | Some s, Some s' => obj s' = obj s /\ ckind s' = ckind s /\
                 (forall n, In n (where_live s) -> In n (where_live s')) /\
                 (In y live -> In ctr (where_live s'))
             | None, None => True | _, _ => False end) /\
  (forall y, In y live -> dget (syms S) y <> None).
Proof.
  induction live as [|x live IH]; intros S S' E; cbn [rfold] in E.
  - inversion E; subst. repeat split; [|intros y []]. intros y.
    destruct (dget (syms S') y); [|exact I]. repeat split; auto. intros [].
  - apply rbind_Ok in E. destruct E as (S1 & E1 & E2).
    assert (KX : dget (syms S) x <> None).
    { unfold note_live in E1. destruct (dget (syms S) x); congruence. }
    destruct (note_live_view _ _ _ _ E1) as (C1 & K1 & Y1).
    destruct (IH _ _ E2) as (C2 & K2 & Y2 & L2). repeat split; try congruence.
    + intros y. specialize (Y1 y). specialize (Y2 y).
      destruct (dget (syms S) y) as [s|], (dget (syms S1) y) as [s1|],
        (dget (syms S') y) as [s2|]; try contradiction; try exact I.
      destruct Y1 as (A1 & A2 & A3 & A4), Y2 as (B1 & B2 & B3 & B4).
      repeat split; try congruence; auto. intros [->|H]; auto.
    + intros y [<-|H]; [exact KX|]. specialize (L2 y H). specialize (Y1 y).
      destruct (dget (syms S) y); [discriminate|]. destruct (dget (syms S1) y); [contradiction|].
      contradiction.
Qed.

Lemma note_view ctr live S S' : rfold (note_live ctr) live S = Ok S' -> same_view S S'.
Proof.
  intros E. destruct (note_all _ _ _ _ E) as (C & K & Y & _). repeat split.
  - intros n. rewrite C. destruct (dget (cells S) n); auto.
  - congruence.
  - intros x. specialize (Y x). destruct (dget (syms S) x), (dget (syms S') x); cbn; try contradiction;
      auto. destruct Y. congruence.
Qed.

(** What a check leaves of the state. *)
Lemma check_effect O ctr live lc S b S' : check O ctr live lc S = Ok (b, S') ->
  same_view S S' /\
  (forall n, n <> ctr -> dget (cells S') n = dget (cells S) n) /\
  (exists c c', dget (cells S) ctr = Some c /\ dget (cells S') ctr = Some c' /\
     alike c c' /\ (override c = false -> verdict c' = Some b) /\
     (forall v, verdict c = Some v -> b = v)) /\
  (forall y, match dget (syms S) y, dget (syms S') y with
             | Some s, Some s' => obj s' = obj s /\ ckind s' = ckind s /\
                 (forall n, In n (where_live s) -> In n (where_live s')) /\
                 (In y live -> In ctr (where_live s'))
             | None, None => True | _, _ => False end) /\
  (forall y, In y live -> dget (syms S) y <> None).
Proof.
  unfold check. intros E. apply rbind_Ok in E. destruct E as (S1 & E1 & E2).
  pose proof (note_view _ _ _ _ E1) as V. destruct (note_all _ _ _ _ E1) as (C & K & Y & L).
  unfold typechecks in E2. destruct (dget (cells S1) ctr) as [c|] eqn:Ec; [|discriminate].
  assert (Ec0 : dget (cells S) ctr = Some c) by congruence.
  assert (KEEP : S' = S1 -> (override c = false -> verdict c = Some b) ->
                 (forall v, verdict c = Some v -> b = v) ->
    same_view S S' /\
    (forall n, n <> ctr -> dget (cells S') n = dget (cells S) n) /\
    (exists c c', dget (cells S) ctr = Some c /\ dget (cells S') ctr = Some c' /\
       alike c c' /\ (override c = false -> verdict c' = Some b) /\
       (forall v, verdict c = Some v -> b = v)) /\
    (forall y, match dget (syms S) y, dget (syms S') y with
               | Some s, Some s' => obj s' = obj s /\ ckind s' = ckind s /\
                   (forall n, In n (where_live s) -> In n (where_live s')) /\
                   (In y live -> In ctr (where_live s'))
               | None, None => True | _, _ => False end) /\
    (forall y, In y live -> dget (syms S) y <> None)).
  { intros -> HV HB. split; [exact V|]. split; [intros; congruence|].
    split; [|split; [exact Y|exact L]].
    exists c, c. repeat split; auto. }
  destruct (verdict c) as [v|] eqn:Ev.
  { inversion E2; subst. apply KEEP; auto. intros v Hv. congruence. }
  destruct (override c) eqn:Eo.
  { inversion E2; subst. apply KEEP; auto; congruence. }
  apply rmap_Ok in E2. destruct E2 as ([decls cs] & EB & X). inversion X; subst. clear X KEEP.
  cbn [cells current syms]. split; [|split; [|split; [|split; [exact Y|exact L]]]].
  - destruct V as (V1 & V2 & V3). repeat split; cbn [cells current syms]; auto.
    intros n. rewrite dget_dset. destruct (Nat.eqb_spec n ctr) as [->|N].
    + rewrite Ec0. cbn. auto.
    + apply V1.
  - intros n N. rewrite dget_dset. destruct (Nat.eqb_spec n ctr); [contradiction|congruence].
  - exists c. eexists. split; [exact Ec0|]. rewrite dget_dset, Nat.eqb_refl.
    split; [reflexivity|]. cbn. repeat split; auto. intros v Hv. congruence.
Qed.

Lemma check_open O ctr live lc S b S' : check O ctr live lc S = Ok (b, S') ->
  open_verdict S ctr -> up_to_date O S' ctr live lc b.
Proof.
  intros E (c & Ec & Ev & Eo). destruct (check_effect _ _ _ _ _ _ _ E) as (V & _).
  unfold check in E. apply rbind_Ok in E. destruct E as (S1 & E1 & E2).
  pose proof (note_view _ _ _ _ E1) as V1. destruct (note_all _ _ _ _ E1) as (C & _).
  unfold typechecks in E2. rewrite C, Ec, Ev, Eo in E2.
  apply rmap_Ok in E2. destruct E2 as ([decls cs] & EB & X). inversion X; subst.
  apply build_spec in EB. destruct EB as [D T].
  eapply up_to_date_view; [exact V|]. eapply up_to_date_view; [apply view_sym, V1|].
  exists decls, cs. auto.
Qed.

(** ** Between two checks *)

Section Between.
  Variable O : outside.
  Variables (ctr : nat) (live : list nat) (b0 : bool) (S1 : state).

  (** The verdict has been discarded, or nothing that matters has changed. *)
  Definition untouched (done : nat -> nat) (S : state) : Prop :=
    exists c, dget (cells S) ctr = Some c /\ override c = false /\
    (verdict c = None \/
     (verdict c = Some b0 /\
      forall x, In x live ->
        exists s1 s, dget (syms S1) x = Some s1 /\ dget (syms S) x = Some s /\
          (done x = 0 -> obj s = obj s1 /\ ckind s = ckind s1 /\ In ctr (where_live s)) /\
          text O (obj s) = text O (obj s1))).

  Definition count (x : nat) (e : event) : nat :=
    match e with EUpdate y _ _ => if y =? x then 1 else 0 | _ => 0 end.

  Lemma untouched_step done S e S' :
    untouched done S -> step O S e = Ok S' ->
    (forall l lc, e <> ECheck ctr l lc) -> (forall id txt, e <> ERun ctr id txt) ->
    (forall x, In x live -> exists s1, dget (syms S1) x = Some s1 /\
       ckind s1 = Some (kind O (obj s1)) /\
       (count x e = 1 -> done x = 0) /\
       (forall v r, e = EUpdate x v r ->
          kind O v <> kind O (obj s1) \/ text O v = text O (obj s1))) ->
    untouched (fun x => done x + count x e) S'.
  Proof.
    intros (c & Ec & Eo & U) E NC NR L. destruct e as [n id txt|id txt|x v r|n l lc]; cbn [step] in E.
    - inversion E; subst. exists c. cbn [run_cell cells syms]. rewrite dget_dset.
      destruct (Nat.eqb_spec ctr n) as [<-|N]; [exfalso; eapply NR; reflexivity|].
      split; [exact Ec|]. split; [exact Eo|]. destruct U as [U|[U1 U2]]; [left; exact U|right].
      split; [exact U1|]. intros x Hx. destruct (U2 x Hx) as (s1 & s & E1 & E2 & D & T).
      exists s1, s. cbn [count]. rewrite Nat.add_0_r. auto.
    - unfold edit in E. destruct (dget (current S) id) as [n|].
      2:{ inversion E; subst. exists c. repeat split; auto. destruct U as [U|[U1 U2]]; [left; exact U|right].
          split; [exact U1|]. intros x Hx. destruct (U2 x Hx) as (s1 & s & E1 & E2 & D & T).
          exists s1, s. cbn [count]. rewrite Nat.add_0_r. auto. }
      destruct (dget (cells S) n) as [cn|] eqn:En; [|discriminate]. inversion E; subst.
      assert (X : exists c', dget (dset (cells S) n (mkCell (cid cn) txt (verdict cn) (override cn))) ctr
                  = Some c' /\ verdict c' = verdict c /\ override c' = override c).
      { rewrite dget_dset. destruct (Nat.eqb_spec ctr n) as [<-|N].
        - eexists. split; [reflexivity|]. cbn. split; congruence.
        - exists c. auto. }
      destruct X as (c' & Ec' & Ev' & Eo'). exists c'. cbn [cells syms]. split; [exact Ec'|].
      split; [congruence|]. rewrite Ev'. destruct U as [U|[U1 U2]]; [left; exact U|right].
      split; [exact U1|]. intros x Hx. destruct (U2 x Hx) as (s1 & s & E1 & E2 & D & T).
      exists s1, s. cbn [count]. rewrite Nat.add_0_r. auto.
    - unfold update_obj_ref in E. destruct (dget (syms S) x) as [sx|] eqn:Ex; [|discriminate].
      inversion E; subst. clear E. cbn [cells syms].
      set (same := match ckind sx with Some k => k =? kind O v | None => false end).
      set (cs := if same then cells S else fold_left invalidate (where_live sx) (cells S)).
      assert (X : exists c', dget cs ctr = Some c' /\ override c' = override c /\
                  (verdict c' = verdict c \/ verdict c' = None) /\
                  (same = false -> In ctr (where_live sx) -> verdict c' = None)).
      { unfold cs. destruct same.
        - exists c. repeat split; auto. discriminate.
        - pose proof (fold_invalidate (where_live sx) (cells S) ctr) as F. rewrite Ec in F.
          destruct (dget (fold_left invalidate (where_live sx) (cells S)) ctr) as [c'|]; [|destruct F].
          destruct F as [(_ & _ & A) V]. exists c'. repeat split; auto.
          + rewrite V. destruct (memb ctr (where_live sx)); auto.
          + intros _ Hin. rewrite V. rewrite (proj2 (memb_In _ _) Hin). reflexivity. }
      destruct X as (c' & Ec' & Eo' & Ev' & En'). exists c'. split; [exact Ec'|].
      split; [congruence|]. destruct Ev' as [Ev'|Ev']; [|left; exact Ev'].
      destruct U as [U|[U1 U2]]; [left; congruence|].
      destruct (verdict c') as [bv|] eqn:EV; [right|left; reflexivity].
      split; [congruence|]. intros y Hy. destruct (U2 y Hy) as (s1 & s & E1 & E2 & D & T).
      exists s1. cbn [count syms].
      destruct (Nat.eqb_spec y x) as [->|N].
      + eexists. split; [exact E1|]. rewrite dget_dset, Nat.eqb_refl.
        split; [reflexivity|]. cbn [obj ckind where_live].
        split; [lia|].
        destruct (L x Hy) as (s1' & E1' & K & D0 & KT). assert (s1' = s1) by congruence. subst s1'.
        assert (s = sx) by congruence. subst s.
        cbn [count] in D0. rewrite Nat.eqb_refl in D0. destruct (D (D0 eq_refl)) as (O1 & O2 & O3).
        destruct (KT v r eq_refl) as [KN|KT']; [|exact KT'].
        exfalso. assert (SF : same = false).
        { unfold same. rewrite O2, K. apply Nat.eqb_neq. congruence. }
        specialize (En' SF O3). discriminate En'.
      + exists s. rewrite dget_dset, (proj2 (Nat.eqb_neq y x) N).
        rewrite (proj2 (Nat.eqb_neq x y)) by congruence. rewrite Nat.add_0_r. auto.
    - apply rmap_Ok in E. destruct E as ([b S2] & E & <-). cbn [snd].
      assert (NE : ctr <> n) by (intros <-; eapply NC; reflexivity).
      destruct (check_effect _ _ _ _ _ _ _ E) as (_ & CE & _ & Y & _).
      exists c. rewrite (CE ctr NE). split; [exact Ec|]. split; [exact Eo|].
      destruct U as [U|[U1 U2]]; [left; exact U|right]. split; [exact U1|].
      intros x Hx. destruct (U2 x Hx) as (s1 & s & E1 & E2 & D & T). specialize (Y x).
      rewrite E2 in Y. destruct (dget (syms S2) x) as [s'|] eqn:E3; [|destruct Y].
      destruct Y as (Y1 & Y2 & Y3 & _). exists s1, s'. split; [exact E1|]. split; [reflexivity|].
      cbn [count]. rewrite Nat.add_0_r. rewrite Y1, Y2. split; [|exact T].
      intros Z. destruct (D Z) as (D1 & D2 & D3). auto.
  Qed.

  Lemma untouched_history es : forall done S S',
    untouched done S -> history O es S = Ok S' -> no_check ctr es ->
    (forall x, In x live -> done x + updates x es <= 1) ->
    (forall x, In x live -> exists s1, dget (syms S1) x = Some s1 /\
       ckind s1 = Some (kind O (obj s1)) /\
       (forall v r, In (EUpdate x v r) es ->
          kind O v <> kind O (obj s1) \/ text O v = text O (obj s1))) ->
    exists done', untouched done' S'.
  Proof.
    induction es as [|e es IH]; intros done S S' U E [N1 N2] CN L; cbn [history rfold] in E.
    - inversion E; subst. eauto.
    - apply rbind_Ok in E. destruct E as (S2 & Es & E).
      assert (UC : forall x, updates x (e :: es) = count x e + updates x es).
      { intros x. unfold updates. cbn [filter]. destruct e; cbn [count]; try reflexivity.
        destruct (x0 =? x); reflexivity. }
      assert (U2 : untouched (fun x => done x + count x e) S2).
      { eapply untouched_step; [exact U|exact Es| | |].
        - intros l lc ->. apply (N1 l lc). left; reflexivity.
        - intros id txt ->. apply (N2 id txt). left; reflexivity.
        - intros x Hx. destruct (L x Hx) as (s1 & E1 & K & T). exists s1. split; [exact E1|].
          split; [exact K|]. split.
          + intros C1. specialize (CN x Hx). rewrite UC in CN. lia.
          + intros v r ->. apply (T v r). left; reflexivity. }
      eapply IH; [exact U2|exact E| | |].
      + split; [intros l lc H; apply (N1 l lc); right; exact H
               |intros id txt H; apply (N2 id txt); right; exact H].
      + intros x Hx. specialize (CN x Hx). rewrite UC in CN. cbv beta. lia.
      + intros x Hx. destruct (L x Hx) as (s1 & E1 & K & T). exists s1. split; [exact E1|].
        split; [exact K|]. intros v r H. apply (T v r). right; exact H.
  Qed.
End Between.
