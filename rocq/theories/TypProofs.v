(** Proofs about annotations. *)

From Coq Require Import List Bool Arith ZArith String Permutation Lia.
From Verif Require Import TypModel TypSpec.
Import ListNotations.
Local Open Scope string_scope.
Local Open Scope nat_scope.
Local Open Scope list_scope.

(** ** Induction over values and annotations *)

Definition value_ind' (P : value -> Prop)
  (Hn : P VNone) (Hi : forall z, P (VInt z)) (Hf : forall z, P (VFloat z))
  (Hs : forall s, P (VStr s)) (Hu : forall u, P (VInst u)) (Hc : forall c, P (VClass c))
  (Hl : forall l, Forall P l -> P (VList l)) (He : forall l, Forall P l -> P (VSet l))
  (Ht : forall l, Forall P l -> P (VTuple l))
  (Hd : forall l, Forall P (map fst l) -> Forall P (map snd l) -> P (VDict l)) :
  forall v, P v :=
  fix F v :=
    let G := fix G l : Forall P l :=
      match l with [] => Forall_nil P | x :: r => Forall_cons x (F x) (G r) end in
    match v with
    | VNone => Hn | VInt z => Hi z | VFloat z => Hf z | VStr s => Hs s
    | VInst u => Hu u | VClass c => Hc c
    | VList l => Hl l (G l) | VSet l => He l (G l) | VTuple l => Ht l (G l)
    | VDict l =>
        Hd l
          ((fix G l : Forall P (map fst l) :=
              match l with
              | [] => Forall_nil P
              | (k, x) :: r => Forall_cons k (F k) (G r)
              end) l)
          ((fix G l : Forall P (map snd l) :=
              match l with
              | [] => Forall_nil P
              | (k, x) :: r => Forall_cons x (F x) (G r)
              end) l)
    end.

Definition ty_ind' (P : ty -> Prop) (Hc : forall c, P (TCls c)) (Hb : forall h, P (TBare h))
  (Ha : forall h args, Forall P args -> P (TApp h args)) (He : P TEll) : forall t, P t :=
  fix F t :=
    match t with
    | TCls c => Hc c | TBare h => Hb h | TEll => He
    | TApp h args =>
        Ha h args ((fix G l : Forall P l :=
                      match l with [] => Forall_nil P | x :: r => Forall_cons x (F x) (G r) end)
                     args)
    end.

(** ** Equality *)

Lemma strs_eqb_eq a b : strs_eqb a b = true <-> a = b.
Proof.
  revert b. induction a as [|x a IH]; intros [|y b]; cbn; try (split; congruence).
  rewrite andb_true_iff, String.eqb_eq, IH. split; [intros [-> ->]; reflexivity|].
  intros E. inversion E. auto.
Qed.

Lemma cls_eqb_eq a b : cls_eqb a b = true <-> a = b.
Proof.
  destruct a as [| | | |[m o n]], b as [| | | |[m' o' n']]; cbn; try (split; congruence).
  rewrite !andb_true_iff, !String.eqb_eq, strs_eqb_eq.
  split; [intros [[-> ->] ->]; reflexivity|]. intros E. inversion E. auto.
Qed.

Lemma head_eqb_eq a b : head_eqb a b = true <-> a = b.
Proof. destruct a, b; cbn; split; congruence. Qed.

Lemma eq_cls_l c t : ty_eq (TCls c) t = true <-> t = TCls c.
Proof.
  destruct t; cbn; try (split; congruence). rewrite cls_eqb_eq. split; congruence.
Qed.

Lemma eq_cls_r c t : ty_eq t (TCls c) = true <-> t = TCls c.
Proof.
  destruct t; cbn; try (split; congruence). rewrite cls_eqb_eq. split; congruence.
Qed.

Lemma eq_bare h t : ty_eq (TBare h) t = true -> t = TBare h.
Proof. destruct t; cbn; try congruence. rewrite head_eqb_eq. congruence. Qed.

Lemma eq_ell t : ty_eq TEll t = true -> t = TEll.
Proof. destruct t; cbn; congruence. Qed.

Definition pointwise (xs ys : list ty) : Prop :=
  Forall2 (fun x y => ty_eq x y = true) xs ys.

(** One set of alternatives against another. *)
Definition cover (A B : list ty) : Prop :=
  (forall a, In a A -> exists b, In b B /\ ty_eq a b = true) /\
  (forall b, In b B -> exists a, In a A /\ ty_eq a b = true).

Lemma eq_app h xs t : ty_eq (TApp h xs) t = true ->
  exists ys, t = TApp h ys /\
    if is_union h then cover xs ys else pointwise xs ys.
Proof.
  destruct t as [c|g|g ys|]; try (cbn; congruence).
  cbn [ty_eq]. rewrite andb_true_iff, head_eqb_eq. intros [<- H]. exists ys.
  split; [reflexivity|]. destruct (is_union h).
  - rewrite andb_true_iff, !forallb_forall in H. destruct H as [H1 H2]. split.
    + intros a Ha. apply H1, existsb_exists in Ha. exact Ha.
    + intros b Hb. apply H2, existsb_exists in Hb. exact Hb.
  - revert ys H. induction xs as [|x xs IH]; intros [|y ys] H; cbn in H; try congruence.
    + constructor.
    + rewrite andb_true_iff in H. destruct H. constructor; auto. apply IH; auto.
Qed.

Lemma eq_refl_ty t : ty_eq t t = true.
Proof.
  induction t as [c|h|h args IH|] using ty_ind'; cbn [ty_eq].
  - apply cls_eqb_eq; reflexivity.
  - apply head_eqb_eq; reflexivity.
  - rewrite andb_true_iff. split; [apply head_eqb_eq; reflexivity|].
    rewrite Forall_forall in IH. destruct (is_union h).
    + rewrite andb_true_iff, !forallb_forall. split; intros x Hx; apply existsb_exists; eauto.
    + induction args as [|x r IHr]; [reflexivity|]. rewrite andb_true_iff. split.
      * apply IH. left; reflexivity.
      * apply IHr. intros y Hy. apply IH. right; exact Hy.
  - reflexivity.
Qed.

Lemma cover_refl A : cover A A.
Proof. split; intros a Ha; exists a; auto using eq_refl_ty. Qed.

Lemma cover_app A B A' B' : cover A B -> cover A' B' -> cover (A ++ A') (B ++ B').
Proof.
  intros [H1 H2] [H3 H4]. split; intros a Ha; apply in_app_or in Ha; destruct Ha as [Ha|Ha].
  - destruct (H1 _ Ha) as (b & ? & ?). exists b. rewrite in_app_iff. auto.
  - destruct (H3 _ Ha) as (b & ? & ?). exists b. rewrite in_app_iff. auto.
  - destruct (H2 _ Ha) as (b & ? & ?). exists b. rewrite in_app_iff. auto.
  - destruct (H4 _ Ha) as (b & ? & ?). exists b. rewrite in_app_iff. auto.
Qed.

Lemma distinct_in l x : In x (distinct l) -> In x l.
Proof.
  induction l as [|y r IH]; cbn; [auto|].
  destruct (existsb (fun y0 => ty_eq y y0) (distinct r)); intros H.
  - right; auto.
  - destruct H as [->|H]; auto.
Qed.

Lemma distinct_cover l : cover l (distinct l).
Proof.
  split.
  - induction l as [|y r IH]; [intros a []|]. intros a Ha. cbn [distinct].
    assert (Hr : In a r -> exists b, In b (if existsb (fun y0 => ty_eq y y0) (distinct r)
                                          then distinct r else y :: distinct r)
                                    /\ ty_eq a b = true).
    { intros Hin. destruct (IH _ Hin) as (b & Hb & He). exists b. split; [|exact He].
      destruct (existsb _ _); [exact Hb|right; exact Hb]. }
    destruct Ha as [<-|Ha]; [|auto].
    destruct (existsb (fun y0 => ty_eq y y0) (distinct r)) eqn:X.
    + apply existsb_exists in X. exact X.
    + exists y. split; [left; reflexivity|apply eq_refl_ty].
  - intros b Hb. exists b. split; [apply distinct_in, Hb|apply eq_refl_ty].
Qed.

Definition flat (t : ty) : Prop := is_union (match t with TApp h _ => h | _ => HList end) = false.

Lemma flat_choices t : flat t -> choices t = [t].
Proof. destruct t as [c|h|[] args|]; cbn; try reflexivity. intros H. discriminate H. Qed.

Lemma eq_flat a b : ty_eq a b = true -> flat a -> flat b.
Proof.
  intros E F. destruct a as [c|h|h xs|].
  - apply eq_cls_l in E. subst b. exact F.
  - apply eq_bare in E. subst b. exact F.
  - apply eq_app in E. destruct E as (ys & -> & _). exact F.
  - apply eq_ell in E. subst b. exact F.
Qed.

Lemma cover_flat A B : cover A B -> (forall a, In a A -> flat a) -> forall b, In b B -> flat b.
Proof.
  intros [_ H] F b Hb. destruct (H _ Hb) as (a & Ha & E). eapply eq_flat; eauto.
Qed.

Lemma eq_choices a b : ty_eq a b = true -> cover (choices a) (choices b).
Proof.
  intros E. destruct (is_union (match a with TApp h _ => h | _ => HList end)) eqn:U.
  - destruct a as [c|h|h xs|]; try discriminate U. destruct h; try discriminate U.
    apply eq_app in E. destruct E as (ys & -> & C). exact C.
  - rewrite (flat_choices a U), (flat_choices b (eq_flat _ _ E U)).
    split; intros x [<-|[]]; eexists; (split; [left; reflexivity|exact E]).
Qed.

(** ** The precise type of a value, up to equality of annotations *)

(** [names_exactly] of a list of choices. *)
Definition nx (l : list value) (A : list ty) : Prop :=
  (forall x, In x l ->
     exists a, In a A /\ (exact x a \/ (a = TCls CFloat /\ exists z, x = VInt z))) /\
  (forall a, In a A -> exists x, In x l /\ exact x a) /\
  ~ (In (TCls CInt) A /\ In (TCls CFloat) A).

Lemma nx_cover l A B :
  Forall (fun x => forall t t', exact x t -> ty_eq t t' = true -> exact x t') l ->
  cover A B -> nx l A -> nx l B.
Proof.
  rewrite Forall_forall. intros Cl [C1 C2] (N1 & N2 & N3). repeat split.
  - intros x Hx. destruct (N1 _ Hx) as (a & Ha & D). destruct (C1 _ Ha) as (b & Hb & E).
    exists b. split; [exact Hb|]. destruct D as [D|(-> & z & ->)].
    + left. eapply Cl; eauto.
    + right. apply eq_cls_l in E. subst b. eauto.
  - intros b Hb. destruct (C2 _ Hb) as (a & Ha & E). destruct (N2 _ Ha) as (x & Hx & D).
    exists x. split; [exact Hx|]. eapply Cl; eauto.
  - intros [H1 H2]. apply N3. split.
    + destruct (C2 _ H1) as (a & Ha & E). apply eq_cls_r in E. subst a. exact Ha.
    + destruct (C2 _ H2) as (a & Ha & E). apply eq_cls_r in E. subst a. exact Ha.
Qed.

Lemma exact_eq v : forall t t', exact v t -> ty_eq t t' = true -> exact v t'.
Proof.
  induction v as [| | | | | |l IH|l IH|l IH|l IHk IHv] using value_ind'; intros t t' X E;
    inversion X; subst;
    try (apply eq_cls_l in E; subst t'; exact X);
    try (apply eq_bare in E; subst t'; exact X);
    apply eq_app in E; destruct E as (ys & -> & C); cbn [is_union head_eqb] in C;
    unfold pointwise in C.
  - inversion C as [|? y ? ? Ey C1]; subst. inversion C1; subst.
    apply eq_cls_l in Ey. subst y. constructor.
  - inversion C as [|? y ? ? Ey C1]; subst. inversion C1; subst.
    constructor; [assumption|]. eapply nx_cover; [exact IH|apply eq_choices, Ey|assumption].
  - inversion C as [|? y ? ? Ey C1]; subst. inversion C1; subst.
    constructor; [assumption|]. eapply nx_cover; [exact IH|apply eq_choices, Ey|assumption].
  - match goal with H : Forall2 exact _ _ |- _ => rename H into F end.
    constructor; auto. clear - IH F C. revert ts ys F C.
    induction IH as [|x r Hx Hr IHr]; intros ts ys F C; inversion F; subst.
    + inversion C; subst. constructor.
    + inversion C; subst. constructor; eauto.
  - inversion C as [|? y ? ? Ey C1]; subst. inversion C1 as [|? z ? ? Ez C2]; subst.
    inversion C2; subst. apply eq_ell in Ez. subst z.
    apply X_tuple_of; [assumption|].
    eapply nx_cover; [exact IH|apply eq_choices, Ey|assumption].
  - inversion C as [|? y ? ? Ey C1]; subst. inversion C1 as [|? z ? ? Ez C2]; subst.
    inversion C2; subst. constructor; [assumption| |].
    + eapply nx_cover; [exact IHk|apply eq_choices, Ey|assumption].
    + eapply nx_cover; [exact IHv|apply eq_choices, Ez|assumption].
Qed.

Lemma nx_eq l A B : cover A B -> nx l A -> nx l B.
Proof. apply nx_cover. apply Forall_forall. intros x _. apply exact_eq. Qed.

Lemma exact_flat v t : exact v t -> flat t.
Proof. intros H. inversion H; reflexivity. Qed.

(** ** Resolution *)

Lemma cached_app W h xs : fair W -> exists ys, cached W (TApp h xs) = TApp h ys /\
  if is_union h then cover xs ys else pointwise xs ys.
Proof. intros [_ C]. apply eq_app, C. Qed.

Lemma nx_union W ps R l : fair W -> (forall a, In a (flat_map choices ps) -> flat a) ->
  nx l (flat_map choices ps ++ R) -> nx l (choices (mk_union W ps) ++ R).
Proof.
  intros FW F N. unfold mk_union.
  change (flat_map alternatives ps) with (flat_map choices ps).
  apply (nx_eq l _ (distinct (flat_map choices ps) ++ R)) in N;
    [|apply cover_app; [apply distinct_cover|apply cover_refl]].
  assert (G : forall A, nx l (A ++ R) -> nx l (choices (cached W (TApp HUnion A)) ++ R)).
  { intros A. destruct (cached_app W HUnion A FW) as (ys & -> & C). apply nx_eq.
    apply cover_app; [exact C|apply cover_refl]. }
  destruct (distinct (flat_map choices ps)) as [|t [|t' r]] eqn:Q; [apply G, N| |apply G, N].
  rewrite flat_choices; [exact N|]. apply F, distinct_in. rewrite Q. left; reflexivity.
Qed.

Lemma flat_union W ps : fair W -> (forall a, In a (flat_map choices ps) -> flat a) ->
  forall a, In a (choices (mk_union W ps)) -> flat a.
Proof.
  intros FW F a. unfold mk_union.
  change (flat_map alternatives ps) with (flat_map choices ps).
  assert (D : forall b, In b (distinct (flat_map choices ps)) -> flat b).
  { intros b Hb. apply F, distinct_in, Hb. }
  assert (G : forall A, (forall b, In b A -> flat b) ->
                In a (choices (cached W (TApp HUnion A))) -> flat a).
  { intros A. destruct (cached_app W HUnion A FW) as (ys & -> & C). intros FA.
    apply (cover_flat A ys C FA). }
  destruct (distinct (flat_map choices ps)) as [|t [|t' r]] eqn:Q; [apply G, D| |apply G, D].
  rewrite flat_choices; [intros [<-|[]]|]; apply D; left; reflexivity.
Qed.

Lemma flat_map_flat A : (forall a, In a A -> flat a) -> flat_map choices A = A.
Proof.
  induction A as [|a A IH]; intros F; [reflexivity|]. cbn [flat_map].
  rewrite (flat_choices a) by (apply F; left; reflexivity). cbn [app]. f_equal.
  apply IH. intros b Hb. apply F. right; exact Hb.
Qed.

Lemma perm_cover A B : Permutation A B -> cover A B.
Proof.
  intros P. split; intros a Ha; exists a; (split; [|apply eq_refl_ty]).
  - eapply Permutation_in; eauto.
  - eapply Permutation_in; [apply Permutation_sym|]; eauto.
Qed.

Definition isnt (c : cls) (t : ty) : bool := negb (ty_eq t (TCls c)).

Lemma isnt_spec c t : isnt c t = true <-> t <> TCls c.
Proof.
  unfold isnt. rewrite negb_true_iff. split.
  - intros H E. apply (eq_cls_r c t) in E. congruence.
  - intros H. destruct (ty_eq t (TCls c)) eqn:E; [|reflexivity].
    apply eq_cls_r in E. contradiction.
Qed.

Lemma has_cls c A : existsb (fun t => ty_eq t (TCls c)) A = true <-> In (TCls c) A.
Proof.
  rewrite existsb_exists. split.
  - intros (x & Hx & E). apply eq_cls_r in E. subst x. exact Hx.
  - intros H. exists (TCls c). split; [exact H|apply eq_refl_ty].
Qed.

(** The stages of [_resolve_container_types]. *)
Definition stage (types : list ty) : list ty :=
  let used1 := filter (isnt CNone) (distinct types) in
  if existsb (fun t => ty_eq t (TCls CFloat)) used1 then filter (isnt CInt) used1 else used1.

Definition none_part (types : list ty) : list ty :=
  if existsb (fun t => ty_eq t (TCls CNone)) (distinct types) then [TCls CNone] else [].

Lemma stage_in types a : In a (stage types) -> In a (distinct types) /\ a <> TCls CNone.
Proof.
  unfold stage. destruct (existsb _ _); rewrite ?filter_In, ?isnt_spec; tauto.
Qed.

Lemma exact_int x : exact x (TCls CInt) -> exists z, x = VInt z.
Proof. intros H. inversion H. eauto. Qed.

Lemma stage_nx l types : Forall2 exact l types -> nx l (stage types ++ none_part types).
Proof.
  intros F.
  assert (F1 : forall x, In x l -> exists a, In a types /\ exact x a).
  { clear - F. induction F as [|x a l' ts Hx F' IH]; [intros x []|].
    intros y [<-|Hy]; [exists a; split; [left; reflexivity|exact Hx]|].
    destruct (IH y Hy) as (b & Hb & E). exists b. split; [right; exact Hb|exact E]. }
  assert (F2 : forall a, In a types -> exists x, In x l /\ exact x a).
  { clear - F. induction F as [|x a l' ts Hx F' IH]; [intros a []|].
    intros b [<-|Hb]; [exists x; split; [left; reflexivity|exact Hx]|].
    destruct (IH b Hb) as (y & Hy & E). exists y. split; [right; exact Hy|exact E]. }
  destruct (distinct_cover types) as [D1 D2].
  assert (Hflt : existsb (fun t => ty_eq t (TCls CFloat)) (filter (isnt CNone) (distinct types))
                 = true <-> In (TCls CFloat) (distinct types)).
  { rewrite has_cls, filter_In, isnt_spec. split; [tauto|]. intros H. split; [exact H|congruence]. }
  repeat split.
  - intros x Hx. destruct (F1 _ Hx) as (a0 & Ha0 & E0). destruct (D1 _ Ha0) as (a & Ha & E).
    apply (exact_eq x _ a) in E0; [|exact E]. clear a0 Ha0 E.
    destruct (ty_eq a (TCls CNone)) eqn:EN.
    { apply eq_cls_r in EN. subst a. exists (TCls CNone). split; [|left; exact E0].
      apply in_or_app. right. unfold none_part. rewrite (proj2 (has_cls _ _) Ha).
      left; reflexivity. }
    assert (Na : a <> TCls CNone) by (intros ->; rewrite eq_refl_ty in EN; discriminate).
    destruct (existsb (fun t => ty_eq t (TCls CFloat)) (filter (isnt CNone) (distinct types)))
      eqn:XF.
    + destruct (ty_eq a (TCls CInt)) eqn:EI.
      * apply eq_cls_r in EI. subst a. exists (TCls CFloat). split.
        -- apply in_or_app. left. unfold stage. rewrite XF. apply filter_In.
           split; [|apply isnt_spec; congruence]. apply filter_In.
           split; [apply Hflt; reflexivity|apply isnt_spec; congruence].
        -- right. split; [reflexivity|]. apply exact_int, E0.
      * exists a. split; [|left; exact E0]. apply in_or_app. left. unfold stage. rewrite XF.
        apply filter_In. split.
        -- apply filter_In. split; [exact Ha|apply isnt_spec, Na].
        -- apply isnt_spec. intros ->. rewrite eq_refl_ty in EI. discriminate.
    + exists a. split; [|left; exact E0]. apply in_or_app. left. unfold stage. rewrite XF.
      apply filter_In. split; [exact Ha|apply isnt_spec, Na].
  - intros a Ha. apply F2, distinct_in. apply in_app_or in Ha. destruct Ha as [Ha|Ha].
    + apply stage_in in Ha. tauto.
    + unfold none_part in Ha.
      destruct (existsb (fun t => ty_eq t (TCls CNone)) (distinct types)) eqn:EN; [|destruct Ha].
      destruct Ha as [<-|[]]. apply has_cls, EN.
  - intros [HI HF]. rewrite in_app_iff in HI, HF.
    assert (NP : forall c, In (TCls c) (none_part types) -> c = CNone).
    { intros c. unfold none_part.
      destruct (existsb (fun t => ty_eq t (TCls CNone)) (distinct types)).
      - intros [E|E]; [congruence|destruct E].
      - intros E. destruct E. }
    destruct HI as [HI|HI]; [|apply NP in HI; discriminate].
    destruct HF as [HF|HF]; [|apply NP in HF; discriminate].
    assert (XF : existsb (fun t => ty_eq t (TCls CFloat))
                   (filter (isnt CNone) (distinct types)) = true).
    { apply Hflt. apply stage_in in HF. tauto. }
    unfold stage in HI. rewrite XF in HI. apply filter_In in HI. destruct HI as [_ HI].
    apply isnt_spec in HI. congruence.
Qed.

Lemma resolve_spec W h l types : fair W -> Forall2 exact l types -> l <> [] ->
  exists ret, resolve W h types = cached W (TApp h [ret]) /\ names_exactly exact l ret.
Proof.
  intros FW F NE. pose proof (stage_nx l types F) as N.
  assert (FL : forall a, In a (stage types) -> flat a).
  { intros a Ha. destruct N as (_ & N2 & _).
    destruct (N2 a) as (x & _ & E); [apply in_or_app; left; exact Ha|].
    eapply exact_flat; eauto. }
  unfold resolve, subscript.
  change (filter (fun t => negb (ty_eq t (TCls CNone))) (distinct types))
    with (filter (isnt CNone) (distinct types)).
  change (if existsb (fun t => ty_eq t (TCls CFloat)) (filter (isnt CNone) (distinct types))
          then filter (fun t0 => negb (ty_eq t0 (TCls CInt))) (filter (isnt CNone) (distinct types))
          else filter (isnt CNone) (distinct types)) with (stage types).
  unfold none_part in N.
  assert (WR : forall u, (forall a, In a (choices u) -> flat a) ->
     nx l (choices u ++ if existsb (fun t => ty_eq t (TCls CNone)) (distinct types)
                        then [TCls CNone] else []) ->
     exists ret,
       cached W (TApp h [if existsb (fun t => ty_eq t (TCls CNone)) (distinct types)
                         then mk_union W [u; TCls CNone] else u]) = cached W (TApp h [ret])
       /\ names_exactly exact l ret).
  { intros u FU NU. destruct (existsb (fun t => ty_eq t (TCls CNone)) (distinct types)).
    - eexists. split; [reflexivity|]. change (nx l (choices (mk_union W [u; TCls CNone]))).
      rewrite <- (app_nil_r (choices _)). apply nx_union; [exact FW| |].
      + cbn [flat_map choices]. intros a Ha. apply in_app_or in Ha.
        destruct Ha as [Ha|[<-|[]]]; [apply FU, Ha|reflexivity].
      + cbn [flat_map choices]. rewrite !app_nil_r. exact NU.
    - exists u. split; [reflexivity|]. rewrite app_nil_r in NU. exact NU. }
  destruct (stage types) as [|t [|t' r]] eqn:ST.
  - destruct (existsb (fun t => ty_eq t (TCls CNone)) (distinct types)).
    + exists (TCls CNone). split; [reflexivity|]. exact N.
    + exfalso. destruct l as [|x l']; [congruence|]. destruct N as (N1 & _).
      destruct (N1 x (or_introl eq_refl)) as (a & [] & _).
  - apply WR.
    + rewrite flat_choices by (apply FL; left; reflexivity). exact FL.
    + rewrite flat_choices by (apply FL; left; reflexivity). exact N.
  - destruct FW as [FI FC] eqn:EFW. clear EFW.
    assert (FW' : fair W) by (split; assumption).
    assert (FLI : forall a, In a (iter W (t :: t' :: r)) -> flat a).
    { intros a Ha. apply FL. eapply Permutation_in; [apply Permutation_sym, FI|exact Ha]. }
    apply WR.
    + apply flat_union; [exact FW'|]. rewrite (flat_map_flat _ FLI). exact FLI.
    + apply nx_union; [exact FW'| |].
      * rewrite (flat_map_flat _ FLI). exact FLI.
      * rewrite (flat_map_flat _ FLI). eapply nx_eq; [|exact N].
        apply cover_app; [apply perm_cover, FI|apply cover_refl].
Qed.

Lemma resolve_args W h l types : fair W -> is_union h = false -> Forall2 exact l types ->
  l <> [] ->
  exists ret, resolve W h types = TApp h [ret] /\ names_exactly exact l ret.
Proof.
  intros FW U F NE. destruct (resolve_spec W h l types FW F NE) as (ret & -> & N).
  destruct (cached_app W h [ret] FW) as (ys & -> & C). rewrite U in C.
  inversion C as [|? y ? ? Ey C1]; subst. inversion C1; subst.
  exists y. split; [reflexivity|]. eapply nx_eq; [apply eq_choices, Ey|exact N].
Qed.

Lemma cached_exact W v t : fair W -> exact v t -> exact v (cached W t).
Proof. intros [_ C] X. eapply exact_eq; [exact X|apply C]. Qed.

Lemma all_some_exact W l :
  Forall (fun v => exists t, annotation W v = Some t /\ exact v t) l ->
  exists ts, all_some (map (annotation W) l) = Some ts /\ Forall2 exact l ts.
Proof.
  induction 1 as [|v l (t & E & X) F (ts & E' & F')]; cbn [map all_some].
  - exists []. split; [reflexivity|constructor].
  - rewrite E, E'. exists (t :: ts). split; [reflexivity|constructor; assumption].
Qed.

Lemma f2_length {A B} (R : A -> B -> Prop) l l' :
  Forall2 R l l' -> List.length l = List.length l'.
Proof. induction 1; cbn; congruence. Qed.

Lemma annotation_exact W v : fair W -> exists t, annotation W v = Some t /\ exact v t.
Proof.
  intros FW.
  induction v as [| | | | |c|l IH|l IH|l IH|l IHk IHv] using value_ind'; cbn [annotation];
    try (eexists; split; [reflexivity|constructor]; fail).
  - eexists. split; [reflexivity|]. unfold subscript. apply cached_exact; [exact FW|constructor].
  - destruct (all_some_exact W l IH) as (ts & -> & F). cbn [option_map].
    eexists. split; [reflexivity|]. destruct l as [|x l'].
    + inversion F; subst. constructor.
    + destruct (resolve_args W HList _ _ FW eq_refl F) as (ret & -> & N); [discriminate|].
      constructor; [discriminate|exact N].
  - destruct (all_some_exact W l IH) as (ts & -> & F). cbn [option_map].
    eexists. split; [reflexivity|]. destruct l as [|x l'].
    + inversion F; subst. constructor.
    + destruct (resolve_args W HSet _ _ FW eq_refl F) as (ret & -> & N); [discriminate|].
      constructor; [discriminate|exact N].
  - destruct (all_some_exact W l IH) as (ts & -> & F).
    pose proof (f2_length _ _ _ F) as L. unfold resolve_tuple. rewrite <- L.
    destruct (Nat.eqb_spec (List.length l) 0) as [Z|NZ].
    + destruct l; [|discriminate Z]. eexists. split; [reflexivity|constructor].
    + assert (NE : l <> []) by (intros ->; apply NZ; reflexivity).
      destruct (Nat.leb_spec (List.length l) 3) as [Le|Gt].
      * eexists. split; [reflexivity|]. apply cached_exact; [exact FW|].
        constructor; auto.
      * destruct (resolve_args W HList _ _ FW eq_refl F NE) as (ret & -> & N).
        cbn [args_of]. eexists. split; [reflexivity|]. apply cached_exact; [exact FW|].
        apply X_tuple_of; assumption.
  - assert (EK : map (fun p : value * value => let '(k, _) := p in annotation W k) l
                 = map (annotation W) (map fst l)).
    { rewrite map_map. apply map_ext. intros [k x]. reflexivity. }
    assert (EV : map (fun p : value * value => let '(_, x) := p in annotation W x) l
                 = map (annotation W) (map snd l)).
    { rewrite map_map. apply map_ext. intros [k x]. reflexivity. }
    rewrite EK, EV.
    destruct (all_some_exact W _ IHk) as (ks & -> & Fk).
    destruct (all_some_exact W _ IHv) as (vs & -> & Fv).
    unfold resolve_dict. destruct l as [|p l'].
    + inversion Fk; subst. inversion Fv; subst. eexists. split; [reflexivity|constructor].
    + destruct (resolve_args W HList _ _ FW eq_refl Fk) as (k & -> & Nk); [discriminate|].
      destruct (resolve_args W HList _ _ FW eq_refl Fv) as (t & -> & Nv); [discriminate|].
      cbn [args_of]. eexists. split; [reflexivity|]. apply cached_exact; [exact FW|].
      constructor; [discriminate|assumption|assumption].
Qed.

(** ** Precise types are types *)

Lemma choice_type v t a : In a (choices t) -> has_type v a -> has_type v t.
Proof.
  destruct t as [c|h|h ts|]; cbn [choices]; try (intros [<-|[]]; auto; fail).
  destruct h; try (intros [<-|[]]; auto; fail). intros H1 H2. eapply H_union; eauto.
Qed.

Lemma names_type l t :
  Forall (fun v => forall t, exact v t -> has_type v t) l ->
  names_exactly exact l t -> forall x, In x l -> has_type x t.
Proof.
  rewrite Forall_forall. intros IH (N1 & _) x Hx. destruct (N1 _ Hx) as (a & Ha & [E|(-> & z & ->)]).
  - eapply choice_type; [exact Ha|]. apply IH; assumption.
  - eapply choice_type; [exact Ha|]. constructor.
Qed.

Lemma exact_has v : forall t, exact v t -> has_type v t.
Proof.
  induction v as [| | | | | |l IH|l IH|l IH|l IHk IHv] using value_ind'; intros t X;
    inversion X; subst; try (constructor; fail).
  - apply H_list. eapply names_type; eassumption.
  - apply H_set. eapply names_type; eassumption.
  - apply H_tuple. match goal with H : Forall2 exact _ _ |- _ => rename H into F end.
    clear - F IH.
    revert ts F. induction IH as [|x r Hx Hr IHr]; intros ts F; inversion F; subst;
      constructor; auto.
  - apply H_tuple_of. eapply names_type; eassumption.
  - apply H_dict; intros p Hp.
    + eapply names_type; [exact IHk|eassumption|]. apply in_map, Hp.
    + eapply names_type; [exact IHv|eassumption|]. apply in_map, Hp.
Qed.

(** ** Texts *)

Lemma eq_app_intro h xs ys :
  (if is_union h then cover xs ys else pointwise xs ys) -> ty_eq (TApp h xs) (TApp h ys) = true.
Proof.
  intros H. cbn [ty_eq]. rewrite andb_true_iff. split; [apply head_eqb_eq; reflexivity|].
  destruct (is_union h).
  - destruct H as [H1 H2]. rewrite andb_true_iff, !forallb_forall.
    split; intros a Ha; apply existsb_exists; auto.
  - induction H as [|x y xs' ys' E H IH]; [reflexivity|]. rewrite E, IH. reflexivity.
Qed.

Inductive good (G : scope) : ty -> Prop :=
| G_none : good G (TCls CNone)
| G_cls c : sees_class G c -> good G (TCls c)
| G_bare h : h <> HUnion -> good G (TBare h)
| G_app h args : h <> HUnion -> args <> [] -> Forall (good G) args -> good G (TApp h args)
| G_of t : good G t -> good G (TApp HTuple [t; TEll])
| G_union args :
    2 <= List.length args -> Forall (good G) args ->
    (In (TCls CNone) args -> exists d, args = d ++ [TCls CNone] /\ ~ In (TCls CNone) d) ->
    good G (TApp HUnion args).

Lemma means_join G h texts ts : Forall2 (means G) texts ts -> texts <> [] ->
  means_all G h (join texts) ts.
Proof.
  induction 1 as [|s t texts ts M F IH]; [congruence|]. intros _.
  destruct texts as [|s' r].
  - inversion F; subst. cbn. constructor. exact M.
  - cbn [join]. constructor; [exact M|]. apply IH. discriminate.
Qed.

Lemma is_none_spec t : is_none t = true <-> t = TCls CNone.
Proof. apply eq_cls_r. Qed.

Lemma has_none args : existsb is_none args = true <-> In (TCls CNone) args.
Proof. apply has_cls. Qed.

Lemma written_plain h args texts : h <> HUnion -> written h args texts = (head_name h, texts).
Proof. intros H. unfold written. destruct h; cbn [is_union head_eqb andb]; congruence. Qed.

Lemma written_optional a texts :
  written HUnion [a; TCls CNone] texts = ("Optional", removelast texts).
Proof.
  unfold written. replace (existsb is_none [a; TCls CNone]) with true
    by (symmetry; apply has_none; right; left; reflexivity).
  cbn. destruct (List.length (removelast texts)) as [|[|n]]; reflexivity.
Qed.

Lemma last_snoc {A} (l : list A) x d : last (l ++ [x]) d = x.
Proof. apply last_last. Qed.

Lemma written_union args texts : 2 <= List.length args -> List.length texts = List.length args ->
  (List.length args = 2 -> ~ In (TCls CNone) args) ->
  written HUnion args texts = ("Union", texts).
Proof.
  intros L LT N. unfold written. cbn [is_union head_eqb andb].
  assert (E : (List.length args =? 2) && existsb is_none args = false).
  { destruct (Nat.eqb_spec (List.length args) 2) as [E2|N2]; [|reflexivity].
    cbn [andb]. destruct (existsb is_none args) eqn:X; [|reflexivity].
    apply has_none in X. exfalso. apply (N E2 X). }
  rewrite E. destruct (Nat.eqb_spec (List.length args) 0) as [Z|_]; [lia|]. cbn [negb andb].
  destruct (is_none (last args TEll)) eqn:IL; [|reflexivity].
  destruct (Nat.eqb_spec (List.length args) 2) as [E2|N2].
  - exfalso. apply (N E2). apply is_none_spec in IL.
    destruct (exists_last (l := args)) as (d & x & ->); [intros ->; cbn in L; lia|].
    rewrite last_snoc in IL. subst x. apply in_or_app. right. left. reflexivity.
  - rewrite LT. destruct (Nat.eqb_spec (List.length args) 1) as [E1|_]; [lia|]. reflexivity.
Qed.

Definition perms {A} (f : list A -> list A) : Prop := forall l, Permutation l (f l).

Lemma means_list G srt args :
  Forall (fun t => exists t', means G (render srt t) t' /\ ty_eq t t' = true) args ->
  exists ts, Forall2 (means G) (map (render srt) args) ts /\ pointwise args ts.
Proof.
  induction 1 as [|t args (t' & M & E) F (ts & Ms & P)]; cbn [map].
  - exists []. split; constructor.
  - exists (t' :: ts). split; constructor; assumption.
Qed.

Lemma perm_means G texts texts' : Permutation texts texts' -> forall ts,
  Forall2 (means G) texts ts -> exists ts', Forall2 (means G) texts' ts' /\ Permutation ts ts'.
Proof.
  induction 1 as [|s l l' P IH|s s' l|l1 l2 l3 P1 IH1 P2 IH2]; intros ts F.
  - inversion F; subst. exists []. split; constructor.
  - inversion F as [|? t ? ts0 M F0]; subst. destruct (IH _ F0) as (ts' & F' & P').
    exists (t :: ts'). split; constructor; assumption.
  - inversion F as [|? t ? ts0 M F0]; subst. inversion F0 as [|? t' ? ts1 M' F1]; subst.
    exists (t' :: t :: ts1). split; [repeat constructor; assumption|constructor].
  - destruct (IH1 _ F) as (t2 & F2 & Q2). destruct (IH2 _ F2) as (t3 & F3 & Q3).
    exists t3. split; [exact F3|]. eapply perm_trans; eauto.
Qed.

Lemma pointwise_cover xs ys : pointwise xs ys -> cover xs ys.
Proof.
  induction 1 as [|x y xs ys E P [IH1 IH2]]; [split; intros a []|]. split.
  - intros a [<-|Ha]; [exists y; split; [left; reflexivity|exact E]|].
    destruct (IH1 _ Ha) as (b & Hb & Eb). exists b. split; [right; exact Hb|exact Eb].
  - intros b [<-|Hb]; [exists x; split; [left; reflexivity|exact E]|].
    destruct (IH2 _ Hb) as (a & Ha & Ea). exists a. split; [right; exact Ha|exact Ea].
Qed.

Lemma cover_perm A B B' : cover A B -> Permutation B B' -> cover A B'.
Proof.
  intros [C1 C2] P. split.
  - intros a Ha. destruct (C1 _ Ha) as (b & Hb & E). exists b.
    split; [eapply Permutation_in; eauto|exact E].
  - intros b Hb. apply C2. eapply Permutation_in; [apply Permutation_sym, P|exact Hb].
Qed.

Lemma render_means G srt t : knows_typing G -> perms srt -> good G t ->
  exists t', means G (render srt t) t' /\ ty_eq t t' = true.
Proof.
  intros (KH & KO & KE) PS.
  assert (HN : forall h, ~ (@None string = None /\ head_name h = "None"))
    by (intros [] [_ E]; discriminate E).
  induction t as [c|h|h args IH|] using ty_ind'; intros GT.
  - exists (TCls c). split; [|apply eq_refl_ty]. cbn [render].
    destruct (cls_eqb c CNone) eqn:EC.
    + apply cls_eqb_eq in EC. subst c. constructor.
    + inversion GT as [|? S| | | |]; subst; [discriminate EC|]. destruct S as [N S].
      apply E_class; [intros [_ E]; contradiction|]. exact S.
  - exists (TBare h). split; [|apply eq_refl_ty]. inversion GT; subst.
    cbn [render]. apply E_bare; auto.
  - cbn [render]. inversion GT as [| | |? ? NU NE FG|t0 G0|? L FG NN]; subst.
    + rewrite written_plain by exact NU.
      destruct (means_list G srt args) as (ts & Ms & P).
      { rewrite Forall_forall in *. intros t Ht. apply IH; auto. }
      exists (TApp h ts). split.
      * destruct (map (render srt) args) as [|s r] eqn:EM; [destruct args; [congruence|discriminate]|].
        replace (head_name h =? "Union")%string with false by (destruct h; try reflexivity; congruence).
        apply E_app; [apply KH|]. apply means_join; [exact Ms|discriminate].
      * apply eq_app_intro. destruct h; try exact P. congruence.
    + inversion IH as [|? ? IH0 _]; subst. destruct (IH0 G0) as (t' & M & E).
      exists (TApp HTuple [t'; TEll]). split.
      * cbn. rewrite <- app_assoc. cbn.
        replace (render srt t0 ++ [CM; Nm None "..."; RB])
          with ((render srt t0 ++ [CM; Nm None "..."]) ++ [RB])
          by (rewrite <- app_assoc; reflexivity).
        apply E_app; [apply (KH HTuple)|]. apply E_of. exact M.
      * apply eq_app_intro. cbn. constructor; [exact E|]. constructor; [reflexivity|constructor].
    + assert (IHs : Forall (fun t => exists t', means G (render srt t) t' /\ ty_eq t t' = true) args).
      { rewrite Forall_forall in *. intros t Ht. apply IH; auto. }
      assert (UN : (List.length args = 2 -> ~ In (TCls CNone) args) ->
        exists t', means G (let '(name, texts) := written HUnion args (map (render srt) args) in
                   match texts with
                   | [] => [Nm None name]
                   | _ => Nm None name :: LB
                     :: join (if String.eqb name "Union" then srt texts else texts) ++ [RB]
                   end) t' /\ ty_eq (TApp HUnion args) t' = true).
      { intros NO. rewrite written_union; [|exact L|apply map_length|exact NO].
        destruct (means_list G srt args IHs) as (ts & Ms & P).
        destruct (perm_means G _ _ (PS (map (render srt) args)) ts Ms) as (ts' & Ms' & Pts).
        exists (TApp HUnion ts'). split.
        - destruct (map (render srt) args) as [|s r] eqn:EM;
            [destruct args; [cbn in L; lia|discriminate]|].
          change (String.eqb "Union" "Union") with true. cbv iota. apply E_app; [apply (KH HUnion)|].
          apply means_join; [exact Ms'|]. intros E.
          pose proof (Permutation_length (PS (s :: r))) as PL. rewrite E in PL. discriminate PL.
        - apply eq_app_intro. cbn [is_union head_eqb].
          apply (cover_perm _ ts); [apply pointwise_cover, P|exact Pts]. }
      destruct (Nat.eq_dec (List.length args) 2) as [L2|N2]; [|apply UN; congruence].
      destruct (existsb is_none args) eqn:XN.
      * apply has_none in XN. destruct (NN XN) as (d & -> & ND).
        rewrite app_length in L2. cbn in L2. destruct d as [|a [|a' d]]; cbn in L2; try lia.
        cbn [app]. rewrite written_optional. cbn [map removelast].
        inversion IHs as [|? ? (t' & M & E) _]; subst.
        exists (TApp HUnion [t'; TCls CNone]). split.
        -- cbn. apply E_optional; [exact KO|exact M].
        -- apply eq_app_intro. cbn [is_union head_eqb]. apply pointwise_cover.
           constructor; [exact E|]. constructor; [apply eq_refl_ty|constructor].
      * apply UN. intros _ HN'. apply has_none in HN'. congruence.
  - inversion GT.
Qed.

(** ** A text means one thing *)

Definition stops (r : list tok) : Prop := match r with [] | CM :: _ | RB :: _ => True | _ => False end.

Scheme means_mut := Induction for means Sort Prop
  with means_all_mut := Induction for means_all Sort Prop.
Combined Scheme means_both from means_mut, means_all_mut.

Lemma means_head G s t : means G s t ->
  exists m n r, s = Nm m n :: r /\ ((m = None /\ n = "None") \/ G m n <> None).
Proof.
  intros H. inversion H; subst; do 3 eexists; (split; [reflexivity|]);
    try (left; split; reflexivity); right; congruence.
Qed.

Lemma means_all_head G h s ts : means_all G h s ts ->
  exists m n r, s = Nm m n :: r /\ ((m = None /\ n = "None") \/ G m n <> None).
Proof.
  intros H.
  assert (X : exists s0 t0 r0, means G s0 t0 /\ s = s0 ++ r0).
  { inversion H; subst; do 3 eexists; (split; [eassumption|]);
      try reflexivity. symmetry. apply app_nil_r. }
  destruct X as (s0 & t0 & r0 & M & ->). destruct (means_head G s0 t0 M) as (m & n & r & -> & D).
  exists m, n, (r ++ r0). split; [reflexivity|exact D].
Qed.

Lemma means_unique G : G None "..." = None ->
  (forall s t, means G s t -> forall r s' t' r', means G s' t' -> s ++ r = s' ++ r' ->
     stops r -> stops r' -> s = s' /\ t = t') /\
  (forall h s ts, means_all G h s ts -> forall r s' ts' r', means_all G h s' ts' ->
     s ++ RB :: r = s' ++ RB :: r' -> s = s' /\ ts = ts').
Proof.
  intros GE.
  assert (DOT : forall h s ts r q, means_all G h s ts -> s ++ r = Nm None "..." :: q -> False).
  { intros h s ts r q M E. destruct (means_all_head G h s ts M) as (m & n & s0 & -> & D).
    cbn in E. inversion E; subst. destruct D as [[_ D]|D]; [discriminate D|contradiction]. }
  apply means_both.
  - intros r s' t' r' M E S S'. inversion M; subst; cbn in E; inversion E; subst;
      try (exfalso; tauto); try (cbn in S; contradiction). auto.
  - intros m n c NN GC r s' t' r' M E S S'. inversion M; subst; cbn in E; inversion E; subst;
      try (exfalso; tauto); try (cbn in S; contradiction); split; congruence.
  - intros m n h NN GC NU r s' t' r' M E S S'. inversion M; subst; cbn in E; inversion E; subst;
      try (exfalso; tauto); try (cbn in S; contradiction); split; congruence.
  - intros m n h s ts GC M IH r s' t' r' M' E S S'.
    inversion M' as [|? ? ? ? ?|? ? ? ? ? ?|m' n' h' s1 ts1 GC' M1|m' n' s1 t1 GC' M1];
      subst; cbn in E; inversion E; subst; try (cbn in S'; contradiction).
    + assert (h' = h) by congruence. subst h'.
      rewrite <- !app_assoc in *. cbn in *.
      match goal with H : s ++ RB :: r = s1 ++ RB :: r' |- _ =>
        destruct (IH _ _ _ _ M1 H) as [-> ->] end. auto.
    + congruence.
  - intros m n s t GC M IH r s' t' r' M' E S S'.
    inversion M' as [|? ? ? ? ?|? ? ? ? ? ?|m' n' h' s1 ts1 GC' M1|m' n' s1 t1 GC' M1];
      subst; cbn in E; inversion E; subst; try (cbn in S'; contradiction).
    + congruence.
    + rewrite <- !app_assoc in *. cbn in *.
      match goal with H : s ++ RB :: r = s1 ++ RB :: r' |- _ =>
        destruct (IH _ _ _ _ M1 H I I) as [-> ->] end. auto.
  - intros h s t M IH r s' ts' r' M' E. inversion M' as [? s1 t1 M1|? s1 t1 s2 ts2 M1 M2|s1 t1 M1]; subst.
    + destruct (IH _ _ _ _ M1 E I I) as [-> ->]. auto.
    + rewrite <- app_assoc in E. cbn in E. destruct (IH _ _ _ _ M1 E I I) as [-> ->].
      apply app_inv_head in E. discriminate E.
    + rewrite <- app_assoc in E. cbn in E. destruct (IH _ _ _ _ M1 E I I) as [-> ->].
      apply app_inv_head in E. discriminate E.
  - intros h s t s0 ts M IH M0 IH0 r s' ts' r' M' E.
    rewrite <- app_assoc in E. cbn in E.
    inversion M' as [? s1 t1 M1|? s1 t1 s2 ts2 M1 M2|s1 t1 M1]; subst.
    + destruct (IH _ _ _ _ M1 E I I) as [-> ->]. apply app_inv_head in E. discriminate E.
    + rewrite <- app_assoc in E. cbn in E. destruct (IH _ _ _ _ M1 E I I) as [-> ->].
      apply app_inv_head in E. inversion E as [E']. destruct (IH0 _ _ _ _ M2 E') as [-> ->]. auto.
    + rewrite <- app_assoc in E. cbn in E. destruct (IH _ _ _ _ M1 E I I) as [-> ->].
      apply app_inv_head in E. inversion E as [E']. exfalso. eapply DOT; [exact M0|exact E'].
  - intros s t M IH r s' ts' r' M' E.
    rewrite <- app_assoc in E. cbn in E.
    inversion M' as [? s1 t1 M1|? s1 t1 s2 ts2 M1 M2|s1 t1 M1]; subst.
    + destruct (IH _ _ _ _ M1 E I I) as [-> ->]. apply app_inv_head in E. discriminate E.
    + rewrite <- app_assoc in E. cbn in E. destruct (IH _ _ _ _ M1 E I I) as [-> ->].
      apply app_inv_head in E. inversion E as [E']. exfalso. eapply DOT; [exact M2|symmetry; exact E'].
    + rewrite <- app_assoc in E. cbn in E. destruct (IH _ _ _ _ M1 E I I) as [-> ->].
      auto.
Qed.

Lemma means_one G s t t' : G None "..." = None -> means G s t -> means G s t' -> t = t'.
Proof.
  intros GE M M'. destruct (means_unique G GE) as [U _].
  destruct (U _ _ M [] _ _ [] M' eq_refl I I) as [_ E]. exact E.
Qed.

(** ** Annotations of values can be written *)

Lemma distinct_last l n : exists d, distinct (l ++ [n]) = d ++ [n].
Proof.
  induction l as [|x l (d & IH)]; cbn [app distinct].
  - exists []. reflexivity.
  - rewrite IH. destruct (existsb (fun y => ty_eq x y) (d ++ [n])).
    + exists d. reflexivity.
    + exists (x :: d). reflexivity.
Qed.

Lemma distinct_nodup_cls l c d : distinct (l ++ [TCls c]) = d ++ [TCls c] ->
  ~ In (TCls c) l -> ~ In (TCls c) d /\ (forall a, In a d -> In a l) /\
  (forall a, In a l -> exists b, In b d /\ ty_eq a b = true).
Proof.
  revert d. induction l as [|x l IH]; cbn [app distinct]; intros d E N.
  - destruct d as [|y d]; [|destruct d; discriminate E]. repeat split; auto; intros a [].
  - destruct (distinct_last l (TCls c)) as (d0 & E0). rewrite E0 in E.
    destruct (IH d0 E0) as (I1 & I2 & I3); [intros H; apply N; right; exact H|].
    destruct (existsb (fun y => ty_eq x y) (d0 ++ [TCls c])) eqn:X.
    + apply app_inv_tail in E. subst d0. repeat split; auto.
      * intros a Ha. right. auto.
      * intros a [<-|Ha]; [|auto]. apply existsb_exists in X. destruct X as (y & Hy & Ey).
        apply in_app_or in Hy. destruct Hy as [Hy|[<-|[]]]; [eauto|].
        apply eq_cls_r in Ey. subst x. exfalso. apply N. left; reflexivity.
    + change (x :: d0 ++ [TCls c]) with ((x :: d0) ++ [TCls c]) in E.
      apply app_inv_tail in E. subst d. repeat split.
      * intros [H|H]; [apply N; left; exact H|contradiction].
      * intros a [<-|Ha]; [left; reflexivity|right; auto].
      * intros a [<-|Ha]; [exists x; split; [left; reflexivity|apply eq_refl_ty]|].
        destruct (I3 _ Ha) as (b & Hb & Eb). exists b. split; [right; exact Hb|exact Eb].
Qed.

Lemma good_union W G ps : plain_cache W -> ps <> [] -> (forall a, In a ps -> flat a) ->
  Forall (good G) ps -> ~ In (TCls CNone) ps ->
  good G (mk_union W ps) /\ (forall a, In a (choices (mk_union W ps)) -> In a ps) /\
  choices (mk_union W ps) <> [].
Proof.
  intros PC NE FL FG NN. unfold mk_union.
  change (flat_map alternatives ps) with (flat_map choices ps). rewrite flat_map_flat by exact FL.
  pose proof (distinct_in ps) as DI. destruct (distinct_cover ps) as [DC _].
  rewrite Forall_forall in FG.
  destruct (distinct ps) as [|t [|t' r]] eqn:Q.
  - exfalso. destruct ps as [|p ps]; [congruence|].
    destruct (DC p (or_introl eq_refl)) as (b & [] & _).
  - rewrite flat_choices by (apply FL, DI; left; reflexivity). repeat split.
    + apply FG, DI. left; reflexivity.
    + intros a Ha. apply DI, Ha.
    + discriminate.
  - rewrite PC. repeat split.
    + apply G_union; [cbn; lia| |].
      * apply Forall_forall. intros a Ha. apply FG, DI, Ha.
      * intros H. exfalso. apply NN, DI, H.
    + intros a Ha. apply DI, Ha.
    + discriminate.
Qed.

Lemma good_optional W G u : plain_cache W -> good G u -> choices u <> [] ->
  (forall a, In a (choices u) -> good G a /\ flat a) -> ~ In (TCls CNone) (choices u) ->
  good G (mk_union W [u; TCls CNone]).
Proof.
  intros PC GU NE FU NN. unfold mk_union.
  change (flat_map alternatives [u; TCls CNone]) with (choices u ++ [TCls CNone]).
  destruct (distinct_last (choices u) (TCls CNone)) as (d & E). rewrite E.
  destruct (distinct_nodup_cls _ _ _ E NN) as (D1 & D2 & D3).
  destruct d as [|a d].
  - exfalso. destruct (choices u) as [|x r]; [congruence|].
    destruct (D3 x (or_introl eq_refl)) as (b & [] & _).
  - assert (R : good G (cached W (TApp HUnion ((a :: d) ++ [TCls CNone])))).
    { rewrite PC. apply G_union.
      - rewrite app_length. cbn. lia.
      - apply Forall_app. split; [|constructor; [constructor|constructor]].
        apply Forall_forall. intros x Hx. apply FU, D2, Hx.
      - intros _. eauto. }
    cbn [app] in *. destruct d as [|b d]; exact R.
Qed.

Lemma good_resolve W G h types : fair W -> plain_cache W -> h <> HUnion ->
  Forall (good G) types -> (forall a, In a types -> flat a) ->
  resolve W h types = TBare h /\ types = [] \/
  exists ret, resolve W h types = TApp h [ret] /\ good G ret.
Proof.
  intros FW PC HU FG FL.
  destruct types as [|t0 ts0]; [left; split; reflexivity|right].
  set (types := t0 :: ts0) in *.
  assert (SG : forall a, In a (stage types) -> good G a /\ flat a /\ a <> TCls CNone).
  { intros a Ha. apply stage_in in Ha. destruct Ha as [Ha N]. apply distinct_in in Ha.
    rewrite Forall_forall in FG. auto. }
  assert (NEM : stage types = [] ->
                existsb (fun t => ty_eq t (TCls CNone)) (distinct types) = true).
  { intros E. destruct (distinct_cover types) as [DC _].
    destruct (DC t0 (or_introl eq_refl)) as (b & Hb & _).
    destruct (existsb (fun t => ty_eq t (TCls CNone)) (distinct types)) eqn:X; [reflexivity|].
    exfalso. assert (B1 : In b (filter (isnt CNone) (distinct types))).
    { apply filter_In. split; [exact Hb|]. apply isnt_spec. intros ->. apply has_cls in Hb.
      congruence. }
    unfold stage in E.
    destruct (existsb (fun t => ty_eq t (TCls CFloat)) (filter (isnt CNone) (distinct types)))
      eqn:XF.
    - apply has_cls in XF.
      assert (In (TCls CFloat) []) as []. rewrite <- E. apply filter_In.
      split; [exact XF|apply isnt_spec; congruence].
    - rewrite E in B1. destruct B1. }
  unfold resolve, subscript.
  change (filter (fun t => negb (ty_eq t (TCls CNone))) (distinct types))
    with (filter (isnt CNone) (distinct types)).
  change (if existsb (fun t => ty_eq t (TCls CFloat)) (filter (isnt CNone) (distinct types))
          then filter (fun t1 => negb (ty_eq t1 (TCls CInt))) (filter (isnt CNone) (distinct types))
          else filter (isnt CNone) (distinct types)) with (stage types).
  assert (WR : forall u, good G u -> choices u <> [] ->
     (forall a, In a (choices u) -> good G a /\ flat a) -> ~ In (TCls CNone) (choices u) ->
     exists ret,
       cached W (TApp h [if existsb (fun t => ty_eq t (TCls CNone)) (distinct types)
                         then mk_union W [u; TCls CNone] else u]) = TApp h [ret]
       /\ good G ret).
  { intros u GU NE FU NN. rewrite PC. eexists. split; [reflexivity|].
    destruct (existsb (fun t => ty_eq t (TCls CNone)) (distinct types)); [|exact GU].
    apply good_optional; assumption. }
  destruct (stage types) as [|t [|t' r]] eqn:ST.
  - rewrite (NEM eq_refl), PC. eexists. split; [reflexivity|constructor].
  - destruct (SG t (or_introl eq_refl)) as (Gt & Ft & Nt).
    apply WR; rewrite ?(flat_choices t Ft); try discriminate; [exact Gt| |].
    + intros a [<-|[]]. auto.
    + intros [E|[]]. congruence.
  - destruct FW as [FI FC].
    assert (PI : forall a, In a (iter W (t :: t' :: r)) -> In a (t :: t' :: r))
      by (intros a Ha; eapply Permutation_in; [apply Permutation_sym, FI|exact Ha]).
    destruct (good_union W G (iter W (t :: t' :: r)) PC) as (U1 & U2 & U3).
    + intros E. pose proof (Permutation_length (FI (t :: t' :: r))) as PL. rewrite E in PL.
      discriminate PL.
    + intros a Ha. apply SG, PI, Ha.
    + apply Forall_forall. intros a Ha. apply SG, PI, Ha.
    + intros H. apply PI, SG in H. destruct H as (_ & _ & H). apply H; reflexivity.
    + apply WR; auto.
      * intros a Ha. apply U2, PI, SG in Ha. tauto.
      * intros H. apply U2, PI, SG in H. destruct H as (_ & _ & H). apply H; reflexivity.
Qed.

Lemma flat_annotation W v t : fair W -> annotation W v = Some t -> flat t.
Proof.
  intros FW E. destruct (annotation_exact W v FW) as (t' & E' & X).
  rewrite E in E'. inversion E'; subst. eapply exact_flat; eauto.
Qed.

Lemma good_annotation W G v : fair W -> plain_cache W ->
  (forall c, class_in c v -> c <> CNone -> sees_class G c) ->
  forall t, annotation W v = Some t -> good G t.
Proof.
  intros FW PC.
  assert (CG : forall c, (c <> CNone -> sees_class G c) -> good G (TCls c)).
  { intros c H. destruct (cls_eqb c CNone) eqn:E.
    - apply cls_eqb_eq in E. subst c. constructor.
    - apply G_cls, H. intros ->. discriminate E. }
  assert (AL : forall l, Forall (fun v => (forall c, class_in c v -> c <> CNone -> sees_class G c) ->
                 forall t, annotation W v = Some t -> good G t) l ->
               (forall x, In x l -> forall c, class_in c x -> c <> CNone -> sees_class G c) ->
               forall ts, all_some (map (annotation W) l) = Some ts ->
                 Forall (good G) ts /\ (forall a, In a ts -> flat a)).
  { induction 1 as [|w l Hv F IH]; intros S ts E; cbn [map all_some] in E.
    - inversion E; subst. split; [constructor|intros a []].
    - destruct (annotation W w) as [t|] eqn:Ev; [|discriminate E].
      destruct (all_some (map (annotation W) l)) as [ts'|] eqn:El; [|discriminate E].
      inversion E; subst. destruct (IH (fun x Hx => S x (or_intror Hx)) ts' eq_refl) as [I1 I2].
      split.
      + constructor; [|exact I1]. apply Hv; [apply S; left; reflexivity|reflexivity].
      + intros a [<-|Ha]; [|auto]. eapply flat_annotation; eauto. }
  induction v as [| | | | |c|l IH|l IH|l IH|l IHk IHv] using value_ind';
    intros SC t E; cbn [annotation] in E.
  - inversion E; subst. constructor.
  - inversion E; subst. apply CG. apply SC. constructor.
  - inversion E; subst. apply CG. apply SC. constructor.
  - inversion E; subst. apply CG. apply SC. constructor.
  - inversion E; subst. apply CG. apply SC. constructor.
  - inversion E; subst. unfold subscript. rewrite PC. apply G_app; [discriminate|discriminate|].
    constructor; [|constructor]. apply CG. apply SC. constructor.
  - destruct (all_some (map (annotation W) l)) as [ts|] eqn:El; [|discriminate E].
    cbn in E. inversion E; subst.
    destruct (AL l IH (fun x Hx c Hc => SC c (I_list c x l Hx Hc)) ts El) as [A1 A2].
    destruct (good_resolve W G HList ts FW PC) as [[-> _]|(ret & -> & Gr)]; auto; try discriminate.
    + constructor. discriminate.
    + apply G_app; [discriminate|discriminate|]. constructor; [exact Gr|constructor].
  - destruct (all_some (map (annotation W) l)) as [ts|] eqn:El; [|discriminate E].
    cbn in E. inversion E; subst.
    destruct (AL l IH (fun x Hx c Hc => SC c (I_set c x l Hx Hc)) ts El) as [A1 A2].
    destruct (good_resolve W G HSet ts FW PC) as [[-> _]|(ret & -> & Gr)]; auto; try discriminate.
    + constructor. discriminate.
    + apply G_app; [discriminate|discriminate|]. constructor; [exact Gr|constructor].
  - destruct (all_some (map (annotation W) l)) as [ts|] eqn:El; [|discriminate E].
    destruct (AL l IH (fun x Hx c Hc => SC c (I_tuple c x l Hx Hc)) ts El) as [A1 A2].
    unfold resolve_tuple, subscript in E.
    destruct (Nat.eqb_spec (List.length ts) 0) as [Z|NZ].
    + inversion E; subst. constructor. discriminate.
    + assert (NE : ts <> []) by (intros ->; apply NZ; reflexivity).
      destruct (List.length ts <=? 3).
      * inversion E; subst. rewrite PC. apply G_app; [discriminate|exact NE|exact A1].
      * destruct (good_resolve W G HList ts FW PC) as [[_ EE]|(ret & ER & Gr)]; auto;
          [discriminate|contradiction|].
        rewrite ER in E. cbn [args_of] in E. inversion E; subst. rewrite PC.
        apply G_of. exact Gr.
  - assert (EK : map (fun p : value * value => let '(k, _) := p in annotation W k) l
                 = map (annotation W) (map fst l)).
    { rewrite map_map. apply map_ext. intros [k x]. reflexivity. }
    assert (EV : map (fun p : value * value => let '(_, x) := p in annotation W x) l
                 = map (annotation W) (map snd l)).
    { rewrite map_map. apply map_ext. intros [k x]. reflexivity. }
    rewrite EK, EV in E.
    destruct (all_some (map (annotation W) (map fst l))) as [ks|] eqn:Ek; [|discriminate E].
    destruct (all_some (map (annotation W) (map snd l))) as [vs|] eqn:Ev; [|discriminate E].
    destruct (AL _ IHk) with (ts := ks) as [K1 K2]; [|exact Ek|].
    { intros x Hx c Hc. apply in_map_iff in Hx. destruct Hx as (p & <- & Hp).
      apply SC. eapply I_key; eauto. }
    destruct (AL _ IHv) with (ts := vs) as [V1 V2]; [|exact Ev|].
    { intros x Hx c Hc. apply in_map_iff in Hx. destruct Hx as (p & <- & Hp).
      apply SC. eapply I_val; eauto. }
    unfold resolve_dict, subscript in E.
    destruct (good_resolve W G HList ks FW PC) as [[Rk _]|(k & Rk & Gk)]; auto; try discriminate;
      rewrite Rk in E; cbn [args_of] in E.
    + inversion E; subst. constructor. discriminate.
    + destruct (good_resolve W G HList vs FW PC) as [[Rv _]|(x & Rv & Gx)]; auto;
        try discriminate; rewrite Rv in E; cbn [args_of] in E.
      * inversion E; subst. constructor. discriminate.
      * inversion E; subst. rewrite PC. apply G_app; [discriminate|discriminate|].
        constructor; [exact Gk|]. constructor; [exact Gx|constructor].
Qed.

(** Brackets match. *)
Fixpoint net (s : list tok) : Z :=
  match s with
  | [] => 0%Z
  | LB :: r => (1 + net r)%Z
  | RB :: r => (net r - 1)%Z
  | _ :: r => net r
  end.

Lemma net_app a b : net (a ++ b) = (net a + net b)%Z.
Proof. induction a as [|[]  a IH]; cbn [app net]; rewrite ?IH; lia. Qed.

Lemma means_net G :
  (forall s t, means G s t -> net s = 0%Z) /\ (forall h s ts, means_all G h s ts -> net s = 0%Z).
Proof.
  apply means_both; intros; cbn [net]; rewrite ?net_app; cbn [net];
    repeat match goal with H : net _ = 0%Z |- _ => rewrite H end; reflexivity.
Qed.
