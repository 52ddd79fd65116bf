(** When the analysis of a cell ends. *)
Require Import String List Bool Arith Lia.
Import ListNotations.
Require Import Verif.Base Verif.Loops Verif.LiveModel Verif.LiveSpec Verif.LiveProofs.
Local Open Scope list_scope.

(** ** More fuel changes nothing *)

Definition le_res (r r' : res vst) : Prop := r = Err OutOfFuel \/ r = r'.

Lemma le_refl' r : le_res r r.
Proof. right. auto. Qed.
Lemma le_rbind m m' (f f' : vst -> res vst) : le_res m m' -> (forall s, le_res (f s) (f' s)) ->
  le_res (rbind m f) (rbind m' f').
Proof. intros [->| ->] H; [left; auto|]. destruct m'; simpl; auto using le_refl'. Qed.
Lemma le_rmap m m' (f : vst -> vst) : le_res m m' -> le_res (rmap f m) (rmap f m').
Proof. intros [->| ->]; [left; auto|apply le_refl']. Qed.
Lemma le_rfold {A} (f f' : vst -> A -> res vst) : (forall s a, le_res (f s a) (f' s a)) ->
  forall l s, le_res (rfold f l s) (rfold f' l s).
Proof.
  intros H l. induction l as [|a l IH]; simpl; intros s; [apply le_refl'|].
  apply le_rbind; auto.
Qed.
Lemma le_opt {A} (f f' : vst -> A -> res vst) : (forall s a, le_res (f s a) (f' s a)) ->
  forall o s, le_res (fold_opt f s o) (fold_opt f' s o).
Proof. intros H [a|] s; simpl; auto using le_refl'. Qed.

Section Mono.
Variables n m : nat.
Hypothesis He : forall k att st e, le_res (vexpr n k att st e) (vexpr m k att st e).
Hypothesis Ha : forall k att st ts v a, le_res (vassign n k att st ts v a) (vassign m k att st ts v a).
Hypothesis Ht : forall att st t, le_res (vtarget n att st t) (vtarget m att st t).
Hypothesis Hs : forall k att st s, le_res (vstmt n k att st s) (vstmt m k att st s).
Hypothesis Hb : forall k att st t a b, le_res (vbranch n k att st t a b) (vbranch m k att st t a b).

Ltac mono :=
  repeat first
    [ apply le_refl' | apply He | apply Ha | apply Ht | apply Hs | apply Hb
    | apply le_rbind | apply le_rmap | apply le_rfold | apply le_opt
    | progress intros | match goal with |- le_res (match ?x with _ => _ end) _ => destruct x end ].

Lemma mono_expr k att st e : le_res (vexpr (S n) k att st e) (vexpr (S m) k att st e).
Proof. destruct e; cbn [vexpr]; mono. Qed.
Lemma mono_assign k att st ts v a :
  le_res (vassign (S n) k att st ts v a) (vassign (S m) k att st ts v a).
Proof. cbn [vassign]. mono. Qed.
Lemma mono_target att st t : le_res (vtarget (S n) att st t) (vtarget (S m) att st t).
Proof. destruct t; cbn [vtarget]; mono. Qed.
Lemma mono_stmt k att st s : le_res (vstmt (S n) k att st s) (vstmt (S m) k att st s).
Proof. destruct s; cbn [vstmt]; mono. Qed.
Lemma mono_branch k att st t a b :
  le_res (vbranch (S n) k att st t a b) (vbranch (S m) k att st t a b).
Proof. cbn [vbranch]. mono. Qed.
End Mono.

Lemma mono_all n : forall m, n <= m ->
  (forall k att st e, le_res (vexpr n k att st e) (vexpr m k att st e)) /\
  (forall k att st ts v a, le_res (vassign n k att st ts v a) (vassign m k att st ts v a)) /\
  (forall att st t, le_res (vtarget n att st t) (vtarget m att st t)) /\
  (forall k att st s, le_res (vstmt n k att st s) (vstmt m k att st s)) /\
  (forall k att st t a b, le_res (vbranch n k att st t a b) (vbranch m k att st t a b)).
Proof.
  induction n as [|n IH]; intros m Hm.
  - split; [|split; [|split; [|split]]]; intros; left; reflexivity.
  - destruct m as [|m]; [lia|]. destruct (IH m) as (A & B & C & D & E); [lia|].
    split; [|split; [|split; [|split]]]; intros.
    + apply mono_expr; auto.
    + apply mono_assign; auto.
    + apply mono_target; auto.
    + apply mono_stmt; auto.
    + apply mono_branch; auto.
Qed.

Lemma analyze_mono n m prog r : n <= m -> analyze n prog = r -> r <> Err OutOfFuel ->
  analyze m prog = r.
Proof.
  intros L H N. destruct (mono_all n m L) as (_ & _ & _ & P & _).
  assert (Q : le_res (analyze n prog) (analyze m prog)).
  { unfold analyze. apply le_rmap, le_rfold. auto. }
  destruct Q; congruence.
Qed.

Lemma ends_at n prog r : analyze n prog = r -> r <> Err OutOfFuel -> ends prog r.
Proof. intros H N. exists n. intros m L. eapply analyze_mono; eassumption. Qed.

(** ** The functions of a cell *)

Lemma sdefs_closed : forall s fn, In fn (sdefs s) -> incl (flat_map sdefs (fn_body fn)) (sdefs s).
Proof.
  fix IH 1.
  assert (Ls : forall ss fn, In fn (flat_map sdefs ss) ->
            incl (flat_map sdefs (fn_body fn)) (flat_map sdefs ss)).
  { intros ss. induction ss as [|s ss IHs]; simpl; intros fn J; [destruct J|].
    apply in_app_or in J. destruct J as [J|J].
    - apply incl_appl. apply IH. auto.
    - apply incl_appr. auto. }
  intros s fn J. destruct s; simpl in J |- *; try (destruct J; fail).
  - destruct fn0 as [x ps kos ds kds anns decos b]. simpl in J. destruct J as [<-|J].
    + simpl. apply incl_tl, incl_refl.
    + apply incl_tl. apply Ls. auto.
  - apply Ls. auto.
  - apply in_app_or in J. destruct J as [J|J]; [apply incl_appl|apply incl_appr]; apply Ls; auto.
  - apply in_app_or in J. destruct J as [J|J]; [apply incl_appl|apply incl_appr]; apply Ls; auto.
  - apply in_app_or in J. destruct J as [J|J]; [apply incl_appl|apply incl_appr]; apply Ls; auto.
  - apply Ls. auto.
  - apply in_app_or in J. destruct J as [J|J]; [apply incl_appl, Ls; auto|]. apply incl_appr.
    apply in_app_or in J. destruct J as [J|J].
    + apply incl_appl. revert J. induction handlers as [|[t x b] hs IHh]; simpl; intros J; [destruct J|].
      apply in_app_or in J. destruct J as [J|J]; [apply incl_appl, Ls; auto|apply incl_appr; auto].
    + apply incl_appr. apply in_app_or in J.
      destruct J as [J|J]; [apply incl_appl|apply incl_appr]; apply Ls; auto.
Qed.
Lemma prog_closed prog fn : In fn (flat_map sdefs prog) ->
  incl (flat_map sdefs (fn_body fn)) (flat_map sdefs prog).
Proof.
  intros J y Y. apply in_flat_map in J. destruct J as (s & J1 & J2). apply in_flat_map.
  exists s. split; auto. apply (sdefs_closed s fn J2). auto.
Qed.

Section Funs.
Variable Defs : list fndef.
Hypothesis closed : forall fn, In fn Defs -> incl (flat_map sdefs (fn_body fn)) Defs.

Definition DI (st : vst) : Prop :=
  forall g fn, fget (funs st) g = Some fn -> In fn Defs /\ fn_name fn = g.
Lemma DI_still st st' : still st st' -> DI st -> DI st'.
Proof. intros [_ E] H g fn. rewrite E. auto. Qed.
Lemma DI_funs st st' : funs st' = funs st -> DI st -> DI st'.
Proof. intros E H g fn. rewrite E. auto. Qed.

Lemma incl_app_l {A} (a b c : list A) : incl (a ++ b) c -> incl a c.
Proof. intros H x J. apply H, in_or_app. auto. Qed.
Lemma incl_app_r {A} (a b c : list A) : incl (a ++ b) c -> incl b c.
Proof. intros H x J. apply H, in_or_app. auto. Qed.
Lemma incl_flat {A B} (f : A -> list B) l c a : incl (flat_map f l) c -> In a l -> incl (f a) c.
Proof. intros H J x X. apply H. apply in_flat_map. eauto. Qed.

Lemma DI_stmt n : forall k att st s st', vstmt n k att st s = Ok st' -> incl (sdefs s) Defs ->
  DI st -> DI st'.
Proof.
  induction n as [n IHn] using lt_wf_ind. intros k att st s st' H Is D.
  destruct n as [|n]; [discriminate|].
  assert (Ls : forall m ss k att st st', m <= n -> rfold (vstmt m k att) ss st = Ok st' ->
            incl (flat_map sdefs ss) Defs -> DI st -> DI st').
  { intros m ss k0 att0 s0 s0' Lm R I0 D0. revert R. apply (rfold_inv _ DI); auto.
    intros u v w Ju Dv R. eapply IHn; [|exact R| |auto]; [lia|]. eapply incl_flat; eassumption. }
  assert (Br : forall k att st t a b st', vbranch n k att st t a b = Ok st' ->
            incl (flat_map sdefs a ++ flat_map sdefs b) Defs -> DI st -> DI st').
  { intros k0 att0 s0 t a b s0' R I0 D0. destruct n as [|m]; [discriminate|]. cbn [vbranch] in R.
    steps R. injection R as <-.
    apply (DI_funs s3); auto. eapply (Ls m); [auto|exact E1|eapply incl_app_r; eassumption|].
    apply (DI_funs s2); auto. eapply (Ls m); [auto|exact E0|eapply incl_app_l; eassumption|].
    destruct t; simpl in E.
    - apply vexpr_still in E. apply (DI_funs s0); auto. simpl. apply E.
    - injection E as <-. apply (DI_funs s0); auto. }
  destruct s; cbn [vstmt] in H; simpl in Is; try (injection H as <-; auto; fail);
    try (eapply DI_still; [eapply vexpr_still; eassumption|auto]; fail);
    try (eapply DI_still; [eapply vexprs_still; eassumption|auto]; fail);
    try (eapply DI_still; [eapply vassign_still; eassumption|auto]; fail).
  - destruct fn as [x ps kos ds kds anns decos b]. steps H. injection H as <-.
    apply vexprs_still in E, E0. assert (D0 : DI s0) by (eapply DI_still; [exact E0|eapply DI_still; eassumption]).
    intros g fn. simpl. destruct (String.eqb g x) eqn:Q.
    + apply String.eqb_eq in Q. subst. intros [= <-]. split; auto. apply Is. simpl. auto.
    + apply D0.
  - steps H. injection H as <-. apply vexprs_still in E, E0.
    apply (DI_funs s0); auto. eapply DI_still; [exact E0|eapply DI_still; eassumption].
  - steps H. apply vexpr_still in E. eapply Br; [eassumption|auto|eapply DI_still; eassumption].
  - steps H. apply vexpr_still in E. eapply Br; [eassumption|auto|eapply DI_still; eassumption].
  - steps H. apply vexpr_still in E. eapply Br; [eassumption|auto|eapply DI_still; eassumption].
  - steps H. eapply (Ls n); [auto|exact H|auto|]. revert E. apply (rfold_inv _ DI); auto.
    intros i u v _ Du R. cbv beta in R. apply rbind_Ok in R. destruct R as (s1 & E & R).
    apply vexpr_still in E. destruct (snd i); simpl in R.
    + apply vexpr_still in R. eapply DI_still; [exact R|eapply DI_still; eassumption].
    + injection R as <-. eapply DI_still; eassumption.
  - steps H. eapply (Ls n); [auto|exact H|eapply incl_app_r, incl_app_r, incl_app_r; eassumption|].
    eapply (Ls n); [auto|exact E1|eapply incl_app_l, incl_app_r, incl_app_r; eassumption|].
    assert (D1 : DI s) by (eapply (Ls n); [auto|exact E|eapply incl_app_l; eassumption|auto]).
    revert E0. apply (rfold_inv _ DI); auto.
    intros [t x b] u v Jh Du R. cbv beta iota in R. apply rbind_Ok in R. destruct R as (s3 & E0 & R).
    eapply (Ls n); [auto|exact R| |].
    + apply incl_app_r, incl_app_l in Is. apply (incl_flat _ _ _ _ Is Jh).
    + destruct t; simpl in E0.
      * apply vexpr_still in E0. eapply DI_still; eassumption.
      * injection E0 as <-. auto.
Qed.
End Funs.

(** ** The fuel that is needed *)

Fixpoint esize (e : expr) : nat :=
  match e with
  | EConst _ | EName _ => 1
  | EAttr b _ => 1 + esize b
  | ESub b s => 1 + esize b + esize s
  | ECall f args => 1 + esize f + list_sum (map esize args)
  | EBin l r => 1 + esize l + esize r
  | EList es | EStr es | EOp es | ECond es => 1 + list_sum (map esize es)
  | EDict ks vs => 1 + list_sum (map esize ks) + list_sum (map esize vs)
  | EStar e => 1 + esize e
  | ENamed _ e => 3 + esize e
  | EComp elts gens =>
      1 + list_sum (map esize elts) +
      list_sum (map (fun g => let 'Gen t i ifs := g in
                       esize t + esize i + list_sum (map esize ifs)) gens)
  | ELambda ds => 1 + list_sum (map esize ds)
  end.
Definition osize (o : option expr) : nat := match o with Some e => esize e | None => 0 end.
Fixpoint ssize (s : stmt) : nat :=
  match s with
  | SPass | SBreak | SContinue => 1
  | SExpr e => 1 + esize e
  | SReturn es | SRaise es | SDelete es => 1 + list_sum (map esize es)
  | SAssign ts e => 2 + list_sum (map esize ts) + esize e
  | SAnn t ann e => 2 + esize t + osize e
  | SAug t e => 2 + esize t + esize e
  | SImport xs => 2 + List.length xs
  | SFunc (Fn _ _ _ ds _ _ decos _) => 1 + list_sum (map esize ds) + list_sum (map esize decos)
  | SClass _ bs _ decos _ => 1 + list_sum (map esize bs) + list_sum (map esize decos)
  | SIf e a b | SWhile e a b => 2 + esize e + list_sum (map ssize a) + list_sum (map ssize b)
  | SFor t e a b => 2 + esize t + esize e + list_sum (map ssize a) + list_sum (map ssize b)
  | SWith _ items b =>
      1 + list_sum (map (fun i => esize (fst i) + osize (snd i)) items) + list_sum (map ssize b)
  | STry b hs o f =>
      1 + list_sum (map ssize b) +
      list_sum (map (fun h => let 'Handler t _ b := h in osize t + list_sum (map ssize b)) hs) +
      list_sum (map ssize o) + list_sum (map ssize f)
  end.

Lemma sum_In {A} (f : A -> nat) l a : In a l -> f a <= list_sum (map f l).
Proof.
  induction l as [|b l IH]; simpl; [intros []|]. intros [->|J]; [lia|]. apply IH in J. lia.
Qed.

Definition okr (Q : err -> Prop) (r : res vst) : Prop :=
  match r with Ok _ => True | Err e => Q e end.

Lemma okr_rbind Q m f : okr Q m -> (forall s, m = Ok s -> okr Q (f s)) -> okr Q (rbind m f).
Proof. destruct m; simpl; auto. Qed.
Lemma okr_rmap Q m f : okr Q m -> okr Q (rmap f m).
Proof. destruct m; simpl; auto. Qed.
Lemma okr_rfold {A} Q (I : vst -> Prop) (f : vst -> A -> res vst) l : forall s, I s ->
  (forall a u, In a l -> I u -> okr Q (f u a)) ->
  (forall a u v, In a l -> I u -> f u a = Ok v -> I v) -> okr Q (rfold f l s).
Proof.
  induction l as [|a l IH]; simpl; intros s Is H K; [exact Logic.I|].
  apply okr_rbind; auto. intros u E. apply IH; eauto.
Qed.

Section Bound.
Variable Defs : list fndef.
Hypothesis closed : forall fn, In fn Defs -> incl (flat_map sdefs (fn_body fn)) Defs.
(** [mode]: whether there is fuel enough. *)
Variable mode : bool.
Variable rank : string -> nat.
Variable D : nat.
Hypothesis ranked : mode = true -> forall fn g, In fn Defs -> In g (flat_map scalls (fn_body fn)) ->
  (exists fn', In fn' Defs /\ fn_name fn' = g) -> rank g < rank (fn_name fn).
Hypothesis sized : forall fn, In fn Defs -> list_sum (map ssize (fn_body fn)) <= D.

Let Q (e : err) : Prop :=
  (mode = false /\ e = OutOfFuel) \/
  (e = AttributeError /\ exists fn, In fn Defs /\ fn_kwonly fn <> []).

Definition low (r : nat) (l : list string) : Prop :=
  mode = true -> forall g, In g l -> (exists fn, In fn Defs /\ fn_name fn = g) -> rank g < r.
Definition room (n sz r : nat) : Prop := mode = true -> sz + r * (D + 1) <= n.

Lemma low_incl r l l' : low r l -> incl l' l -> low r l'.
Proof. intros H I M g J. apply H; auto. Qed.
Lemma room_less n sz sz' r : room (S n) sz r -> sz' < sz -> room n sz' r.
Proof. intros H L M. specialize (H M). lia. Qed.
Lemma room_zero sz r : room 0 sz r -> 0 < sz -> Q OutOfFuel.
Proof.
  intros H L. destruct (Bool.bool_dec mode true) as [M|M]; [specialize (H M); lia|].
  apply Bool.not_true_is_false in M. left. auto.
Qed.

Definition Be n : Prop := forall k att st e r, DI Defs st -> low r (ecalls e) -> room n (esize e) r ->
  okr Q (vexpr n k att st e).
Definition Ba n : Prop := forall k att st ts v a r, DI Defs st ->
  low r (flat_map ecalls ts ++ oecalls v ++ oecalls a) ->
  room n (1 + list_sum (map esize ts) + osize v + osize a) r -> okr Q (vassign n k att st ts v a).
Definition Bt n : Prop := forall att st t r, DI Defs st -> low r (ecalls t) -> room n (esize t) r ->
  okr Q (vtarget n att st t).
Definition Bs n : Prop := forall k att st s r, DI Defs st -> incl (sdefs s) Defs -> low r (scalls s) ->
  room n (ssize s) r -> okr Q (vstmt n k att st s).
Definition Bb n : Prop := forall k att st t a b r, DI Defs st ->
  incl (flat_map sdefs a ++ flat_map sdefs b) Defs ->
  low r (oecalls t ++ flat_map scalls a ++ flat_map scalls b) ->
  room n (1 + osize t + list_sum (map ssize a) + list_sum (map ssize b)) r ->
  okr Q (vbranch n k att st t a b).

Section Step.
Variable n : nat.
Hypothesis IHe : Be n.
Hypothesis IHa : Ba n.
Hypothesis IHt : Bt n.
Hypothesis IHs : Bs n.
Hypothesis IHb : Bb n.

Lemma okr_es k att es st r : DI Defs st -> low r (flat_map ecalls es) ->
  room n (list_sum (map esize es)) r -> okr Q (rfold (vexpr n k att) es st).
Proof.
  intros Di L R. apply (okr_rfold _ (DI Defs)); auto.
  - intros a u J Du. apply (IHe _ _ _ _ r); auto.
    + eapply low_incl; [exact L|]. intros y Y. apply in_flat_map. eauto.
    + intros M. specialize (R M). pose proof (sum_In esize es a J). lia.
  - intros a u v J Du E. eapply DI_still; [eapply vexpr_still; eassumption|auto].
Qed.
Lemma okr_oe k att o st r : DI Defs st -> low r (oecalls o) -> room n (osize o) r ->
  okr Q (fold_opt (vexpr n k att) st o).
Proof.
  intros Di L R. destruct o; simpl; [|exact Logic.I]. eapply IHe; eassumption.
Qed.
Lemma okr_ss k att ss st r : DI Defs st -> incl (flat_map sdefs ss) Defs ->
  low r (flat_map scalls ss) -> room n (list_sum (map ssize ss)) r ->
  okr Q (rfold (vstmt n k att) ss st).
Proof.
  intros Di I L R. apply (okr_rfold _ (DI Defs)); auto.
  - intros a u J Du. apply (IHs _ _ _ _ r); auto.
    + eapply incl_flat; eassumption.
    + eapply low_incl; [exact L|]. intros y Y. apply in_flat_map. eauto.
    + intros M. specialize (R M). pose proof (sum_In ssize ss a J). lia.
  - intros a u v J Du E. eapply DI_stmt; [exact E|eapply incl_flat; eassumption|auto].
Qed.

Ltac lows L := eapply low_incl; [exact L|]; intros ? ?; simpl in *; rewrite ?in_app_iff in *; tauto.
Ltac rooms R := intros ?M; specialize (R ltac:(assumption)); simpl in *; lia.

Lemma bound_expr : Be (S n).
Proof.
  intros k att st e r Di L R. 
  assert (Da : forall b c, DI Defs (if b : bool then st else add_attrsub st c)).
  { intros b c. eapply DI_still; [apply still_if, still_add_attrsub|auto]. }
  destruct e; cbn [vexpr]; cbn [ecalls] in L; try exact Logic.I.
  - apply (IHe _ _ _ _ r); auto. rooms R.
  - destruct (quoted e1); [exact Logic.I|]. apply okr_rbind.
    + apply (IHe _ _ _ _ r); auto; [lows L|rooms R].
    + intros s E. apply (IHe _ _ _ _ r); [|lows L|rooms R].
      eapply DI_still; [eapply vexpr_still; exact E|auto].
  - apply okr_rbind; [apply (okr_es _ _ _ _ r); auto; [lows L|rooms R]|].
    intros s E. pose proof (vexprs_still _ _ _ _ _ _ E) as S1.
    assert (D1 : DI Defs s) by (eapply DI_still; eassumption).
    apply okr_rbind.
    + apply (IHe _ _ _ _ r); [|lows L|rooms R].
      eapply DI_still; [apply still_if, still_add_attrsub|auto].
    + intros s' E'. assert (D2 : DI Defs s').
      { eapply DI_still; [eapply vexpr_still; exact E'|].
        eapply DI_still; [apply still_if, still_add_attrsub|auto]. }
      destruct e; try exact Logic.I. destruct (fget (funs s') x) as [fn|] eqn:G; [|exact Logic.I].
      destruct (D2 _ _ G) as [G1 G2].
      destruct (fn_kwonly fn) eqn:K.
      2:{ right. split; auto. exists fn. split; auto. congruence. }
      apply okr_rbind; [|intros; exact Logic.I].
      apply (okr_ss _ _ _ _ (rank x)); auto.
      * intros M g J X. rewrite <- G2. apply ranked; auto.
      * intros M. specialize (R M). simpl in R.
        assert (Rk : rank x < r) by (apply (L M); simpl; eauto).
        pose proof (sized fn G1). nia.
  - apply okr_rbind.
    + apply (IHe _ _ _ _ r); auto; [lows L|rooms R].
    + intros s E. apply (IHe _ _ _ _ r); [|lows L|rooms R].
      eapply DI_still; [eapply vexpr_still; exact E|auto].
  - apply (okr_es _ _ _ _ r); auto. rooms R.
  - apply okr_rbind; [apply (okr_es _ _ _ _ r); auto; [lows L|rooms R]|].
    intros s E. apply (okr_es _ _ _ _ r); [|lows L|rooms R].
    eapply DI_still; [eapply vexprs_still; exact E|auto].
  - apply (okr_es _ _ _ _ r); auto. rooms R.
  - apply (okr_es _ _ _ _ r); auto. rooms R.
  - apply (okr_es _ _ _ _ r); auto. rooms R.
  - apply (IHe _ _ _ _ r); auto. rooms R.
  - apply (IHa _ _ _ _ _ _ r); auto; [|rooms R]. simpl. rewrite app_nil_r. auto.
  - assert (Lg : forall g, In g gens -> low r (ecalls (gen_target g)) /\ low r (ecalls (gen_iter g)) /\
              low r (flat_map ecalls (gen_ifs g))).
    { intros [t i ifs] J. simpl.
      assert (L' : low r (ecalls t ++ ecalls i ++ flat_map ecalls ifs)).
      { eapply low_incl; [exact L|]. intros y Y. apply in_or_app. right. apply in_flat_map.
        exists (Gen t i ifs). auto. }
      split; [lows L'|]. split; lows L'. }
    assert (Rg : forall g, In g gens -> room n (esize (gen_target g)) r /\ room n (esize (gen_iter g)) r /\
              room n (list_sum (map esize (gen_ifs g))) r).
    { intros g J. pose proof (sum_In (fun g => let 'Gen t i ifs := g in
        esize t + esize i + list_sum (map esize ifs)) gens g J) as X. destruct g as [t i ifs]. simpl.
      split; [rooms R|]. split; rooms R. }
    apply okr_rbind.
    { apply (okr_rfold _ (DI Defs)).
      - apply (DI_funs _ st); auto.
      - intros a u J Du. apply in_map_iff in J. destruct J as (g & <- & J).
        apply (IHe _ _ _ _ r); auto; [apply Lg; auto|apply Rg; auto].
      - intros a u v J Du E. eapply DI_still; [eapply vexpr_still; eassumption|auto]. }
    intros s1 E1. apply vexprs_still in E1.
    assert (D1 : DI Defs (with_dead s1 (dead st ++ dead s1))).
    { apply (DI_funs _ s1); auto. eapply DI_still; [exact E1|]. apply (DI_funs _ st); auto. }
    apply okr_rbind.
    { apply (okr_es _ _ _ _ r); auto; [lows L|rooms R]. }
    intros s2 E2. apply vexprs_still in E2. apply okr_rbind; [|intros; exact Logic.I].
    apply (okr_rfold _ (DI Defs)).
    + eapply DI_still; eassumption.
    + intros g u J Du. apply okr_rbind.
      * apply (IHe _ _ _ _ r); auto; [apply Lg; auto|apply Rg; auto].
      * intros v E. apply (okr_es _ _ _ _ r); [|apply Lg; auto|apply Rg; auto].
        eapply DI_still; [eapply vexpr_still; exact E|auto].
    + intros g u v J Du E. cbv beta in E. apply rbind_Ok in E. destruct E as (w & E & E').
      eapply DI_still; [eapply vexprs_still; exact E'|].
      eapply DI_still; [eapply vexpr_still; exact E|auto].
  - apply (okr_es _ _ _ _ r); auto. rooms R.
Qed.

Lemma bound_assign : Ba (S n).
Proof.
  intros k att st ts v a r Di L R. cbn [vassign].
  assert (Lt : forall t, In t ts -> low r (ecalls t)).
  { intros t J. eapply low_incl; [exact L|]. intros y Y. apply in_or_app. left. apply in_flat_map. eauto. }
  assert (Rt : forall t, In t ts -> room n (esize t) r).
  { intros t J. pose proof (sum_In esize ts t J). rooms R. }
  assert (D0 : DI Defs (with_live st [])) by (apply (DI_funs _ st); auto).
  apply okr_rbind.
  { destruct a as [t|]; simpl; [|exact Logic.I]. apply okr_rmap. apply (IHe _ _ _ _ r); auto; [|rooms R].
    simpl in L. lows L. }
  intros s1 E1. assert (D1 : DI Defs s1).
  { destruct a as [t|]; simpl in E1; [|injection E1 as <-; auto].
    apply rmap_Ok in E1. destruct E1 as (u & E1 & <-). apply (DI_funs _ u); auto.
    eapply DI_still; [eapply vexpr_still; exact E1|auto]. }
  apply okr_rbind.
  { apply (okr_oe _ _ _ _ r); auto; [lows L|rooms R]. }
  intros s2 E2. assert (D2 : DI Defs s2).
  { destruct v as [t|]; simpl in E2; [|injection E2 as <-; auto].
    eapply DI_still; [eapply vexpr_still; exact E2|auto]. }
  apply okr_rbind.
  { apply (okr_rfold _ (DI Defs)); auto.
    - intros t u J Du. pose proof (Lt t J) as Lx. pose proof (Rt t J) as Rx.
      destruct t; try exact Logic.I; apply (IHe _ _ _ _ r); auto.
      + rooms Rx.
      + simpl in Lx. lows Lx.
      + rooms Rx.
    - intros t u w J Du E. destruct t; try (injection E as <-; auto; fail);
        (eapply DI_still; [eapply vexpr_still; exact E|auto]). }
  intros s3 E3. assert (D3 : DI Defs s3).
  { revert E3. apply (rfold_inv _ (DI Defs)); auto. intros t u w J Du E.
    destruct t; try (injection E as <-; auto; fail);
        (eapply DI_still; [eapply vexpr_still; exact E|auto]). }
  apply okr_rbind; [|intros; exact Logic.I].
  apply (okr_rfold _ (DI Defs)); auto.
  - intros t u J Du. apply (IHt _ _ _ r); auto.
  - intros t u w J Du E. eapply DI_still; [eapply vtarget_still; exact E|auto].
Qed.

Lemma bound_target : Bt (S n).
Proof.
  intros att st t r Di L R. destruct t; cbn [vtarget]; try exact Logic.I.
  - apply (IHe _ _ _ _ r); [apply (DI_funs _ st); auto|simpl in L; lows L|rooms R].
  - apply (okr_rfold _ (DI Defs)); auto.
    + intros t u J Du. apply (IHt _ _ _ r); auto.
      * eapply low_incl; [exact L|]. intros y Y. simpl. apply in_flat_map. eauto.
      * pose proof (sum_In esize es t J). rooms R.
    + intros t u w J Du E. eapply DI_still; [eapply vtarget_still; exact E|auto].
  - apply (IHt _ _ _ r); auto. rooms R.
Qed.

Lemma bound_branch : Bb (S n).
Proof.
  intros k att st t a b r Di I L R. cbn [vbranch].
  assert (D0 : DI Defs (with_dead st [])) by (apply (DI_funs _ st); auto).
  apply okr_rbind.
  { apply (okr_oe _ _ _ _ r); auto; [lows L|rooms R]. }
  intros s1 E1. assert (D1 : DI Defs s1).
  { destruct t as [t|]; simpl in E1; [|injection E1 as <-; auto].
    eapply DI_still; [eapply vexpr_still; exact E1|auto]. }
  apply okr_rbind.
  { apply (okr_ss _ _ _ _ r); [apply (DI_funs _ s1); auto|eapply incl_app_l; eassumption|lows L|rooms R]. }
  intros s2 E2. assert (D2 : DI Defs s2).
  { revert E2. apply (rfold_inv _ (DI Defs)); [apply (DI_funs _ s1); auto|].
    intros u v w Ju Dv E. eapply DI_stmt; [exact E| |auto].
    eapply incl_flat; [eapply incl_app_l; eassumption|auto]. }
  apply okr_rbind; [|intros; exact Logic.I].
  apply (okr_ss _ _ _ _ r); [apply (DI_funs _ s2); auto|eapply incl_app_r; eassumption|lows L|rooms R].
Qed.

Lemma DI_ss k att ss st st' : rfold (vstmt n k att) ss st = Ok st' -> incl (flat_map sdefs ss) Defs ->
  DI Defs st -> DI Defs st'.
Proof.
  intros E I Di. revert E. apply (rfold_inv _ (DI Defs)); auto.
  intros u v w Ju Dv E. eapply DI_stmt; [exact E| |auto]. eapply incl_flat; eassumption.
Qed.

Lemma bound_stmt : Bs (S n).
Proof.
  intros k att st s r Di I L R.
  assert (Ds : forall k att es st st', rfold (vexpr n k att) es st = Ok st' -> DI Defs st -> DI Defs st').
  { intros k0 att0 es u u' E Du. eapply DI_still; [eapply vexprs_still; exact E|auto]. }
  assert (De : forall k att e st st', vexpr n k att st e = Ok st' -> DI Defs st -> DI Defs st').
  { intros k0 att0 es u u' E Du. eapply DI_still; [eapply vexpr_still; exact E|auto]. }
  destruct s; cbn [vstmt]; cbn [scalls] in L; simpl in I; try exact Logic.I.
  - apply (IHe _ _ _ _ r); auto. rooms R.
  - apply (okr_es _ _ _ _ r); auto. rooms R.
  - apply (okr_es _ _ _ _ r); auto. rooms R.
  - apply (IHa _ _ _ _ _ _ r); auto; [|rooms R]. simpl. rewrite app_nil_r. auto.
  - apply (IHa _ _ _ _ _ _ r); auto; [|rooms R]. simpl. rewrite !app_nil_r. lows L.
  - apply (IHa _ _ _ _ _ _ r); auto; [|rooms R]. simpl. lows L.
  - apply (IHa _ _ _ _ _ _ r); auto.
    + simpl. rewrite app_nil_r. intros M g J. apply in_flat_map in J. destruct J as (t & J & J').
      apply in_map_iff in J. destruct J as (y & <- & _). destruct J'.
    + intros M. specialize (R M). simpl in R |- *.
      assert (X : list_sum (map esize (map EName xs)) = List.length xs).
      { clear. induction xs; simpl; auto. }
      rewrite X. lia.
  - destruct fn as [x ps kos ds kds anns decos b]. rewrite !flat_map_app in L. apply okr_rbind.
    + apply (okr_es _ _ _ _ r); auto; [lows L|rooms R].
    + intros u E. apply okr_rbind; [|intros; exact Logic.I].
      apply (okr_es _ _ _ _ r); [eauto|lows L|rooms R].
  - rewrite !flat_map_app in L. apply okr_rbind.
    + apply (okr_es _ _ _ _ r); auto; [lows L|rooms R].
    + intros u E. apply okr_rbind; [|intros; exact Logic.I].
      apply (okr_es _ _ _ _ r); [eauto|lows L|rooms R].
  - apply okr_rbind; [apply (IHe _ _ _ _ r); auto; [lows L|rooms R]|].
    intros u E. apply (IHb _ _ _ _ _ _ r); auto; [eauto|lows L|rooms R].
  - apply okr_rbind; [apply (IHe _ _ _ _ r); auto; [lows L|rooms R]|].
    intros u E. apply (IHb _ _ _ _ _ _ r); auto; [eauto|lows L|rooms R].
  - apply okr_rbind; [apply (IHe _ _ _ _ r); auto; [lows L|rooms R]|].
    intros u E. apply (IHb _ _ _ _ _ _ r); auto; [eauto|lows L|rooms R].
  - assert (It : forall i u, In i items -> DI Defs u ->
              okr Q (rbind (vexpr n k att u (fst i)) (fun s => fold_opt (vexpr n true att) s (snd i)))).
    { intros i u J Du. pose proof (sum_In (fun i => esize (fst i) + osize (snd i)) items i J) as X.
      cbv beta in X.
      assert (Li : low r (ecalls (fst i) ++ oecalls (snd i))).
      { eapply low_incl; [exact L|]. intros y Y. apply in_or_app. left. apply in_flat_map. eauto. }
      apply okr_rbind; [apply (IHe _ _ _ _ r); auto; [lows Li|rooms R]|].
      intros v E. apply (okr_oe _ _ _ _ r); [eauto|lows Li|rooms R]. }
    assert (Id : forall i u v, DI Defs u ->
              rbind (vexpr n k att u (fst i)) (fun s => fold_opt (vexpr n true att) s (snd i)) = Ok v ->
              DI Defs v).
    { intros i u v Du E. apply rbind_Ok in E. destruct E as (w & E & E'). destruct (snd i); simpl in E'.
      - eauto.
      - injection E' as <-. eauto. }
    apply okr_rbind.
    + apply (okr_rfold _ (DI Defs)); auto. intros i u v _. apply Id.
    + intros u E. apply (okr_ss _ _ _ _ r); auto; [|lows L|rooms R].
      revert E. apply (rfold_inv _ (DI Defs)); auto. intros i v w _. apply Id.
  - assert (Ih : forall h, In h handlers ->
              forall u, DI Defs u -> okr Q (let 'Handler t _ b := h in
                rbind (fold_opt (vexpr n k att) u t) (fun s => rfold (vstmt n k att) b s)) /\
              forall v, (let 'Handler t _ b := h in
                rbind (fold_opt (vexpr n k att) u t) (fun s => rfold (vstmt n k att) b s)) = Ok v -> DI Defs v).
    { intros [t x b] J u Du.
      pose proof (sum_In (fun h => let 'Handler t _ b := h in osize t + list_sum (map ssize b)) handlers _ J) as X.
      cbv beta iota in X.
      assert (Li : low r (oecalls t ++ flat_map scalls b)).
      { eapply low_incl; [exact L|]. intros y Y. apply in_or_app. right. apply in_or_app. left.
        apply in_flat_map. exists (Handler t x b). auto. }
      assert (Ii : incl (flat_map sdefs b) Defs).
      { apply incl_app_r, incl_app_l in I. apply (incl_flat _ _ _ _ I J). }
      assert (Do : forall v, fold_opt (vexpr n k att) u t = Ok v -> DI Defs v).
      { intros v E. destruct t; simpl in E; [eauto|injection E as <-; auto]. }
      split.
      - apply okr_rbind; [apply (okr_oe _ _ _ _ r); auto; [lows Li|rooms R]|].
        intros v E. apply (okr_ss _ _ _ _ r); auto; [lows Li|rooms R].
      - intros v E. apply rbind_Ok in E. destruct E as (w & E & E'). eapply DI_ss; eauto. }
    apply okr_rbind; [apply (okr_ss _ _ _ _ r); auto; [eapply incl_app_l; eassumption|lows L|rooms R]|].
    intros u E. assert (Du : DI Defs u) by (eapply DI_ss; [exact E|eapply incl_app_l; eassumption|auto]).
    apply okr_rbind.
    { apply (okr_rfold _ (DI Defs)); auto.
      - intros h v J Dv. apply (Ih h J v Dv).
      - intros h v w J Dv. apply (Ih h J v Dv). }
    intros v E'. assert (Dv : DI Defs v).
    { revert E'. apply (rfold_inv _ (DI Defs)); auto. intros h v' w J Dv. apply (Ih h J v' Dv). }
    apply okr_rbind.
    { apply (okr_ss _ _ _ _ r); auto;
        [eapply incl_app_l, incl_app_r, incl_app_r; eassumption|lows L|rooms R]. }
    intros w E2. apply (okr_ss _ _ _ _ r);
      [|eapply incl_app_r, incl_app_r, incl_app_r; eassumption|lows L|rooms R].
    eapply DI_ss; [exact E2|eapply incl_app_l, incl_app_r, incl_app_r; eassumption|auto].
Qed.
End Step.

Lemma esize_pos e : 0 < esize e.
Proof. destruct e; simpl; lia. Qed.
Lemma ssize_pos s : 0 < ssize s.
Proof. destruct s; simpl; try lia. destruct fn. lia. Qed.

Lemma bound_all n : Be n /\ Ba n /\ Bt n /\ Bs n /\ Bb n.
Proof.
  induction n as [|n (A & B & C & E & F)].
  - split; [|split; [|split; [|split]]]; intros until r; intros; simpl; eapply room_zero; try eassumption;
      auto using esize_pos, ssize_pos; lia.
  - split; [apply bound_expr|split; [apply bound_assign|split; [apply bound_target|split;
      [apply bound_stmt|apply bound_branch]]]]; auto.
Qed.
End Bound.

Lemma sized_all (l : list fndef) : exists D, forall fn, In fn l -> list_sum (map ssize (fn_body fn)) <= D.
Proof.
  exists (list_sum (map (fun fn => list_sum (map ssize (fn_body fn))) l)). intros fn J.
  apply (sum_In (fun fn => list_sum (map ssize (fn_body fn)))). auto.
Qed.

(** Without functions that take keyword-only parameters, only the fuel may be missing. *)
Theorem analyze_fuel prog n e : no_kwonly prog -> analyze n prog = Err e -> e = OutOfFuel.
Proof.
  intros K H. destruct (sized_all (flat_map sdefs prog)) as [D Sz].
  destruct (bound_all (flat_map sdefs prog) (prog_closed prog) false (fun _ => 0) D) with (n := n) as (_ & _ & _ & B & _).
  { discriminate. }
  { auto. }
  assert (X : okr (fun e => (false = false /\ e = OutOfFuel) \/ (e = AttributeError /\
            exists fn, In fn (flat_map sdefs prog) /\ fn_kwonly fn <> [])) (analyze n prog)).
  { unfold analyze. apply okr_rmap. apply (okr_ss _ false (fun _ => 0) D n) with (r := 0); auto.
    - intros g fn. discriminate.
    - apply incl_refl.
    - intros M. discriminate.
    - intros M. discriminate. }
  rewrite H in X. simpl in X. destruct X as [[_ X]|[_ (fn & J & X)]]; auto. destruct (X (K fn J)).
Qed.

(** Without recursion, the analysis ends. *)
Theorem analyze_ends prog : acyclic prog ->
  exists N, forall n, N <= n -> exists r, analyze n prog = r /\
    (no_kwonly prog -> exists st, r = Ok st) /\ r <> Err OutOfFuel.
Proof.
  intros (rank & A). destruct (sized_all (flat_map sdefs prog)) as [D Sz].
  set (R := S (list_sum (map rank (flat_map scalls prog)))).
  exists (list_sum (map ssize prog) + R * (D + 1)). intros n L. exists (analyze n prog). split; auto.
  destruct (bound_all (flat_map sdefs prog) (prog_closed prog) true rank D) with (n := n) as (_ & _ & _ & B & _); auto.
  assert (X : okr (fun e => (true = false /\ e = OutOfFuel) \/ (e = AttributeError /\
            exists fn, In fn (flat_map sdefs prog) /\ fn_kwonly fn <> [])) (analyze n prog)).
  { unfold analyze. apply okr_rmap. apply (okr_ss _ true rank D n) with (r := R); auto.
    - intros g fn. discriminate.
    - apply incl_refl.
    - intros M g J _. unfold R. pose proof (sum_In rank _ g J). lia.
    - intros M. exact L. }
  destruct (analyze n prog) as [st|e]; simpl in X.
  - split; [eauto|discriminate].
  - destruct X as [[X _]|[-> (fn & J & X)]]; [discriminate|]. split; [|discriminate].
    intros K. destruct (X (K fn J)).
Qed.

(** ** Calls of recursive functions *)

Lemma call_inv n k att st g args st' fn : vexpr n k att st (ECall (EName g) args) = Ok st' ->
  fget (funs st) g = Some fn ->
  exists m s0 s1, m < n /\ funs s0 = funs st /\ rfold (vstmt m k att) (fn_body fn) s0 = Ok s1.
Proof.
  destruct n as [|n]; [discriminate|]. cbn [vexpr]. intros H G.
  apply rbind_Ok in H. destruct H as (s & E & H). apply rbind_Ok in H. destruct H as (s' & E' & H).
  apply vexprs_still in E. apply vexpr_still in E'.
  assert (F : funs s' = funs st).
  { destruct E as [_ <-]. destruct E' as [_ ->].
    match goal with |- funs (if ?b then _ else add_attrsub _ ?c) = _ =>
      destruct (still_if b s (add_attrsub s c) (still_add_attrsub s c)) as [_ X]; exact X end. }
  rewrite F, G in H. destruct (fn_kwonly fn); [|discriminate].
  apply rbind_Ok in H. destruct H as (s1 & H & _). exists n. eexists. exists s1.
  split; [lia|]. split; [|exact H]. auto.
Qed.

(** Visiting [s] visits a call of [g] first, with the same functions known. *)
Definition leads (g : string) (s : stmt) : Prop := forall n k att st st',
  vstmt n k att st s = Ok st' -> exists m k att s0 s1 args, m < n /\ funs s0 = funs st /\
    vexpr m k att s0 (ECall (EName g) args) = Ok s1.

(** Functions each of which calls one of them can not be called. *)
Lemma never_ends (fns : list (string * fndef)) :
  (forall g fn, fget fns g = Some fn ->
     exists g' s ss, fn_body fn = s :: ss /\ leads g' s /\ exists fn', fget fns g' = Some fn') ->
  forall n k att st g args st', funs st = fns -> (exists fn, fget fns g = Some fn) ->
    vexpr n k att st (ECall (EName g) args) <> Ok st'.
Proof.
  intros H. induction n as [n IH] using lt_wf_ind. intros k att st g args st' F (fn & G) E.
  subst fns. destruct (call_inv _ _ _ _ _ _ _ _ E G) as (m & s0 & s1 & L & F0 & R).
  destruct (H g fn G) as (g' & s & ss & Eb & Ld & X). rewrite Eb in R. cbn [rfold] in R.
  apply rbind_Ok in R. destruct R as (s2 & R & _).
  destruct (Ld _ _ _ _ _ R) as (m' & k' & att' & s3 & s4 & args' & L' & F' & R').
  apply (IH m') in R'; auto; [lia|congruence].
Qed.

Lemma leads_return g l args : leads g (SReturn [EBin l (ECall (EName g) args)]).
Proof.
  intros n k att st st' H. destruct n as [|n]; [discriminate|]. cbn [vstmt rfold] in H.
  apply rbind_Ok in H. destruct H as (s & H & _). destruct n as [|n]; [discriminate|].
  cbn [vexpr] in H. apply rbind_Ok in H. destruct H as (s1 & E & H). apply vexpr_still in E.
  exists n, k, false, s1, s, args. split; [lia|]. split; [apply E|exact H].
Qed.
Lemma leads_call g args : leads g (SReturn [ECall (EName g) args]).
Proof.
  intros n k att st st' H. destruct n as [|n]; [discriminate|]. cbn [vstmt rfold] in H.
  apply rbind_Ok in H. destruct H as (s & H & _).
  exists n, k, att, st, s, args. split; [lia|]. split; [reflexivity|exact H].
Qed.
Lemma leads_if g e s ss o : leads g s -> leads g (SIf e (s :: ss) o).
Proof.
  intros Ld n k att st st' H. destruct n as [|n]; [discriminate|]. cbn [vstmt] in H.
  apply rbind_Ok in H. destruct H as (s1 & E & H). apply vexpr_still in E.
  destruct n as [|n]; [discriminate|]. cbn [vbranch fold_opt rbind rfold] in H.
  apply rbind_Ok in H. destruct H as (s2 & H & _). apply rbind_Ok in H. destruct H as (s3 & H & _).
  destruct (Ld _ _ _ _ _ H) as (m & k' & att' & s0 & s4 & args & L & F & R).
  exists m, k', att', s0, s4, args. split; [lia|]. split; [|exact R]. rewrite F. simpl. apply E.
Qed.


Lemma analyze_funcs fns : Forall (fun fn => let 'Fn _ _ _ ds _ _ decos _ := fn in ds = [] /\ decos = []) fns ->
  forall n e st, analyze n (map SFunc fns ++ [SExpr e]) = Ok st ->
  exists m s0 s1, funs s0 = rev (map (fun fn => (fn_name fn, fn)) fns) /\ vexpr m false false s0 e = Ok s1.
Proof.
  intros H n e st E. unfold analyze in E. apply rmap_Ok in E. destruct E as (s & E & _).
  assert (X : forall fns s0, Forall (fun fn => let 'Fn _ _ _ ds _ _ decos _ := fn in ds = [] /\ decos = []) fns ->
            rfold (vstmt n false false) (map SFunc fns ++ [SExpr e]) s0 = Ok s ->
            exists m s1 s2, funs s1 = rev (map (fun fn => (fn_name fn, fn)) fns) ++ funs s0 /\
              vexpr m false false s1 e = Ok s2).
  { clear fns H E. induction fns as [|fn fns IH]; intros s0 F E; cbn [map app rfold] in E;
      apply rbind_Ok in E; destruct E as (u & E & R); (destruct n as [|n]; [discriminate|]).
    - cbn [vstmt] in E. exists n, s0, u. auto.
    - inversion F as [|? ? F1 F2]; subst. destruct fn as [x ps kos ds kds anns decos b].
      destruct F1 as [-> ->]. cbn [vstmt rfold rbind] in E. injection E as <-.
      destruct (IH _ F2 R) as (m & s1 & s2 & F3 & R'). exists m, s1, s2. split; auto.
      rewrite F3. simpl. rewrite <- app_assoc. reflexivity. }
  destruct (X fns _ H E) as (m & s1 & s2 & F & R). exists m, s1, s2. split; auto.
  simpl in F. rewrite app_nil_r in F. auto.
Qed.

(** A cell that defines functions and calls one, where each function begins by calling one. *)
Theorem recursive_loops fns g args :
  Forall (fun fn => let 'Fn _ _ _ ds _ _ decos _ := fn in ds = [] /\ decos = []) fns ->
  no_kwonly (map SFunc fns ++ [SExpr (ECall (EName g) args)]) ->
  (forall h fn, fget (rev (map (fun fn => (fn_name fn, fn)) fns)) h = Some fn ->
     exists g' s ss, fn_body fn = s :: ss /\ leads g' s /\
       exists fn', fget (rev (map (fun fn => (fn_name fn, fn)) fns)) g' = Some fn') ->
  (exists fn, fget (rev (map (fun fn => (fn_name fn, fn)) fns)) g = Some fn) ->
  forall n, analyze n (map SFunc fns ++ [SExpr (ECall (EName g) args)]) = Err OutOfFuel.
Proof.
  intros F K H G n. destruct (analyze n _) as [st|e] eqn:E.
  - exfalso. destruct (analyze_funcs _ F _ _ _ E) as (m & s0 & s1 & Fs & R).
    apply (never_ends _ H) in R; auto.
  - f_equal. eapply analyze_fuel; eassumption.
Qed.
