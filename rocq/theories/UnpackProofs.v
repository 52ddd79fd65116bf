Require Import List Arith Bool Lia Permutation.
Import ListNotations.
Require Import Verif.Base Verif.UnpackModel Verif.UnpackSpec.

Lemma skipn_nth {E} (l : list E) i e : nth_error l i = Some e -> skipn i l = e :: skipn (S i) l.
Proof.
  revert i. induction l as [|x xs IHx]; intros [|i] G; try discriminate.
  - simpl in G. injection G as <-. reflexivity.
  - simpl in G. apply IHx in G. simpl. exact G.
Qed.
Lemma Forall2_len {A B} (R : A -> B -> Prop) l l' : Forall2 R l l' -> length l = length l'.
Proof. induction 1; simpl; auto. Qed.
Lemma Forall2_in_r {A B} (R : A -> B -> Prop) l l' b : Forall2 R l l' -> In b l' -> exists a, In a l /\ R a b.
Proof.
  induction 1; simpl; [tauto|]. intros [<-|J]; [eauto|]. destruct (IHForall2 J) as (a & ? & ?). eauto.
Qed.

Section Match.
Context {A E : Type}.
Variable starred : E -> bool.
Variable elts : list E.
Notation match_loop := (@match_loop A E starred elts).
Notation plain := (Forall (fun t : E => starred t = false)).

Lemma match_step n i k cur o l e : stays starred elts cur n i k = None -> nth_error elts k = Some e ->
  match_loop n i k cur (o :: l) = let '(r, x) := match_loop n (S i) (S k) (Some e) l in ((i, o, e) :: r, x).
Proof. intros H1 H2. simpl. rewrite H1, H2. auto. Qed.
Lemma match_stay n i k cur o l e : stays starred elts cur n i k = Some e ->
  match_loop n i k cur (o :: l) = let '(r, x) := match_loop n (S i) k cur l in ((i, o, e) :: r, x).
Proof. intros H1. simpl. rewrite H1. auto. Qed.

Lemma unpacks_plain ts (l : list A) r : unpacks starred ts l r -> plain ts ->
  length l = length ts /\ takes r = combine l ts /\ (forall t os, In (t, os) r -> os <> []) /\ (r = [] -> ts = []).
Proof.
  induction 1 as [|t ts a l r S U IH|t ts mid l r S P U IH]; intros F; simpl.
  - repeat split; auto; tauto.
  - inversion F; subst. destruct IH as (I1 & I2 & I3 & I4); auto. repeat split.
    + lia.
    + unfold takes in *. simpl. congruence.
    + intros t' os [J|J]; [injection J as <- <-; discriminate|eauto].
    + discriminate.
  - inversion F; congruence.
Qed.
Lemma nonempty_last (r : list (E * list A)) : (forall t os, In (t, os) r -> os <> []) -> empty_only_last r.
Proof.
  induction r as [|[t os] r IH]; simpl; intros H; auto. split; [|eauto].
  intros ->. destruct (H t []); auto.
Qed.

(** As many parts as elements, or more: the parts are taken in turn. *)
Lemma match_diag n l : n <= length elts -> forall i cur, n = i + length l ->
  match_loop n i i cur l = (tag i (combine l (skipn i elts)), None).
Proof.
  intros N. induction l as [|o l IH]; intros i cur L; simpl in L; auto.
  destruct (nth_error elts i) as [e|] eqn:G; [|apply nth_error_None in G; lia].
  erewrite match_step; eauto.
  - rewrite IH by lia.
    rewrite (skipn_nth _ _ _ G). reflexivity.
  - destruct cur as [c|]; auto. simpl. destruct (Nat.leb_spec (n - i) (length elts - i)); [|lia].
    rewrite orb_true_r. auto.
Qed.

(** Plain parts only, after a starred or plain one. *)
Lemma match_plain ts : forall l pre i n cur, elts = pre ++ ts -> plain ts -> length l = length ts -> n = i + length l ->
  match_loop n i (length pre) cur l = (tag i (combine l ts), None).
Proof.
  induction ts as [|t ts IH]; intros [|o l] pre i n cur E0 P L N; simpl in L, N; try lia; auto.
  pose proof (Forall_inv P) as P1. apply Forall_inv_tail in P. erewrite match_step with (e := t).
  - replace (S (length pre)) with (length (pre ++ [t])) by (rewrite app_length; simpl; lia).
    rewrite IH; auto.
    + rewrite <- app_assoc. auto.
    + lia.
  - destruct cur as [c|]; auto. simpl. rewrite E0, app_length. simpl.
    destruct (Nat.leb_spec (n - i) (length pre + S (length ts) - length pre)); [|lia].
    rewrite orb_true_r. auto.
  - rewrite E0, nth_error_app2, Nat.sub_diag by lia. auto.
Qed.
Lemma tag_app (x y : list (A * E)) i : tag i (x ++ y) = tag i x ++ tag (i + length x) y.
Proof.
  revert i. induction x as [|[a e] x IH]; intros i; simpl; [rewrite Nat.add_0_r; auto|].
  rewrite IH. do 3 f_equal. lia.
Qed.
Lemma match_star s mid : starred s = true -> forall l ts pre i n, elts = pre ++ ts -> plain ts -> length l = length ts ->
  n = i + length mid + length l ->
  match_loop n i (length pre) (Some s) (mid ++ l) = (tag i (map (fun a => (a, s)) mid ++ combine l ts), None).
Proof.
  intros S. induction mid as [|a mid IH]; intros l ts pre i n E0 P L N; simpl in N.
  - apply match_plain; auto. lia.
  - cbn [app]. rewrite match_stay with (e := s).
    + rewrite (IH l ts pre (Datatypes.S i) n); auto. lia.
    + simpl. rewrite S. simpl. rewrite E0, app_length.
      destruct (Nat.leb_spec (n - i) (length pre + length ts - length pre)); [lia|auto].
Qed.

Lemma match_unpacks ts (l : list A) r : unpacks starred ts l r -> empty_only_last r ->
  forall pre i n cur, elts = pre ++ ts -> n = i + length l ->
    (forall c, cur = Some c -> starred c = false) ->
    match_loop n i (length pre) cur l = (tag i (takes r), None).
Proof.
  induction 1 as [|t ts a l r S U IH|t ts mid l r S P U IH]; intros Q pre i n cur E0 N C.
  - auto.
  - simpl in Q. erewrite match_step with (e := t).
    + replace (Datatypes.S (length pre)) with (length (pre ++ [t])) by (rewrite app_length; simpl; lia).
      rewrite IH; auto.
      * apply Q.
      * rewrite <- app_assoc. auto.
      * simpl in N. lia.
      * intros c J. congruence.
    + destruct cur as [c|]; auto. simpl. rewrite C; auto.
    + rewrite E0, nth_error_app2, Nat.sub_diag by lia. auto.
  - destruct (unpacks_plain _ _ _ U P) as (U1 & U2 & U3 & U4). destruct mid as [|a mid].
    + simpl in Q. destruct Q as [Q _]. specialize (Q eq_refl). subst r. simpl.
      rewrite (U4 eq_refl) in *. simpl in U1. destruct l; [|discriminate]. auto.
    + cbn [app]. erewrite match_step with (e := t).
      * replace (Datatypes.S (length pre)) with (length (pre ++ [t])) by (rewrite app_length; simpl; lia).
        rewrite (match_star t mid S l ts); auto.
        -- change (takes ((t, a :: mid) :: r)) with ((a, t) :: map (fun a => (a, t)) mid ++ takes r).
           rewrite U2. auto.
        -- rewrite <- app_assoc. auto.
        -- simpl in N. rewrite app_length in N. lia.
      * destruct cur as [c|]; auto. simpl. rewrite C; auto.
      * rewrite E0, nth_error_app2, Nat.sub_diag by lia. auto.
Qed.

Lemma unpacks_bad ts (l : list A) r : unpacks starred ts l r -> ~ empty_only_last r ->
  length l <= length ts /\ takes r <> combine l ts.
Proof.
  induction 1 as [|t ts a l r S U IH|t ts mid l r S P U IH]; intros Q; simpl in Q.
  - tauto.
  - destruct IH as [I1 I2].
    { intros Z. apply Q. split; auto. discriminate. }
    simpl. split; [lia|]. unfold takes in *. simpl. congruence.
  - destruct (unpacks_plain _ _ _ U P) as (U1 & U2 & U3 & U4). pose proof (nonempty_last _ U3) as X.
    destruct mid as [|a mid].
    + simpl. split; [lia|]. change (takes ((t, []) :: r)) with (takes r). rewrite U2.
      destruct ts as [|t' ts]; [destruct Q; split; auto; intros _; destruct r as [|[? ?] ?]; auto|].
      * exfalso. inversion U.
      * destruct l as [|b l]; [discriminate|]. simpl. inversion P; subst. intros Z. congruence.
    + destruct Q. split; [discriminate|auto].
Qed.
End Match.

Lemma tag_inj {A E} (x y : list (A * E)) i : tag i x = tag i y -> x = y.
Proof.
  revert y i. induction x as [|[a e] x IH]; intros [|[b f] y] i H; simpl in H; try discriminate; auto.
  injection H as -> -> H. f_equal. eauto.
Qed.

Lemma match_iff {A E} (starred : E -> bool) elts (l : list A) r : unpacks starred elts l r ->
  match_nodes starred elts l = (tag 0 (takes r), None) <-> empty_only_last r.
Proof.
  intros U. unfold match_nodes. split.
  - intros H. assert (D : empty_only_last r \/ ~ empty_only_last r).
    { clear. induction r as [|[t os] r IH]; simpl; auto. destruct os as [|o os].
      - destruct r as [|q r]; [left; simpl; auto|]. right. intros [Z _]. specialize (Z eq_refl). discriminate Z.
      - destruct IH as [IH|IH]; [left|right; tauto]. split; auto. discriminate. }
    destruct D as [D|D]; auto. exfalso. destruct (unpacks_bad _ _ _ _ U D) as [B1 B2].
    rewrite (match_diag starred elts (length l)) in H by (auto; lia). injection H as H. apply tag_inj in H. simpl in H.
    congruence.
  - intros Q. apply (match_unpacks starred elts elts l r U Q []); auto. discriminate.
Qed.

(** Determinism *)
Lemma unpacks_det {A E} (starred : E -> bool) ts (l : list A) r : unpacks starred ts l r -> forall r',
  unpacks starred ts l r' -> r = r'.
Proof.
  induction 1 as [|t ts a l r S U IH|t ts mid l r S P U IH]; intros r' V.
  - inversion V; auto.
  - inversion V; subst; [f_equal; auto|congruence].
  - inversion V as [|? ? ? ? ? S' U' |? ? mid' l' r0 S' P' U']; subst; [congruence|].
    destruct (unpacks_plain _ _ _ _ U P) as (L1 & _). destruct (unpacks_plain _ _ _ _ U' P') as (L2 & _).
    match goal with J : mid' ++ l' = mid ++ l |- _ => rename J into H2 end.
    assert (mid' = mid /\ l' = l) as [-> ->].
    { assert (X : length mid' = length mid).
      { apply (f_equal (@length A)) in H2. rewrite !app_length in H2. lia. }
      clear - H2 X. revert mid H2 X. induction mid' as [|a m IH]; intros [|b mid] E0 X; try discriminate; auto.
      simpl in E0. injection E0 as -> E0. apply IH in E0; auto. destruct E0. subst. auto. }
    f_equal. auto.
Qed.

Section Nested.
Variable items : nat -> option (list nat).
Variable w : world.
Variable extra : list nat.
Definition recorded (bs : list bind) (out : list rec) : Prop :=
  exists out', Permutation out out' /\ Forall2 (records w extra) bs out'.
Definition desc (o : nat) (d : option nat) : Prop := exists y, d = Some y /\ so w y = o.
Definition star_rec (st : option (nat * list (option nat))) : list rec :=
  match st with Some (x, ds) => [RMany x ds] | None => [] end.

Lemma recorded_app bs out bs' out' : recorded bs out -> recorded bs' out' -> recorded (bs ++ bs') (out ++ out').
Proof.
  intros (x & P & F) (y & P' & F'). exists (x ++ y). split; [apply Permutation_app; auto|apply Forall2_app; auto].
Qed.

Variable inner : list target -> nat -> nspace -> list rec * option err.
Definition inner_ok (ts : list target) : Prop := forall ts' o n b, In (TSeq ts') ts -> tracked items w (TSeq ts') o ->
  ns_of w o = Some n -> assigns items (TSeq ts') o b -> exists out, inner ts' o n = (out, None) /\ recorded b out.

Lemma consume_one t a d b i ps st : is_star t = false -> desc a d -> tracked items w t a -> assigns items t a b ->
  inner_ok [t] -> (exists out, consume w inner extra ps None st = (out, None)) ->
  exists o1, recorded b o1 /\
   forall out, consume w inner extra ps None st = (out, None) ->
     consume w inner extra ((i, d, t) :: ps) None st = (o1 ++ out, None).
Proof.
  intros S (y & -> & Y) T As In0 _. destruct t as [x|x|ts']; [|discriminate|].
  - inversion As; subst. exists [ROne x (y :: extra)]. split.
    + exists [ROne x (y :: extra)]. split; auto. constructor; auto. simpl. split; auto. exists y. auto.
    + intros out E. simpl. rewrite E. auto.
  - assert (exists n, ns_of w a = Some n) as [n N] by (inversion T; eauto).
    destruct (In0 ts' a n b) as (o1 & I1 & I2); simpl; auto.
    exists o1. split; auto. intros out E. simpl. rewrite Y, N, I1, E. auto.
Qed.

Lemma consume_plain ts l r : unpacks is_star ts l r -> Forall (fun t => is_star t = false) ts ->
  forall ds i st bs, Forall2 desc l ds -> assigns_all items r bs -> inner_ok ts ->
  (forall t a, In (t, [a]) r -> is_star t = false -> tracked items w t a) ->
  exists out, consume w inner extra (tag i (combine ds ts)) None st = (out ++ star_rec st, None) /\ recorded bs out.
Proof.
  induction 1 as [|t ts a l r S U IH|t ts mid l r S P U IH]; intros F ds i st bs D As IO T.
  - inversion D; subst. inversion As; subst. exists []. split.
    + simpl. destruct st as [[? ?]|]; auto.
    + exists []. auto.
  - inversion D as [|? d ? ds' D1 D2]; subst. inversion F; subst. inversion As; subst; [discriminate|].
    destruct (IH H2 ds' (Datatypes.S i) st bs0) as (out & C & R); auto.
    { intros ts' o n b' J. apply IO. simpl. auto. }
    { intros t' a' J. apply T. simpl. auto. }
    destruct (consume_one t a d b i (tag (Datatypes.S i) (combine ds' ts)) st) as (o1 & R1 & C1); auto.
    + apply T; simpl; auto.
    + intros ts' o n b' [J|[]]. apply IO. left. exact J.
    + eauto.
    + exists (o1 ++ out). split; [|apply recorded_app; auto].
      simpl combine. cbn [tag]. erewrite C1; eauto. rewrite app_assoc. auto.
  - inversion F; congruence.
Qed.

Lemma consume_mid x dmid : forall i ps st,
  consume w inner extra (tag i (map (fun d => (d, TStar x)) dmid) ++ ps) None st =
  consume w inner extra ps None (match dmid with [] => st | _ =>
     Some (x, match st with Some (_, ds) => ds ++ dmid | None => dmid end) end).
Proof.
  induction dmid as [|d dmid IH]; intros i ps st; auto. simpl map. simpl tag. cbn [app consume].
  rewrite IH. destruct dmid as [|d' dmid]; auto. destruct st as [[y ds]|]; auto.
  rewrite <- app_assoc. auto.
Qed.

Lemma consume_all ts l r : unpacks is_star ts l r -> (forall t os, In (t, os) r -> os <> []) ->
  forall ds rs, Forall2 desc l ds -> unpacks is_star ts ds rs -> forall i bs, assigns_all items r bs -> inner_ok ts ->
  (forall t a, In (t, [a]) r -> is_star t = false -> tracked items w t a) ->
  exists out, consume w inner extra (tag i (takes rs)) None None = (out, None) /\ recorded bs out.
Proof.
  induction 1 as [|t ts a l r S U IH|t ts mid l r S P U IH]; intros NE ds rs D V i bs As IO T.
  - inversion D; subst. inversion V; subst. inversion As; subst. exists []. split; auto. exists []. auto.
  - inversion D as [|? d ? ds' D1 D2]; subst. inversion V; subst; [|congruence].
    inversion As; subst; [discriminate|].
    destruct (IH ltac:(intros ? ? J; apply (NE t0 os); simpl; auto) ds' r0 D2 H5 (Datatypes.S i) bs0) as (out & C & R); auto.
    { intros ts' o n b' J. apply IO. simpl. auto. }
    { intros t' a' J. apply T. simpl. auto. }
    destruct (consume_one t a d b i (tag (Datatypes.S i) (takes r0)) None) as (o1 & R1 & C1); auto.
    + apply T; simpl; auto.
    + intros ts' o n b' [J|[]]. apply IO. left. exact J.
    + eauto.
    + exists (o1 ++ out). split; [|apply recorded_app; auto].
      change (takes ((t, [d]) :: r0)) with ((d, t) :: takes r0). cbn [tag]. eauto.
  - inversion V as [|? ? ? ? ? S' U' |? ? dmid dl r0 S' P' U']; subst; [congruence|].
    destruct (unpacks_plain _ _ _ _ U P) as (L1 & _ & NE' & _). destruct (unpacks_plain _ _ _ _ U' P') as (L2 & TK & _).
    assert (Forall2 desc mid dmid /\ Forall2 desc l dl) as [F1 F2].
    { assert (X : length mid = length dmid).
      { apply Forall2_len in D. rewrite !app_length in D. lia. }
      clear - D X. revert dmid D X. induction mid as [|a m IH]; intros [|b dmid] D X; try discriminate; auto.
      inversion D; subst. apply IH in H4; auto. destruct H4. split; auto. }
    destruct t as [|x|]; try discriminate. inversion As; subst; [|discriminate].
    change (takes ((TStar x, dmid) :: r0)) with (map (fun d => (d, TStar x)) dmid ++ takes r0).
    rewrite TK, tag_app, consume_mid.
    set (st := match dmid with [] => None | _ => Some (x, dmid) end).
    change (exists out : list rec,
      consume w inner extra (tag (i + length (map (fun d => (d, TStar x)) dmid)) (combine dl ts)) None st = (out, None) /\
      recorded (Many x mid :: bs0) out).
    destruct (consume_plain ts l r U P dl (i + length (map (fun d => (d, TStar x)) dmid)) st bs0) as (out & C & R); auto.
    { intros ts' o n b' J. apply IO. simpl. auto. }
    { intros t' a' J. apply T. simpl. auto. }
    assert (dmid <> []) as N.
    { intros ->. inversion F1; subst. apply (NE (TStar x) []); simpl; auto. }
    exists (out ++ star_rec st). split; auto.
    destruct R as (out' & R1 & R2). exists (RMany x dmid :: out'). split.
    + unfold st. destruct dmid; [congruence|]. simpl. rewrite <- Permutation_cons_append. constructor. auto.
    + constructor; auto. simpl. auto.
Qed.
End Nested.

Lemma unpacks_zip {A B E} (starred : E -> bool) (R : A -> B -> Prop) ts l r : unpacks starred ts l r -> forall ds,
  Forall2 R l ds -> exists rs, unpacks starred ts ds rs /\
    Forall2 (fun p q => fst p = fst q /\ Forall2 R (snd p) (snd q)) r rs.
Proof.
  induction 1 as [|t ts a l r S U IH|t ts mid l r S P U IH]; intros ds F.
  - inversion F; subst. exists []. split; constructor.
  - inversion F; subst. destruct (IH _ H3) as (rs & V & G). exists ((t, [y]) :: rs). split; constructor; auto.
    simpl. auto.
  - apply Forall2_app_inv_l in F. destruct F as (d1 & d2 & F1 & F2 & ->). destruct (IH _ F2) as (rs & V & G).
    exists ((t, d1) :: rs). split; constructor; auto.
Qed.

Lemma entries_desc w l o n : len_of w o = length l ->
  (forall i a, nth_error l i = Some a -> exists y, n_syms n i = Some y /\ so w y = a) ->
  Forall2 (desc w) l (entries w o n).
Proof.
  intros L H. unfold entries. rewrite L. clear L.
  assert (X : forall l k, (forall i a, nth_error l i = Some a -> exists y, n_syms n (k + i) = Some y /\ so w y = a) ->
     Forall2 (desc w) l (map (n_syms n) (seq k (length l)))).
  { clear. induction l as [|a l IH]; intros k H; simpl; constructor.
    - destruct (H 0 a) as (y & Y1 & Y2); auto. rewrite Nat.add_0_r in Y1. exists y. auto.
    - apply IH. intros i b G. destruct (H (Datatypes.S i) b) as (y & Y1 & Y2); auto. exists y.
      rewrite Nat.add_succ_r in Y1. auto. }
  apply X. auto.
Qed.

Lemma depth_In ts' ts : In (TSeq ts') ts -> depth (TSeq ts') <= fold_right (fun t m => max (depth t) m) 0 ts.
Proof.
  induction ts as [|t ts IH]; [simpl; tauto|]. intros [->|J]; cbn [fold_right]; [lia|]. specialize (IH J). lia.
Qed.

Lemma from_ns_ok items w extra fuel : forall ts o n bs, depth (TSeq ts) <= fuel -> tracked items w (TSeq ts) o ->
  ns_of w o = Some n -> assigns items (TSeq ts) o bs ->
  exists out, from_ns w fuel extra ts o n = (out, None) /\ recorded w extra bs out.
Proof.
  induction fuel as [|fuel IH]; intros ts o n bs D T N As.
  - cbn [depth] in D. lia.
  - inversion T as [|? ? l r n' I1 L N' K Sy U NE Tr]; subst. rewrite N in N'. injection N' as <-.
    inversion As as [|? ? l' r' ? I2 U' AA]; subst. rewrite I1 in I2. injection I2 as <-.
    rewrite (unpacks_det _ _ _ _ U' _ U) in AA. clear U'.
    pose proof (entries_desc w l o n L Sy) as E. destruct (unpacks_zip is_star (desc w) ts l r U _ E) as (rs & V & G).
    cbn [from_ns]. rewrite K.
    assert (Q : empty_only_last rs).
    { apply nonempty_last. intros t os J.
      destruct (Forall2_in_r _ _ _ _ G J) as ([t0 os0] & J0 & X1 & X2). simpl in *.
      intros ->. inversion X2; subst. apply (NE _ _ J0); auto. }
    rewrite (proj2 (match_iff is_star ts (entries w o n) rs V) Q).
    apply (consume_all items w extra (from_ns w fuel extra) ts l r U NE (entries w o n)); auto.
    intros ts' o' n' b J T' N' A'. apply IH; auto. apply depth_In in J. change (S (fold_right (fun t m => max (depth t) m) 0 ts) <= S fuel) in D. lia.
Qed.

(** Literals *)
Lemma literal_plain w ts l r : unpacks part_star ts l r -> Forall (fun t => part_star t = false) ts ->
  forall i idx sns, literal_loop w (tag i (takes r)) idx sns = tag i (flat_map (part_deps w) r).
Proof.
  induction 1 as [|t ts a l r S U IH|t ts mid l r S P U IH]; intros F i idx sns; auto.
  - inversion F; subst. destruct t as [syms|]; [|discriminate]. simpl. rewrite <- IH with (idx := idx) (sns := sns); auto.
  - inversion F; congruence.
Qed.
Lemma literal_star w syms mid : forall ps i idx sns,
  (idx = 0 \/ sns = match syms with y :: _ => ns_of w (so w y) | [] => None end) ->
  exists idx' sns', literal_loop w (tag i (map (fun o => (o, PStar syms)) mid ++ ps)) idx sns =
    tag i (map (fun q => (snd q, star_dep w syms (fst q))) (number idx mid)) ++
    literal_loop w (tag (i + length mid) ps) idx' sns'.
Proof.
  induction mid as [|o mid IH]; intros ps i idx sns H.
  - exists idx, sns. simpl. rewrite Nat.add_0_r. auto.
  - cbn [map app tag literal_loop number].
    set (sns1 := if idx =? 0 then _ else sns).
    assert (X : sns1 = match syms with y :: _ => ns_of w (so w y) | [] => None end).
    { unfold sns1. destruct (Nat.eqb_spec idx 0); auto. destruct H; [contradiction|auto]. }
    destruct (IH ps (S i) (S idx) sns1 (or_intror X)) as (i' & s' & E). exists i', s'. rewrite E.
    cbn [length fst snd]. replace (i + S (length mid)) with (S i + length mid) by lia.
    f_equal. f_equal. rewrite X. unfold star_dep. destruct syms; auto.
Qed.
Lemma number_length {A} (l : list A) k : length (number k l) = length l.
Proof. revert k. induction l; intros k; simpl; auto. Qed.
Lemma literal_ok w ts l r : unpacks part_star ts l r -> forall i sns,
  literal_loop w (tag i (takes r)) 0 sns = tag i (flat_map (part_deps w) r).
Proof.
  induction 1 as [|t ts a l r S U IH|t ts mid l r S P U IH]; intros i sns; auto.
  - destruct t as [syms|]; [|discriminate]. simpl. rewrite <- IH with (sns := sns); auto.
  - destruct t as [|syms]; [discriminate|].
    change (takes ((PStar syms, mid) :: r)) with (map (fun o => (o, PStar syms)) mid ++ takes r).
    destruct (literal_star w syms mid (takes r) i 0 sns (or_introl eq_refl)) as (i' & s' & E). rewrite E.
    rewrite (literal_plain w ts l r U P).
    cbn [flat_map]. rewrite tag_app. f_equal. unfold part_deps at 2. cbn [fst snd].
    rewrite map_length, number_length. auto.
Qed.

(** Dict literals *)
Lemma dset_fresh d k (v : nat) : ~ In k (dkeys d) -> dset d k v = d ++ [(k, v)].
Proof.
  induction d as [|[k' v'] d IH]; simpl; intros H; auto. destruct (Nat.eqb_spec k k'); [subst; tauto|].
  rewrite IH; auto.
Qed.
Lemma dict_of_distinct (es : list (nat * nat * nat)) : forall d, NoDup (dkeys d ++ map (fun e => fst (fst e)) es) ->
  fold_left (fun d e => match fst e with
                        | KV k v => dset d k v
                        | Spread l => fold_left (fun d p => dset d (fst p) (snd p)) l d
                        end) (map (fun e => (KV (fst (fst e)) (snd (fst e)), snd e)) es) d = d ++ map fst es.
Proof.
  induction es as [|[[k v] nd] es IH]; intros d N; simpl; [rewrite app_nil_r; auto|].
  rewrite dset_fresh.
  - rewrite IH.
    + rewrite <- app_assoc. auto.
    + unfold dkeys in *. rewrite map_app, <- app_assoc. exact N.
  - intros J. simpl in N. apply NoDup_remove_2 in N. apply N. apply in_or_app. auto.
Qed.
Lemma combine_map {A B C} (f : A -> B) (g : A -> C) l : combine (map f l) (map g l) = map (fun a => (f a, g a)) l.
Proof. induction l; simpl; f_equal; auto. Qed.
