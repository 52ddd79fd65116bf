(** Lemmas about scopes and references. *)
Require Import List Arith ZArith Bool Lia.
Import ListNotations.
Require Import Verif.Base Verif.Loops Verif.RefModel Verif.ScopeModel Verif.ScopeSpec.
Local Open Scope nat_scope.

Lemma scope_of_Ok : forall st s sc, scope_of st s = Ok sc <-> dget (scopes st) s = Some sc.
Proof. intros. unfold scope_of, of_option. destruct (dget (scopes st) s); split; congruence. Qed.
Lemma scope_of_some : forall st s sc, dget (scopes st) s = Some sc -> scope_of st s = Ok sc.
Proof. intros. apply scope_of_Ok. auto. Qed.

Lemma around_head : forall st s l, around st s l -> exists l', l = s :: l'.
Proof. intros st s l H. inversion H; eauto. Qed.
Lemma around_scope : forall st s l, around st s l -> exists sc, dget (scopes st) s = Some sc.
Proof. intros st s l H. inversion H; eauto. Qed.

(** The next scope around that is not a class. *)
Lemma next_scope : forall st s l, around st s l -> forall f, length l <= f ->
  (non_namespace_parent f st s = Ok None /\ exists l', l = s :: l' /\ forall u, In u l' -> class_like st u) \/
  (exists p k l', non_namespace_parent f st s = Ok (Some p) /\ l = s :: k ++ l' /\ around st p l' /\ ~ class_like st p /\ forall u, In u k -> class_like st u).
Proof.
  intros st s l A. induction A as [s sc D P|s sc p l D P A IH]; intros f L; simpl in L.
  - destruct f; [lia|]. left. cbn [non_namespace_parent]. rewrite (scope_of_some _ _ _ D). simpl. rewrite P. split; auto.
    exists []. split; auto. intros u [].
  - destruct f; [lia|]. destruct (around_scope _ _ _ A) as (pc & Dp). destruct (around_head _ _ _ A) as (l0 & E0).
    cbn [non_namespace_parent]. rewrite (scope_of_some _ _ _ D). cbn [rbind]. rewrite P, (scope_of_some _ _ _ Dp). cbn [rbind].
    destruct (is_ns pc) eqn:N.
    + assert (C : class_like st p) by (exists pc; auto).
      destruct (IH f ltac:(lia)) as [(E & l' & El & K)|(q & k & l' & E & El & Aq & Nq & K)].
      * left. split; auto. exists l. split; auto. clear E0. subst l. intros u [<-|I]; [exact C|apply K; exact I].
      * right. exists q, (p :: k), l'. split; auto. split; [rewrite El; reflexivity|]. split; auto. split; auto. intros u [<-|I]; auto.
    + right. exists p, [], l. split; auto. split; auto. split; auto. split.
      * intros (sc' & E & F). congruence.
      * intros u [].
Qed.

Lemma here_plain : forall f st s sc v k, dget (scopes st) s = Some sc -> is_ns sc = false -> lookup_here (S f) st s v k = Ok (lookup_name sc v).
Proof. intros. cbn [lookup_here]. rewrite (scope_of_some _ _ _ H). cbn [rbind]. rewrite H0. reflexivity. Qed.

Lemma sees_plain : forall st s p u, ~ class_like st s -> ~ class_like st p -> sees st s u <-> sees st p u.
Proof. intros st s p u Hs Hp. unfold sees. split; intros [->|H]; auto. Qed.

Lemma lookup_rule : forall f st s l x, around st s l -> ~ class_like st s -> length l + 2 <= f ->
  exists r, lookup f st s (VOne (CStr x)) = Ok r /\ match r with Some y => python_binding st s l x y | None => unbound st s l x end.
Proof.
  intros f st. induction f as [|f IH]; intros s l x A N L; [lia|].
  destruct (around_scope _ _ _ A) as (sc & D).
  assert (Ens : is_ns sc = false) by (destruct (is_ns sc) eqn:E; auto; exfalso; apply N; exists sc; auto).
  destruct f as [|f']; [lia|]. cbn [lookup]. rewrite (scope_of_some _ _ _ D). cbn [rbind].
  rewrite (here_plain f' _ _ _ _ _ D Ens). cbn [rbind lookup_name].
  destruct (dget (names sc) x) as [y|] eqn:Ex.
  - exists (Some y). split; auto. destruct (around_head _ _ _ A) as (l' & ->). exists [], s, l'. split; auto. split; [left; auto|].
    split; [exists sc; auto|]. intros u [].
  - rewrite Ens. assert (U : forall z, ~ binds st s x z) by (intros z (sc' & E & F); congruence).
    destruct (next_scope _ _ _ A (S f') ltac:(lia)) as [(E & l' & -> & K)|(p & k & l' & E & -> & Ap & Np & K)]; rewrite E; cbn [rbind].
    + exists None. split; auto. intros u [<-|I] S z; [apply U|]. destruct S as [->|S]; [apply U|]. destruct (S (K _ I)).
    + destruct (IH p l' x Ap Np) as (r & Er & R).
      { simpl in L. rewrite app_length in L. lia. }
      exists r. split; [exact Er|].
      assert (Pre : forall u, In u (s :: k) -> sees st s u -> forall z, ~ binds st u x z).
      { intros u [<-|I] S z; [apply U|]. destruct S as [->|S]; [apply U|]. destruct (S (K _ I)). }
      destruct r as [y|].
      * destruct R as (l1 & t & l2 & -> & S & B & F). exists ((s :: k) ++ l1), t, l2. rewrite <- app_assoc. split; [reflexivity|].
        split; [apply (sees_plain st s p t N Np); auto|]. split; auto. intros u I S'. apply in_app_iff in I. destruct I as [I|I]; auto.
        apply F; auto. apply (sees_plain st s p u N Np); auto.
      * intros u I S'. change (In u ((s :: k) ++ l')) in I. apply in_app_iff in I. destruct I as [I|I]; auto.
        apply R; auto. apply (sees_plain st s p u N Np); auto.
Qed.

(** Attribute lookup. *)
Lemma lookup_class : forall f st s v, class_like st s -> lookup (S f) st s v = lookup_here f st s v None.
Proof.
  intros f st s v (sc & D & N). cbn [lookup]. rewrite (scope_of_some _ _ _ D). cbn [rbind]. destruct (lookup_here f st s v None) as [[y|]|e]; auto.
  cbn [rbind]. rewrite N. reflexivity.
Qed.

Lemma attribute_found : forall st f s x y, lookup_here f st s (VOne (CStr x)) (Some false) = Ok (Some y) -> attribute st s x y.
Proof.
  intros st f. induction f as [|f IH]; intros s x y H; [discriminate|]. cbn [lookup_here] in H.
  destruct (scope_of st s) as [sc|] eqn:D; [|discriminate]. apply scope_of_Ok in D. cbn [rbind] in H.
  destruct (is_ns sc); cbn [negb lookup_name] in H.
  - destruct (dget (names sc) x) eqn:E; [destruct (cloned sc); injection H as <-; eapply own; eauto|].
    destruct (cloned sc) as [c|] eqn:C; [|discriminate]. destruct (memb x (attrs sc)) eqn:M; [discriminate|].
    eapply inherited; eauto. intros I. apply memb_In in I. congruence.
  - injection H as H. eapply own; eauto.
Qed.
Lemma attribute_complete : forall st s x y, attribute st s x y -> (forall t, origin st s t -> class_like st t) ->
  exists n, forall f, n <= f -> lookup_here f st s (VOne (CStr x)) (Some false) = Ok (Some y).
Proof.
  intros st s x y A. induction A as [s sc x y D E|s sc c x y D E C N A IH]; intros K.
  - exists 1. intros [|f] L; [lia|]. cbn [lookup_here]. rewrite (scope_of_some _ _ _ D). cbn [rbind lookup_name]. rewrite E.
    destruct (is_ns sc), (cloned sc); reflexivity.
  - destruct IH as (n & IH). { intros t O. apply K. eapply origin_clone; eauto. }
    exists (S n). intros [|f] L; [lia|]. cbn [lookup_here]. rewrite (scope_of_some _ _ _ D). cbn [rbind lookup_name]. rewrite E.
    destruct (K s (origin_self _ _)) as (sc' & D' & Ns). assert (sc' = sc) by congruence. subst sc'. rewrite Ns, C. cbn [negb].
    assert (M : memb x (attrs sc) = false) by (destruct (memb x (attrs sc)) eqn:M; auto; apply memb_In in M; contradiction).
    rewrite M. apply IH. lia.
Qed.
(** Asking for either: an attribute, or an item of the namespace itself. *)
Lemma here_either : forall st f s sc x y, (forall s sc c cc, dget (scopes st) s = Some sc -> cloned sc = Some c -> dget (scopes st) c = Some cc -> subs cc = []) ->
  dget (scopes st) s = Some sc -> lookup_here f st s (VOne (CStr x)) None = Ok (Some y) ->
  attribute st s x y \/ vget (subs sc) (VOne (CStr x)) = Some y.
Proof.
  intros st f s sc x y K. revert s sc. induction f as [|f IH]; intros s sc D H; [discriminate|]. cbn [lookup_here] in H.
  rewrite (scope_of_some _ _ _ D) in H. cbn [rbind] in H. destruct (is_ns sc); cbn [negb lookup_name] in H.
  - destruct (dget (names sc) x) eqn:E; [left; destruct (cloned sc); injection H as <-; eapply own; eauto|].
    assert (S : lookup_subscript sc (VOne (CStr x)) = vget (subs sc) (VOne (CStr x))).
    { unfold lookup_subscript. destruct (vget _ _); auto. simpl. destruct (size sc); auto. }
    rewrite S in H. destruct (vget (subs sc) (VOne (CStr x))) as [z|] eqn:V; [right; destruct (cloned sc); exact (f_equal (fun r => match r with Ok o => o | Err _ => None end) H)|].
    destruct (cloned sc) as [c|] eqn:C; [|discriminate]. destruct (memb x (attrs sc)) eqn:M; [discriminate|].
    assert (Dc : exists cc, dget (scopes st) c = Some cc).
    { destruct f; [discriminate|]. cbn [lookup_here] in H. destruct (scope_of st c) eqn:Q; [|discriminate]. apply scope_of_Ok in Q. eauto. }
    destruct Dc as (cc & Dc). destruct (IH c cc Dc H) as [A|A].
    + left. eapply inherited; eauto. intros I. apply memb_In in I. congruence.
    + rewrite (K _ _ _ _ D C Dc) in A. discriminate.
  - left. injection H as H. eapply own; eauto.
Qed.

(** Where stores go. *)
Lemma store_rule : forall st code glob s x local global_ sc t, dget (scopes st) s = Some sc ->
  (symtab sc = None \/ s <> glob /\ symtab sc = code s) -> frame_after code glob s x local global_ ->
  (s <> glob -> says code s x DNonlocal -> symtab sc <> None /\ parent sc = Some t) ->
  stores_to st code glob s x t -> store_scope st glob s x local global_ = Ok t.
Proof.
  intros st code glob s x local global_ sc t D T (F1 & F2 & F3) NL H. unfold store_scope. rewrite (scope_of_some _ _ _ D). cbn [rbind].
  destruct H as [E|E Sy|E Sy|l1 t l2 E Sy A Ng Nc St Pre].
  - destruct (F1 E) as (-> & ->). destruct T as [->|(B & _)]; [reflexivity|contradiction].
  - assert (L : local = true) by auto. subst local. destruct Sy as (tb & C & G). destruct T as [->|(_ & ->)]; [reflexivity|].
    rewrite C, G. reflexivity.
  - destruct (F2 E Sy) as (-> & ->). destruct Sy as (tb & C & G). destruct T as [->|(_ & ->)]; [reflexivity|].
    rewrite C, G. reflexivity.
  - assert (L : local = true) by auto. subst local. destruct (NL E Sy) as (Ns & P). destruct Sy as (tb & C & G).
    destruct T as [T|(_ & T)]; [contradiction|]. rewrite T, C, G, P. reflexivity.
Qed.

Lemma block_unique : forall t x b l1 l2, blocks t = l1 ++ (x, b) :: l2 -> ~ In x (map fst (l1 ++ l2)) -> In x (dkeys (decls t)) ->
  block_named t x = Some b.
Proof.
  intros t x b l1 l2 E N K. unfold block_named.
  assert (H : dhas (decls t) x = true). { unfold dhas. destruct (key_dget (decls t) x K) as (v & ->). reflexivity. }
  rewrite H, E, filter_app. simpl. rewrite Nat.eqb_refl.
  assert (Z : forall l, ~ In x (map fst l) -> filter (fun b : nat * table => fst b =? x) l = []).
  { induction l as [|(k, v) l IH]; intros I; auto. simpl in *. destruct (Nat.eqb_spec k x); [exfalso; auto|]. apply IH. auto. }
  rewrite map_app in N. rewrite (Z l1), (Z l2); auto; intros I; apply N; apply in_app_iff; auto.
Qed.
Lemma block_at_inv : forall t p b, block_at t p b -> match p with
  | [] => b = t
  | x :: p => exists c l1 l2, blocks t = l1 ++ (x, c) :: l2 /\ ~ In x (map fst (l1 ++ l2)) /\ In x (dkeys (decls t)) /\ block_at c p b
  end.
Proof. intros t p b H. destruct H; auto. exists b, l1, l2. auto. Qed.
Lemma block_at_snoc : forall t p x b', block_at t (p ++ [x]) b' -> exists b, block_at t p b /\ block_at b [x] b'.
Proof.
  intros t p. revert t. induction p as [|y p IH]; intros t x b' H; simpl in H.
  - exists t. split; [constructor|auto].
  - destruct (block_at_inv _ _ _ H) as (c & l1 & l2 & E & N & K & B). destruct (IH _ _ _ B) as (d & B1 & B2). exists d. split; auto.
    econstructor; eauto.
Qed.
Lemma table_rule : forall st cell glob p s, function_scope st cell glob p s -> p <> [] -> forall b, block_at cell p b ->
  exists sc, dget (scopes st) s = Some sc /\ parent sc <> None /\ symtab sc = Some b.
Proof.
  intros st cell glob p s F. induction F as [sc D P|p q x s sc F IH M D]; intros NE b B; [congruence|].
  exists sc. split; auto. apply block_at_snoc in B. destruct B as (c & B1 & B2).
  unfold make_child_scope in M. apply rmap_Ok in M. destruct M as (qc & Q & <-). apply scope_of_Ok in Q. simpl. split; [discriminate|].
  destruct (block_at_inv _ _ _ B2) as (b2 & l1 & l2 & E & N & K & B3). apply block_at_inv in B3. subst b2.
  assert (T : match parent qc with None => Some cell | Some _ => symtab qc end = Some c).
  { destruct p as [|y p].
    - apply block_at_inv in B1. subst c. remember [] as p0 eqn:Ep. destruct F as [sc' D' P'|p' q' x' s' sc' F' M' D'].
      + assert (sc' = qc) by congruence. subst sc'. rewrite P'. reflexivity.
      + destruct p'; discriminate.
    - destruct (IH ltac:(discriminate) c B1) as (sc & Q' & Np & S). assert (sc = qc) by congruence. subst sc.
      destruct (parent qc); [auto|congruence]. }
  rewrite T. eapply block_unique; eauto.
Qed.

(** References. *)
Lemma resolve_snoc : forall f st ch s a y, (forall b, In b ch -> a_call b = false) -> ch <> [] ->
  fully_resolve f st s (ch ++ [a]) = Ok (Some y) ->
  exists y' sy ns, fully_resolve f st s ch = Ok (Some y') /\ dget (symbols st) y' = Some sy /\ dget (namespaces st) (obj sy) = Some ns /\
    lookup f st ns (a_value a) = Ok (Some y).
Proof.
  intros f st ch. induction ch as [|b ch IH]; intros s a y C NE H; [congruence|]. clear NE.
  assert (Cb : a_call b = false) by (apply C; left; auto).
  unfold fully_resolve in *. apply rmap_Ok in H. destruct H as (l & R & E). simpl in R.
  destruct (lookup f st s (a_value b)) as [[y0|]|] eqn:Lk; cbn [rbind] in R; try discriminate; [|injection R as <-; discriminate].
  rewrite Cb in R. destruct (dget (symbols st) y0) as [sy|] eqn:Sy; cbn [rbind of_option] in R; [|discriminate].
  destruct (dget (namespaces st) (obj sy)) as [ns|] eqn:Ns.
  2:{ injection R as <-. simpl in E. destruct ch; discriminate. }
  apply rmap_Ok in R. destruct R as (l' & R & <-). simpl in E.
  destruct ch as [|c ch].
  - simpl in R. destruct (lookup f st ns (a_value a)) as [[y1|]|] eqn:La; cbn [rbind] in R; try discriminate; [|injection R as <-; discriminate].
    exists y0, sy, ns. simpl. rewrite Lk. cbn [rbind]. rewrite Cb, Sy. cbn [rbind of_option]. rewrite Ns. cbn [rmap].
    split; [reflexivity|]. split; auto. split; auto. rewrite La. f_equal. f_equal.
    destruct (a_call a).
    + injection R as <-. simpl in E. congruence.
    + destruct (dget (symbols st) y1) as [sy1|]; cbn [rbind of_option] in R; [|discriminate].
      destruct (dget (namespaces st) (obj sy1)); [simpl in R|]; injection R as <-; simpl in E; congruence.
  - assert (NN : l' <> []).
    { intros ->. simpl in E. discriminate. }
    assert (E' : match rev l' with (y, []) :: _ => Some y | _ => None end = Some y).
    { destruct (rev l') eqn:Er; [|exact E]. exfalso. apply NN. rewrite <- (rev_involutive l'), Er. reflexivity. }
    destruct (IH ns a y) as (y' & sy' & ns' & F1 & F2 & F3 & F4); [intros; apply C; right; auto|discriminate| |].
    { rewrite R. simpl. rewrite E'. reflexivity. }
    exists y', sy', ns'. split; [|auto].
    apply rmap_Ok in F1. destruct F1 as (l2 & R2 & E2).
    remember (c :: ch) as ch' eqn:Ech. cbn [resolve]. rewrite Lk. cbn [rbind]. rewrite Cb, Sy. cbn [rbind of_option]. rewrite Ns, R2. cbn [rmap].
    f_equal. simpl. destruct (rev l2) eqn:Er; [discriminate|]. exact E2.
Qed.

Section refs.
Variable str_of : value -> nat.
Variable index_of : nat -> option value.
Variable look : nat -> res (option nat).

Lemma followed_chain : forall e, followed look index_of e -> exists l, visit str_of index_of (Some look) e = Ok (Some l) /\ l <> [] /\ forall a, In a l -> a_call a = false.
Proof.
  intros e F. induction F as [x|e a F (l & V & N & C)|e v F (l & V & N & C) Nv|e c z F (l & V & N & C) Z|e x y v F (l & V & N & C) Lk Iv]; cbn [visit].
  - eexists. split; [reflexivity|]. split; [discriminate|]. intros a [<-|[]]. reflexivity.
  - rewrite V. eexists. split; [reflexivity|]. split; [discriminate|]. intros b [<-|I]; auto.
  - assert (S : slice_of (EConst v) = Constant v) by (destruct v as [[]|]; auto; congruence).
    rewrite S. cbn [rbind]. rewrite V. eexists. split; [reflexivity|]. split; [discriminate|]. intros b [<-|I]; auto.
  - assert (S : slice_of (ENeg (EConst (VOne c))) = Constant (VOne (CInt (- z)))).
    { simpl. unfold negate. rewrite Z. destruct c; auto; discriminate. }
    rewrite S. cbn [rbind]. rewrite V. eexists. split; [reflexivity|]. split; [discriminate|]. intros b [<-|I]; auto.
  - cbn [slice_of]. rewrite Lk. cbn [rmap rbind]. rewrite Iv, V. eexists. split; [reflexivity|]. split; [discriminate|]. intros b [<-|I]; auto.
Qed.
End refs.

(** A member found in the namespace of an object is what the object has there. *)
Lemma refers_fun : forall st y o o', refers st y o -> refers st y o' -> o = o'.
Proof. intros st y o o' (a & A & <-) (b & B & <-). congruence. Qed.
Lemma member_attr : forall st h f o ns a y o', mirrors st h -> distinct st h -> dget (namespaces st) o = Some ns ->
  lookup f st ns (VOne (CStr a)) = Ok (Some y) -> attr h o a = Some o' -> refers st y o'.
Proof.
  intros st h f o ns a y o' M (D1 & D2) D L A. destruct f as [|f]; [discriminate|]. destruct (m_ns _ _ M _ _ D) as (sc & Ds & N).
  rewrite (lookup_class f st ns _ (m_ns _ _ M _ _ D)) in L. destruct (here_either _ _ _ _ _ _ D2 Ds L) as [H|H].
  - destruct (m_attr _ _ M _ _ _ _ D H) as (o2 & R & A2). congruence.
  - destruct (m_item _ _ M _ _ _ _ _ D Ds H) as (o2 & R & A2). destruct (D1 o a); congruence.
Qed.
Lemma member_item : forall st h f o ns v y o', mirrors st h -> distinct st h -> dget (namespaces st) o = Some ns ->
  lookup f st ns v = Ok (Some y) -> item h o v = Some o' -> refers st y o'.
Proof.
  intros st h f o ns v y o' M (D1 & D2) D L A. destruct f as [|f]; [discriminate|]. destruct (m_ns _ _ M _ _ D) as (sc & Ds & N).
  rewrite (lookup_class f st ns _ (m_ns _ _ M _ _ D)) in L.
  assert (Sub : lookup_subscript sc v = Some y -> refers st y o').
  { unfold lookup_subscript. destruct (vget (subs sc) v) as [z|] eqn:V.
    - intros E. injection E as ->. destruct (m_item _ _ M _ _ _ _ _ D Ds V) as (o2 & R & A2). congruence.
    - destruct (size sc) as [n|] eqn:Sz; [|discriminate]. destruct (int_of v) as [z|] eqn:Iv; [|discriminate]. destruct (Z.ltb_spec z 0); [|discriminate].
      intros E. destruct (m_item _ _ M _ _ _ _ _ D Ds E) as (o2 & R & A2).
      assert (Q := m_negative _ _ M _ _ _ _ _ _ D Ds Sz Iv H ltac:(congruence)). congruence. }
  assert (Other : lookup_name sc v = None -> (forall x, v <> VOne (CStr x)) -> refers st y o').
  { intros Ln Nv. destruct f as [|f]; [discriminate|]. cbn [lookup_here] in L. rewrite (scope_of_some _ _ _ Ds) in L. cbn [rbind] in L.
    rewrite N, Ln in L. cbn [negb] in L. apply Sub. destruct (lookup_subscript sc v); [congruence|].
    destruct (cloned sc); [|congruence]. destruct v as [[x| | |]|]; congruence. }
  destruct v as [[x|z|b|]|l]; try (apply Other; [reflexivity|intros; discriminate]).
  destruct (here_either _ _ _ _ _ _ D2 Ds L) as [H|H].
  - destruct (m_attr _ _ M _ _ _ _ D H) as (o2 & R & A2). destruct (D1 o x); congruence.
  - destruct (m_item _ _ M _ _ _ _ _ D Ds H) as (o2 & R & A2). congruence.
Qed.

Lemma chain_snoc : forall f st s l (a : atom) y, l <> [] -> (forall b, In b l -> a_call b = false) -> fully_resolve f st s (rev (a :: l)) = Ok (Some y) ->
  exists y' sy ns, fully_resolve f st s (rev l) = Ok (Some y') /\ dget (symbols st) y' = Some sy /\ dget (namespaces st) (obj sy) = Some ns /\
    lookup f st ns (a_value a) = Ok (Some y).
Proof.
  intros f st s l a y N C H. simpl in H. apply resolve_snoc in H; auto.
  - intros b I. apply C. apply in_rev. auto.
  - intros E. apply N. rewrite <- (rev_involutive l), E. reflexivity.
Qed.

Lemma evaluates_inv : forall env h e o, evaluates env h e o -> match e with
  | EName x => env x = Some o
  | EAttr b a => exists o', evaluates env h b o' /\ attr h o' a = Some o
  | ESub b k => exists o' v, evaluates env h b o' /\ key env h k v /\ item h o' v = Some o
  | _ => True
  end.
Proof. intros env h e o H. destruct H; eauto. Qed.
Lemma key_inv : forall env h e v, key env h e v -> match e with
  | EConst w => v = w
  | EName x => exists o, env x = Some o /\ as_key h o = Some v
  | ENeg k => exists w z, key env h k w /\ int_of w = Some z /\ v = VOne (CInt (- z))
  | _ => True
  end.
Proof. intros env h e v H. destruct H; eauto 10. Qed.

Lemma reference_value : forall str_of index_of f st h env s, mirrors st h -> distinct st h ->
  (forall x y, lookup f st s (VOne (CStr x)) = Ok (Some y) -> exists o, env x = Some o /\ refers st y o) ->
  (forall y o v, refers st y o -> index_of y = Some v -> as_key h o = Some v) ->
  forall e, followed (fun x => lookup f st s (VOne (CStr x))) index_of e -> forall l o y,
  visit str_of index_of (Some (fun x => lookup f st s (VOne (CStr x)))) e = Ok (Some l) ->
  fully_resolve f st s (rev l) = Ok (Some y) -> evaluates env h e o -> refers st y o.
Proof.
  intros str_of index_of f st h env s M Di Env Ix e F.
  induction F as [x|e a F IH|e v F IH Nv|e c z F IH Z|e x yi v F IH Lk Iv]; intros l o y V R E.
  - cbn [visit] in V. injection V as <-. apply evaluates_inv in E. cbn in E. unfold fully_resolve in R. simpl in R.
    destruct (lookup f st s (VOne (CStr x))) as [[y0|]|] eqn:L; cbn [rbind rmap] in R; try discriminate.
    destruct (Env x y0 L) as (o' & E' & Rf). assert (o' = o) by congruence. subst o'.
    destruct Rf as (sy & Sy & Eo). rewrite Sy in R. cbn [rbind of_option] in R.
    assert (y0 = y). { destruct (dget (namespaces st) (obj sy)); simpl in R; congruence. } subst y0. exists sy. auto.
  - destruct (followed_chain str_of index_of _ e F) as (l0 & V0 & N0 & C0). cbn [visit] in V. rewrite V0 in V. injection V as <-.
    destruct (chain_snoc _ _ _ _ _ _ N0 C0 R) as (y' & sy & ns & R1 & Sy & Ns & Lm). destruct (evaluates_inv _ _ _ _ E) as (o0 & E0 & A0).
    destruct (IH _ _ _ V0 R1 E0) as (sy' & Sy' & <-). assert (sy' = sy) by congruence. subst sy'.
    eapply member_attr; eauto; exact Lm.
  - destruct (followed_chain str_of index_of _ e F) as (l0 & V0 & N0 & C0). cbn [visit] in V.
    assert (S : slice_of (EConst v) = Constant v) by (destruct v as [[]|]; auto; congruence).
    rewrite S, V0 in V. injection V as <-.
    destruct (chain_snoc _ _ _ _ _ _ N0 C0 R) as (y' & sy & ns & R1 & Sy & Ns & Lm). destruct (evaluates_inv _ _ _ _ E) as (o0 & w & E0 & K0 & A0). apply key_inv in K0. cbn in K0. subst w.
    destruct (IH _ _ _ V0 R1 E0) as (sy' & Sy' & <-). assert (sy' = sy) by congruence. subst sy'.
    eapply member_item; eauto; exact Lm.
  - destruct (followed_chain str_of index_of _ e F) as (l0 & V0 & N0 & C0). cbn [visit] in V.
    assert (S : slice_of (ENeg (EConst (VOne c))) = Constant (VOne (CInt (- z)))).
    { simpl. unfold negate. rewrite Z. destruct c; auto; discriminate. }
    rewrite S, V0 in V. injection V as <-.
    destruct (chain_snoc _ _ _ _ _ _ N0 C0 R) as (y' & sy & ns & R1 & Sy & Ns & Lm). destruct (evaluates_inv _ _ _ _ E) as (o0 & w & E0 & K0 & A0).
    destruct (key_inv _ _ _ _ K0) as (w' & z' & K1 & Z1 & ->). apply key_inv in K1. cbn in K1. subst w'. assert (z' = z) by congruence. subst z'.
    destruct (IH _ _ _ V0 R1 E0) as (sy' & Sy' & <-). assert (sy' = sy) by congruence. subst sy'.
    eapply member_item; eauto; exact Lm.
  - destruct (followed_chain str_of index_of _ e F) as (l0 & V0 & N0 & C0). cbn [visit slice_of] in V. rewrite Lk in V. cbn [rmap rbind] in V.
    rewrite Iv, V0 in V. injection V as <-.
    destruct (chain_snoc _ _ _ _ _ _ N0 C0 R) as (y' & sy & ns & R1 & Sy & Ns & Lm). destruct (evaluates_inv _ _ _ _ E) as (o0 & w & E0 & K0 & A0).
    destruct (key_inv _ _ _ _ K0) as (o1 & E1 & A1). destruct (Env _ _ Lk) as (o2 & E2 & R2). assert (o2 = o1) by congruence. subst o2.
    assert (w = v) by (assert (Q := Ix _ _ _ R2 Iv); congruence). subst w.
    destruct (IH _ _ _ V0 R1 E0) as (sy' & Sy' & <-). assert (sy' = sy) by congruence. subst sy'.
    eapply member_item; eauto; exact Lm.
Qed.

Lemma resolve_step : forall f st s a ch y sy, lookup f st s (a_value a) = Ok (Some y) -> a_call a = false -> dget (symbols st) y = Some sy ->
  resolve f st s (a :: ch) = match dget (namespaces st) (obj sy) with None => Ok [(y, ch)] | Some ns => rmap (cons (y, ch)) (resolve f st ns ch) end.
Proof. intros. cbn [resolve]. rewrite H. cbn [rbind]. rewrite H0, H1. reflexivity. Qed.
(** The other way: a path of symbols is found. *)
Lemma resolve_app : forall f st ch s a y sy ns y', (forall b, In b ch -> a_call b = false) ->
  fully_resolve f st s ch = Ok (Some y) -> dget (symbols st) y = Some sy -> dget (namespaces st) (obj sy) = Some ns ->
  lookup f st ns (a_value a) = Ok (Some y') -> a_call a = false -> dget (symbols st) y' <> None ->
  fully_resolve f st s (ch ++ [a]) = Ok (Some y').
Proof.
  intros f st ch. induction ch as [|b ch IH]; intros s a y sy ns y' C R Sy Ns La Ca D; [discriminate|].
  assert (Cb : a_call b = false) by (apply C; left; auto).
  unfold fully_resolve in *. apply rmap_Ok in R. destruct R as (l & R & E). simpl in R.
  destruct (lookup f st s (a_value b)) as [[y0|]|] eqn:Lk; cbn [rbind] in R; try discriminate; [|injection R as <-; discriminate].
  rewrite Cb in R. destruct (dget (symbols st) y0) as [sy0|] eqn:Sy0; cbn [rbind of_option] in R; [|discriminate].
  change ((b :: ch) ++ [a]) with (b :: (ch ++ [a])). rewrite (resolve_step _ _ _ _ (ch ++ [a]) _ _ Lk Cb Sy0).
  destruct (dget (namespaces st) (obj sy0)) as [ns0|] eqn:Ns0.
  - apply rmap_Ok in R. destruct R as (l' & R & <-). destruct ch as [|c ch].
    + simpl in R. injection R as <-. simpl in E. injection E as ->. assert (sy0 = sy) by congruence. subst sy0. assert (ns0 = ns) by congruence. subst ns0.
      simpl. rewrite La. cbn [rbind]. rewrite Ca. destruct (dget (symbols st) y') as [sy'|]; [|congruence]. cbn [rbind of_option].
      destruct (dget (namespaces st) (obj sy')); reflexivity.
    + assert (E' : match rev l' with (y, []) :: _ => Some y | _ => None end = Some y).
      { simpl in E. destruct (rev l') eqn:Er; [|exact E]. discriminate. }
      assert (H := IH ns0 a y sy ns y' (fun b I => C b (or_intror I))).
      rewrite R in H. cbn [rmap] in H. rewrite E' in H. specialize (H eq_refl Sy Ns La Ca D). apply rmap_Ok in H. destruct H as (l2 & R2 & E2).
      rewrite R2. cbn [rmap]. f_equal. simpl. destruct (rev l2) eqn:Er; [discriminate|]. exact E2.
  - injection R as <-. simpl in E. destruct ch; [|discriminate]. injection E as ->. congruence.
Qed.

Lemma key_visit : forall str_of index_of look e k v l, literal_key look index_of k v -> visit str_of index_of (Some look) e = Ok (Some l) ->
  visit str_of index_of (Some look) (ESub e k) = Ok (Some (plain_atom v false true :: l)).
Proof.
  intros str_of index_of look e k v l H V. cbn [visit]. destruct H as [v N|c z Z|x y v L I].
  - assert (S : slice_of (EConst v) = Constant v) by (destruct v as [[]|]; auto; congruence). rewrite S. cbn [rbind]. rewrite V. reflexivity.
  - assert (S : slice_of (ENeg (EConst (VOne c))) = Constant (VOne (CInt (- z)))).
    { simpl. unfold negate. rewrite Z. destruct c; auto; discriminate. }
    rewrite S. cbn [rbind]. rewrite V. reflexivity.
  - cbn [slice_of]. rewrite L. cbn [rmap rbind]. rewrite I, V. reflexivity.
Qed.
Lemma tracked_found : forall str_of index_of f st s, 2 <= f -> forall e y, tracked st (fun x => lookup f st s (VOne (CStr x))) index_of e y ->
  (forall y' e', tracked st (fun x => lookup f st s (VOne (CStr x))) index_of e' y' -> dget (symbols st) y' <> None) ->
  exists l, visit str_of index_of (Some (fun x => lookup f st s (VOne (CStr x)))) e = Ok (Some l) /\ (forall a, In a l -> a_call a = false) /\
    fully_resolve f st s (rev l) = Ok (Some y).
Proof.
  intros str_of index_of f st s Lf e y T All. destruct f as [|[|f]]; try lia.
  induction T as [x y L|e a y' o ns sc y T IH R Ns Sc N E|e k v y' o ns sc y T IH R Ns Sc N K E Cl].
  - exists [plain_atom (VOne (CStr x)) false false]. split; [reflexivity|]. split; [intros a [<-|[]]; reflexivity|].
    assert (D := All y (EName x) (t_name _ _ _ _ _ L)). destruct (dget (symbols st) y) as [sy|] eqn:Sy; [|congruence].
    unfold fully_resolve. change (rev [plain_atom (VOne (CStr x)) false false]) with [plain_atom (VOne (CStr x)) false false].
    rewrite (resolve_step _ _ _ _ [] y sy); auto. destruct (dget (namespaces st) (obj sy)); reflexivity.
  - destruct IH as (l & V & C & F). exists (plain_atom (VOne (CStr a)) false false :: l). split; [cbn [visit]; rewrite V; reflexivity|].
    split; [intros b [<-|I]; auto|]. destruct R as (sy & Sy & <-). cbn [rev].
    apply (resolve_app (S (S f)) st (rev l) s (plain_atom (VOne (CStr a)) false false) y' sy ns y); auto.
    + intros b I. apply C. apply in_rev. auto.
    + cbn [a_value plain_atom]. rewrite lookup_class by (exists sc; auto). cbn [lookup_here]. rewrite (scope_of_some _ _ _ Sc). cbn [rbind lookup_name].
      rewrite N, E. cbn [negb]. destruct (cloned sc); reflexivity.
    + eapply All. eapply t_attr; eauto. exists sy. auto.
  - destruct IH as (l & V & C & F). exists (plain_atom v false true :: l). split; [apply key_visit; auto|].
    split; [intros b [<-|I]; auto|]. destruct R as (sy & Sy & <-). cbn [rev].
    apply (resolve_app (S (S f)) st (rev l) s (plain_atom v false true) y' sy ns y); auto.
    + intros b I. apply C. apply in_rev. auto.
    + cbn [a_value plain_atom]. rewrite lookup_class by (exists sc; auto). cbn [lookup_here]. rewrite (scope_of_some _ _ _ Sc). cbn [rbind].
      rewrite N. cbn [negb].
      assert (Ln : lookup_name sc v = None) by (destruct v as [[a| | |]|]; auto; apply Cl; reflexivity). rewrite Ln.
      unfold lookup_subscript. rewrite E. destruct (cloned sc); reflexivity.
    + eapply All. eapply t_item; eauto. exists sy. auto.
Qed.
