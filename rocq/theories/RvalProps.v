(** C60: a value depends on exactly what its expression reads.
    C61: the variables that an expression reads are recorded as used. *)
From Coq Require Import List Arith Bool.
From Verif Require Import Base RvalModel RvalSpec RvalProofs.
Import ListNotations.

(** Names 1 to 9 are variables with the symbols 101 to 109; node 11 is a place whose symbol is 50,
    node 12 one whose symbol is 51. *)
Definition world : env :=
  {| lookup := fun x => if x <? 10 then Some (100 + x) else None;
     loaded := fun n => match n with 11 => [50] | 12 => [51] | _ => [] end;
     field := fun _ _ => None |}.

Lemma world_distinct : distinct_names world.
Proof.
  intros x y s. unfold world, lookup. destruct (x <? 10), (y <? 10); try discriminate.
  intros A B. inversion A; subst. inversion B. auto.
Qed.

(** [f(a.b, [x + y for x in xs], *args)] where x is also a variable outside. *)
Definition sample : expr :=
  Call 20 (Name 1)
    [Attr 11 (Name 2) 5; Comp 21 [Name 3] [Op 22 [Name 3; Name 4]] [(Name 6, [])]; Starred 23 (Name 7)].

Lemma sample_fine : fine world [] sample.
Proof.
  apply f_call; [intros s [] |]. intros e [<-|[<-|[<-|[]]]].
  - apply f_attr; [discriminate | intros s _; apply no_hidden | apply p_name].
  - apply f_comp; try apply f_name; try (intros; cbn in *; tauto).
    + intros t [<-|[]]. apply g_name.
    + intros e [<-|[]]. apply f_op. intros e [<-|[<-|[]]]; apply f_name.
    + intros s R (x & [<-|[]] & E). inversion R; subst. cbn in *. congruence.
  - apply f_star. intros [].
Qed.

(** For fine expressions, a value depends on a symbol if and only if its expression reads it. The
    static analysis, which steps in if nothing was found, may at most find what is read. *)
Theorem C60_partial : forall v static e, distinct_names v -> fine v [] e ->
  (forall s, In s static -> reads v [] e s) ->
  forall s, In s (rvals v static e) <-> reads v [] e s.
Proof.
  intros v static e DN F ST s. unfold rvals.
  assert (D : forall s, In s (dead s0) <-> hidden v [] s).
  { intros x. split; [intros [] | intros H; destruct (no_hidden v x H)]. }
  destruct (fine_right v DN [] e F s0 D) as (A & _). fold s0.
  specialize (A s). destruct (syms (visit v false true e s0)); [|rewrite A; simpl; tauto].
  split; [apply ST|]. intros R. exfalso. apply A. auto.
Qed.
Print Assumptions C60_partial.

Example C60_partial_ok : distinct_names world /\ fine world [] sample /\
  rvals world [] sample = [101; 50; 104; 106; 107].
Proof. exact (conj world_distinct (conj sample_fine eq_refl)). Qed.

(** For fine expressions, every variable taken as a whole is recorded as used, and nothing is that
    is not read. *)
Theorem C61_partial : forall v static e, distinct_names v -> fine v [] e ->
  (forall s, In s static -> reads v [] e s) ->
  (forall s, takes v [] e s -> In s (usages v static e)) /\
  (forall s, In s (usages v static e) -> reads v [] e s).
Proof.
  intros v static e DN F ST. unfold usages. cbv zeta. fold s0.
  assert (D : forall s, In s (dead s0) <-> hidden v [] s).
  { intros x. split; [intros [] | intros H; destruct (no_hidden v x H)]. }
  destruct (fine_right v DN [] e F s0 D) as (_ & _ & U & T).
  split; intros s H.
  - specialize (T s (or_intror H)). destruct (syms _); auto. apply in_app_iff. auto.
  - destruct (syms (visit v false true e s0)).
    + apply in_app_iff in H. destruct H as [H|H]; auto. destruct (U s H) as [[]|R]; exact R.
    + destruct (U s H) as [[]|R]; exact R.
Qed.
Print Assumptions C61_partial.

Example C61_partial_ok : distinct_names world /\ fine world [] sample /\
  takes world [] sample 104 /\ usages world [] sample = [101; 104; 106].
Proof.
  refine (conj world_distinct (conj sample_fine (conj _ eq_refl))).
  eapply t_arg; [right; left; reflexivity|]. eapply t_head; [now left|].
  eapply t_op; [right; left; reflexivity|]. apply t_name; [|reflexivity].
  cbn. intuition discriminate.
Qed.

(** The index: [a[i]] does not depend on i, whatever a and i are. *)
Theorem C60_index_refuted : forall v static n a i y, loaded v n <> [] ->
  lookup v i = Some y -> ~ In y (loaded v n) ->
  reads v [] (Sub n (Name a) (Name i)) y /\ ~ In y (rvals v static (Sub n (Name a) (Name i))).
Proof.
  intros v static n a i y L E N. split.
  - apply r_index, r_name; auto.
  - unfold rvals. cbn. rewrite app_nil_r. destruct (loaded v n) as [|z l]; [congruence|]. exact N.
Qed.
Print Assumptions C60_index_refuted.

Example C60_index_refuted_ok : loaded world 11 <> [] /\ lookup world 4 = Some 104 /\
  ~ In 104 (loaded world 11) /\ rvals world [] (Sub 11 (Name 2) (Name 4)) = [50].
Proof. repeat apply conj; cbn; intuition discriminate. Qed.

(** What lies below an attribute of an attribute, or below an attribute of an operation:
    [f(x).a.b] does not depend on x, nor does [(p + q).a] on p. *)
Theorem C60_base_refuted : forall v static n m k f x y p q a b,
  loaded v n <> [] -> lookup v x = Some y -> ~ In y (loaded v n) ->
  (reads v [] (Attr n (Attr m (Call k (Name f) [Name x]) a) b) y /\
   ~ In y (rvals v static (Attr n (Attr m (Call k (Name f) [Name x]) a) b))) /\
  (lookup v p = Some y ->
   reads v [] (Attr n (Op m [Name p; Name q]) a) y /\
   ~ In y (rvals v static (Attr n (Op m [Name p; Name q]) a))).
Proof.
  intros v static n m k f x y p q a b L E N.
  assert (K : forall l s, In s (filter (fun x => negb (memb x [])) l) -> In s l).
  { intros l s I. apply filter_In in I. tauto. }
  split; [|intros P]; split.
  - apply r_attr_of; [discriminate|]. apply r_attr_of; [discriminate|].
    eapply r_arg; [now left|]. apply r_name; auto.
  - unfold rvals. cbn. destruct (loaded v n) as [|z l]; [congruence|]. cbn.
    intros [I|I]; [apply N; now left|]. apply N. right. now apply K.
  - apply r_attr_of; [discriminate|]. eapply r_op; [now left|]. apply r_name; auto.
  - unfold rvals. cbn. destruct (loaded v n) as [|z l]; [congruence|]. cbn.
    intros [I|I]; [apply N; now left|]. apply N. right. now apply K.
Qed.
Print Assumptions C60_base_refuted.

Example C60_base_refuted_ok :
  rvals world [] (Attr 11 (Attr 30 (Call 31 (Name 1) [Name 3]) 5) 6) = [50] /\
  rvals world [] (Attr 11 (Op 30 [Name 3; Name 4]) 5) = [50].
Proof. split; reflexivity. Qed.

(** The result of a call that is called: [f(x)(y)] does not depend on x, nor on f. *)
Theorem C60_curried_refuted : exists v e s t, distinct_names v /\
  reads v [] e s /\ reads v [] e t /\ rvals v [] e = [104] /\ ~ In s [104] /\ ~ In t [104].
Proof.
  exists world, (Call 30 (Call 31 (Name 1) [Name 3]) [Name 4]), 103, 101.
  refine (conj world_distinct (conj _ (conj _ (conj eq_refl _)))).
  - apply r_fun. eapply r_arg; [now left|]. apply r_name; auto.
  - apply r_fun, r_fun. apply r_name; auto.
  - cbn. intuition discriminate.
Qed.
Print Assumptions C60_curried_refuted.

(** The first iterable: in [[x + y for x in x]] the last x is the variable outside. *)
Theorem C60_iterable_refuted : exists v e s, distinct_names v /\ reads v [] e s /\
  rvals v [] e = [104] /\ s <> 104.
Proof.
  exists world, (Comp 30 [Name 3] [Op 31 [Name 3; Name 4]] [(Name 3, [])]), 103.
  refine (conj world_distinct (conj _ (conj eq_refl _))); [|discriminate].
  apply r_first, r_name; auto.
Qed.
Print Assumptions C60_iterable_refuted.

(** Stars: in [[x for x, *r in xs]] the r outside is taken for read; in [f( *g(x))] x is not. *)
Theorem C60_star_refuted : exists v e e', distinct_names v /\
  In 105 (rvals v [] e) /\ ~ reads v [] e 105 /\
  reads v [] e' 103 /\ ~ In 103 (rvals v [] e').
Proof.
  exists world, (Comp 30 [Lit 31 [Name 3; Starred 32 (Name 5)]] [Name 3] [(Name 6, [])]),
    (Call 40 (Name 1) [Starred 41 (Call 42 (Name 2) [Name 3])]).
  refine (conj world_distinct (conj _ (conj _ (conj _ _)))).
  - cbn. auto.
  - intros R.
    assert (NN : forall b x, reads world b (Name x) 105 -> x = 5).
    { intros b x Q. inversion Q as [? ? ? NB E| | | | | | | | | | | | | | | | |]; subst.
      apply (world_distinct x 5 105); auto. }
    inversion R as [| | | | | | | | | | | | | |? ? ? ? ? e s I Q|? ? ? ? ? ? ? s Q
                    |? ? ? ? ? ? ? ? s I Q|? ? ? ? ? ? ? e s I J Q]; subst.
    + destruct I as [<-|[]]. apply NN in Q. discriminate.
    + apply NN in Q. discriminate.
    + destruct I.
    + destruct I as [I|[]]. inversion I; subst. destruct J.
  - eapply r_arg; [now left|]. apply r_star. eapply r_arg; [now left|]. apply r_name; auto.
  - cbn. intuition discriminate.
Qed.
Print Assumptions C60_star_refuted.

(** A variable passed with a star is depended on, but not recorded as used: [f( *xs)]. *)
Theorem C61_star_refuted : forall v static n f m x s, lookup v x = Some s ->
  lookup v f <> Some s -> ~ In s (loaded v n) ->
  let e := Call n (Name f) [Starred m (Name x)] in
  reads v [] e s /\ In s (rvals v static e) /\ ~ In s (usages v static e).
Proof.
  intros v static n f m x s E NF NL e. refine (conj _ (conj _ _)).
  - eapply r_arg; [now left|]. apply r_star, r_name; auto.
  - unfold rvals, e. cbn. rewrite E.
    match goal with |- context [match ?x with _ => _ end] => set (l := x) end.
    assert (I : In s l) by (unfold l; apply in_app_iff; right; now left).
    destruct l; [destruct I | exact I].
  - unfold usages, e. cbn. rewrite E.
    match goal with |- context [match ?x with [] => _ ++ static | _ => _ end] => set (l := x) end.
    assert (I : In s l) by (unfold l; apply in_app_iff; right; now left).
    destruct l; [destruct I|]. intros J. apply in_app_iff in J.
    destruct J as [J|J]; apply filter_In in J; destruct J as [J _]; auto.
    apply In_of_opt in J. auto.
Qed.
Print Assumptions C61_star_refuted.

Example C61_star_refuted_ok :
  rvals world [] (Call 30 (Name 1) [Starred 31 (Name 6)]) = [101; 106] /\
  usages world [] (Call 30 (Name 1) [Starred 31 (Name 6)]) = [101].
Proof. split; reflexivity. Qed.

(** Arguments of library functions are left to the static analysis if they are plain. *)
Theorem C60_argument_partial : forall v static e, plain e ->
  (forall s, In s static <-> reads v [] e s) ->
  forall s, In s (arg_syms v static e) <-> reads v [] e s.
Proof.
  intros v static e P ST s. unfold arg_syms. rewrite (plain_off v e P). apply ST.
Qed.
Print Assumptions C60_argument_partial.

Example C60_argument_partial_ok : plain (Op 30 [Name 3; Name 4]) /\
  (forall s, In s [103; 104] <-> reads world [] (Op 30 [Name 3; Name 4]) s) /\
  arg_syms world [103; 104] (Op 30 [Name 3; Name 4]) = [103; 104].
Proof.
  refine (conj _ (conj _ eq_refl)).
  - apply pl_op. intros e [<-|[<-|[]]]; apply pl_name.
  - intros s. split.
    + intros [<-|[<-|[]]];
        [apply r_op with (e := Name 3) | apply r_op with (e := Name 4)]; cbn; auto;
        apply r_name; auto.
    + intros R. inversion R as [|? ? ? e ? I Q| | | | | | | | | | | | | | | |]; subst.
      destruct I as [<-|[<-|[]]];
        inversion Q as [? ? ? NB E| | | | | | | | | | | | | | | | |]; subst; cbn in *;
        inversion E; auto.
Qed.

(** But one subscript, and every variable beside it is lost, whatever the static analysis finds:
    [append(x + a[0])]. *)
Theorem C60_argument_refuted : forall v static m n k x a c y, lookup v x = Some y ->
  loaded v n <> [] -> ~ In y (loaded v n) ->
  let e := Op m [Name x; Sub n (Name a) (Const k c)] in
  reads v [] e y /\ ~ In y (arg_syms v static e).
Proof.
  intros v static m n k x a c y E L N e. split.
  - eapply r_op; [now left|]. apply r_name; auto.
  - unfold arg_syms, e. cbn. rewrite app_nil_r.
    destruct (loaded v n) as [|z l]; [congruence|]. exact N.
Qed.
Print Assumptions C60_argument_refuted.

Example C60_argument_refuted_ok :
  arg_syms world [103; 50] (Op 30 [Name 3; Sub 11 (Name 2) (Const 31 0)]) = [50].
Proof. reflexivity. Qed.
