(** Proofs about the symbols of imports. *)
From Coq Require Import List Arith Bool Lia.
From Verif Require Import Base ImportModel ImportSpec.
Import ListNotations.

Lemma key_eqb_eq : forall a b, key_eqb a b = true <-> a = b.
Proof.
  intros [[|x] [n|n]] [[|y] [k|k]]; unfold key_eqb; cbn;
    rewrite ?andb_true_iff, ?Nat.eqb_eq; split; try discriminate; try (intros [? ?]; discriminate);
    try (intros E; injection E; intros; subst; auto); try (intros; subst; auto).
  all: try (destruct H; subst; auto).
Qed.

Lemma get_put : forall s k o k', get (put s k o) k' = if key_eqb k k' then Some o else get s k'.
Proof.
  intros s k o k'. induction s as [|[k0 o0] s IH]; cbn.
  - now destruct (key_eqb k k').
  - destruct (key_eqb k0 k) eqn:E; cbn.
    + apply key_eqb_eq in E. subst. now destruct (key_eqb k k').
    + rewrite IH. destruct (key_eqb k0 k') eqn:E1; [|auto].
      destruct (key_eqb k k') eqn:E2; [|auto].
      apply key_eqb_eq in E1, E2. subst. rewrite (proj2 (key_eqb_eq k' k') eq_refl) in E. discriminate.
Qed.

Lemma get_put_same : forall s k o, get (put s k o) k = Some o.
Proof. intros s k o. rewrite get_put. now rewrite (proj2 (key_eqb_eq k k) eq_refl). Qed.

Lemma get_put_other : forall s k o k', k <> k' -> get (put s k o) k' = get s k'.
Proof.
  intros s k o k' N. rewrite get_put. destruct (key_eqb k k') eqn:E; [|auto].
  apply key_eqb_eq in E. contradiction.
Qed.

(** In a namespace nothing is done to the frame's symbols. *)
Lemma walk_ns : forall w named rest o past last s n,
  get (fst (walk w named false (Ns o) past rest last s)) (Frame, n) = get s (Frame, n).
Proof.
  intros w named rest. induction rest as [|c rest IH]; intros o past last s n; cbn; [auto|].
  destruct (sysmods w (past ++ [c])) as [m|]; [|auto].
  destruct (alias s m); rewrite IH; [auto|]. apply get_put_other. discriminate.
Qed.

(** The frame's symbols after a module's symbols were made. *)
Lemma create_frame : forall w named m s n,
  get (fst (create w named m s)) (Frame, n) = get s (Frame, n) \/
  exists c r o, name_of w m = c :: r /\ sysmods w [c] = Some o /\ alias s o = None /\
    n = (if named then Bare c else Angle c) /\ special w m = false /\
    get (fst (create w named m s)) (Frame, n) = Some o.
Proof.
  intros w named m s n. unfold create. destruct (special w m); [auto|].
  destruct (name_of w m) as [|c r] eqn:E; cbn; [auto|].
  destruct (sysmods w [c]) as [o|] eqn:S; [|auto]. cbn.
  destruct (alias s o) eqn:A; rewrite walk_ns; [auto|].
  rewrite get_put.
  destruct (key_eqb _ (Frame, n)) eqn:K; [|auto]. apply key_eqb_eq in K. injection K as <-.
  right. exists c, r, o. repeat split; auto. now destruct named.
Qed.

Lemma create_new : forall w named m s c r o,
  special w m = false -> name_of w m = c :: r -> sysmods w [c] = Some o -> alias s o = None ->
  get (fst (create w named m s)) (Frame, if named then Bare c else Angle c) = Some o.
Proof.
  intros w named m s c r o SP N S A. unfold create. rewrite SP, N. cbn. rewrite S. cbn.
  rewrite A, walk_ns. replace (if negb named then Angle c else Bare c) with (if named then Bare c else Angle c) by now destruct named.
  apply get_put_same.
Qed.

(** What is made or changed is a module under its name. *)
Lemma walk_modules : forall w named rest first cur past last s k o,
  get (fst (walk w named first cur past rest last s)) k = Some o ->
  get s k = Some o \/
  exists p c q, rest = p ++ c :: q /\ sysmods w (past ++ p ++ [c]) = Some o /\
    (snd k = Bare c \/ (snd k = Angle c /\ named = false)).
Proof.
  intros w named rest. induction rest as [|c rest IH]; intros first cur past last s k o; cbn; [auto|].
  destruct (sysmods w (past ++ [c])) as [m|] eqn:S; [|auto].
  destruct (alias s m) as [k1|] eqn:A; intros G.
  - destruct (IH _ _ _ _ _ _ _ G) as [H|(p & c1 & q & E & SM & NM)]; [auto|].
    right. exists (c :: p), c1, q. rewrite E. repeat split; auto. cbn. now rewrite <- SM, <- app_assoc.
  - set (k0 := (cur, if first && negb named then Angle c else Bare c)) in *.
    destruct (IH _ _ _ _ _ _ _ G) as [H|(p & c1 & q & E & SM & NM)].
    + rewrite get_put in H. destruct (key_eqb k0 k) eqn:K; [|auto].
      injection H as ->. apply key_eqb_eq in K. subst k. right. exists [], c, rest. cbn.
      repeat split; auto. destruct (first && negb named)%bool eqn:F; [right|now left].
      apply andb_true_iff in F as [_ F]. apply negb_true_iff in F. auto.
    + right. exists (c :: p), c1, q. rewrite E. repeat split; auto. cbn. now rewrite <- SM, <- app_assoc.
Qed.

(** ** Statements *)
Lemma trace_var : forall w env i s x,
  (target i = Some x -> forall o, env x = Some o -> var (trace w env i s) x = Some o) /\
  (target i <> Some x ->
     var (trace w env i s) x = var s x \/
     (top w i = Some x /\ exists o, sysmods w [x] = Some o /\ alias s o = None /\ var (trace w env i s) x = Some o)).
Proof.
  intros w env i s x. unfold trace, var.
  set (s1 := match module_of w i with None => s | Some m => fst (create w _ m s) end).
  split.
  - intros T o E. rewrite T, E. apply get_put_same.
  - intros T.
    assert (G : get (match target i with
                     | None => s1
                     | Some t => match env t with Some o => put s1 (Frame, Bare t) o | None => s1 end
                     end) (Frame, Bare x) = get s1 (Frame, Bare x)).
    { destruct (target i) as [t|]; [|auto]. destruct (env t); [|auto]. apply get_put_other. congruence. }
    rewrite G. subst s1. unfold top. destruct (module_of w i) as [m|]; [|auto].
    destruct (create_frame w (match as_name i with None => true | Some _ => false end) m s (Bare x))
      as [H|(c & r & o & N & S & A & E & SP & H)]; [auto|].
    destruct (as_name i); [discriminate|]. injection E as <-. right. rewrite N. split; [auto|].
    exists o. auto.
Qed.

Lemma target_binds : forall w att i x o,
  simple i -> binds w att i = Some (x, o) -> target i = Some x.
Proof.
  intros w att i x o SI B. destruct i as [[|c r] [a|]|p n [a|]]; cbn in *; try discriminate.
  - destruct (sysmods w (c :: r)); [|discriminate]. cbn in B. injection B as <- _. auto.
  - destruct r; [|destruct SI]. destruct (sysmods w [c]); [|discriminate]. cbn in B. injection B as <- _. auto.
  - destruct (att p n); [|discriminate]. cbn in B. injection B as <- _. auto.
  - destruct (att p n); [|discriminate]. cbn in B. injection B as <- _. auto.
Qed.

Lemma trace_sync : forall w att i env s b,
  in_sync env s -> harmless w env (after w att i env) i -> binds w att i = Some b ->
  in_sync (after w att i env) (trace w (after w att i env) i s).
Proof.
  intros w att i env s [y o2] Y [H H2] BI x o V.
  destruct (trace_var w (after w att i env) i s x) as (A & B).
  assert (Q : after w att i env y = Some o2).
  { unfold after. rewrite BI. unfold bind. now rewrite Nat.eqb_refl. }
  assert (TB : target i = Some y \/ exists c r, i = Import (c :: r) None /\ r <> [] /\ y = c /\ target i = None /\ sysmods w [c] = Some o2).
  { destruct i as [[|c r] [a|]|p n [a|]]; cbn in BI |- *; try discriminate.
    - destruct (sysmods w (c :: r)); [|discriminate]. cbn in BI. left. congruence.
    - destruct (sysmods w [c]) as [oc|] eqn:SC; [|discriminate]. cbn in BI.
      destruct r as [|c2 r]; [left; congruence|]. right. exists c, (c2 :: r).
      split; [auto|]. split; [discriminate|]. split; [congruence|]. split; [auto|congruence].
    - destruct (att p n); [|discriminate]. cbn in BI. left. congruence.
    - destruct (att p n); [|discriminate]. cbn in BI. left. congruence. }
  assert (D : target i = Some x \/ target i <> Some x).
  { destruct (target i) as [t|]; [|right; discriminate].
    destruct (Nat.eq_dec t x) as [ -> |N]; [auto|right; congruence]. }
  destruct D as [D|D].
  - destruct TB as [TB|(c & r & _ & _ & _ & TB & _)]; [|congruence].
    assert (x = y) by congruence. subst x. rewrite (A D o2 Q) in V. congruence.
  - destruct (B D) as [E|(T & o1 & S & AL & E)].
    + rewrite E in V. apply Y in V. unfold after. rewrite BI. unfold bind.
      destruct (Nat.eqb_spec x y) as [ -> |]; [|auto].
      destruct TB as [TB|(c & r & EI & NR & -> & _ & SC)]; [contradiction|].
      destruct (H2 c r EI NR); congruence.
    + rewrite E in V. injection V as <-. now apply H.
Qed.

Lemma session_sync : forall w att is env s,
  in_sync env s -> all_harmless w att is env ->
  in_sync (fst (session w att is env s)) (snd (session w att is env s)).
Proof.
  intros w att is. induction is as [|i is IH]; intros env s Y A; cbn; [auto|].
  destruct A as (H & A). destruct (binds w att i) as [b|] eqn:B.
  - apply IH; [|exact A]. now apply (trace_sync w att i env s b).
  - apply IH; [exact Y|]. unfold after in A. rewrite B in A. exact A.
Qed.

Lemma walk_keeps : forall w named rest first cur past last s k,
  get s k <> None -> get (fst (walk w named first cur past rest last s)) k <> None.
Proof.
  intros w named rest. induction rest as [|c rest IH]; intros first cur past last s k G; cbn; [auto|].
  destruct (sysmods w (past ++ [c])) as [m|]; [|auto].
  destruct (alias s m); apply IH; [auto|]. rewrite get_put. destruct (key_eqb _ k); [discriminate|auto].
Qed.

Lemma trace_keeps : forall w env i s x, var s x <> None -> var (trace w env i s) x <> None.
Proof.
  intros w env i s x G. unfold trace, var.
  assert (G1 : get (match module_of w i with
      | None => s
      | Some m => fst (create w (match as_name i with None => true | Some _ => false end) m s)
      end) (Frame, Bare x) <> None).
  { destruct (module_of w i) as [m|]; [|auto]. unfold create. destruct (special w m); [auto|].
    now apply walk_keeps. }
  destruct (target i) as [t|]; [|auto]. destruct (env t) as [o|]; [|auto].
  rewrite get_put. destruct (key_eqb _ _); [discriminate|auto].
Qed.

Lemma session_keeps : forall w att is env s x,
  var s x <> None -> var (snd (session w att is env s)) x <> None.
Proof.
  intros w att is. induction is as [|i is IH]; intros env s x G; cbn; [auto|].
  destruct (binds w att i); [|auto]. apply IH, trace_keeps, G.
Qed.

Lemma session_bound : forall w att is env s i x o,
  In i is -> simple i -> binds w att i = Some (x, o) ->
  var (snd (session w att is env s)) x <> None.
Proof.
  intros w att is. induction is as [|j is IH]; intros env s i x o I SI B; [destruct I|].
  cbn. destruct I as [ -> |I].
  - rewrite B. apply session_keeps.
    destruct (trace_var w (after w att i env) i s x) as (A & _).
    rewrite (A (target_binds w att i x o SI B) o); [discriminate|].
    unfold after. rewrite B. unfold bind. now rewrite Nat.eqb_refl.
  - destruct (binds w att j); now apply (IH _ _ i x o).
Qed.

Lemma alias_none : forall s o, alias s o = None <-> (forall k, ~ In (k, o) s).
Proof.
  intros s o. induction s as [|[k0 o0] s IH]; cbn; [tauto|].
  destruct (Nat.eqb_spec o0 o) as [ -> |N]; split.
  - discriminate.
  - intros H. exfalso. apply (H k0). now left.
  - intros A k [E|I]; [injection E as <- <-; now apply N|]. now apply (proj1 IH A k).
  - intros H. apply IH. intros k I. apply (H k). now right.
Qed.

Lemma alias_in : forall s o k, alias s o = Some k -> In (k, o) s.
Proof.
  intros s o k. induction s as [|[k0 o0] s IH]; cbn; [discriminate|].
  destruct (Nat.eqb_spec o0 o) as [ -> |N]; [intros E; injection E as ->; now left|].
  intros A. right. auto.
Qed.

Lemma put_in : forall s k o, In (k, o) (put s k o).
Proof.
  intros s k o. induction s as [|[k0 o0] s IH]; cbn; [now left|].
  destruct (key_eqb k0 k); [now left|now right].
Qed.

Lemma walk_found : forall w named rest first cur past last s,
  rest <> [] ->
  (forall p q, rest = p ++ q -> p <> [] -> sysmods w (past ++ p) <> None) ->
  exists s' k o, walk w named first cur past rest last s = (s', Some k) /\
    sysmods w (past ++ rest) = Some o /\ In (k, o) s'.
Proof.
  intros w named rest. induction rest as [|c rest IH]; intros first cur past last s R P; [contradiction|].
  cbn [walk]. destruct (sysmods w (past ++ [c])) as [m|] eqn:E;
    [|exfalso; now apply (P [c] rest eq_refl)].
  assert (Q : forall p q, rest = p ++ q -> p <> [] -> sysmods w ((past ++ [c]) ++ p) <> None).
  { intros p q -> N. rewrite <- app_assoc. now apply (P (c :: p) q). }
  destruct rest as [|c' rest].
  - cbn [walk]. destruct (alias s m) as [k1|] eqn:A.
    + exists s, k1, m. repeat split; auto. now apply alias_in.
    + eexists _, _, m. repeat split; auto. apply put_in.
  - replace (past ++ c :: c' :: rest) with ((past ++ [c]) ++ c' :: rest) by (rewrite <- app_assoc; reflexivity).
    destruct (alias s m) as [k1|] eqn:A; apply IH; auto; discriminate.
Qed.
