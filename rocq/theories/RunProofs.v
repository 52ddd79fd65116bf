(** Lemmas about the context of a run. *)

From Coq Require Import List Bool Arith Lia.
From Verif Require Import Base RunModel RunSpec.
Import ListNotations.

(** ** Attributes *)

Lemma own_put P c a f x b : own (put P c a f) x b = if (x =? c) && (b =? a) then Some f else own P x b.
Proof. reflexivity. Qed.

Lemma lookup_put_other O P c a f x b : (b = a -> ~ In c (mro O x)) -> lookup O (put P c a f) x b = lookup O P x b.
Proof.
  unfold lookup. intros H. induction (mro O x) as [|y r IH]; [reflexivity|]. cbn [first_own].
  rewrite own_put. destruct ((y =? c) && (b =? a)) eqn:E.
  - apply andb_prop in E. destruct E as [E1 E2]. apply Nat.eqb_eq in E1, E2.
    exfalso. apply (H E2). left. exact E1.
  - rewrite IH; [reflexivity|]. intros B Hc. apply (H B). right. exact Hc.
Qed.

Lemma lookup_put_same O P c a f : (exists r, mro O c = c :: r) -> lookup O (put P c a f) c a = Some f.
Proof.
  intros [r E]. unfold lookup. rewrite E. cbn [first_own]. rewrite own_put, !Nat.eqb_refl. reflexivity.
Qed.

(** Attributes as they were, or made explicit where they were inherited. *)
Definition settled (O : outside) (S : list (nat * nat)) (P P' : patched) : Prop :=
  forall x b, own P' x b = own P x b \/
    (In (x, b) S /\ own P x b = None /\ own P' x b = lookup O P x b).

Lemma settled_weaken O S S' P P' : incl S S' -> settled O S P P' -> settled O S' P P'.
Proof. intros I H x b. destruct (H x b) as [H1|(H1 & H2 & H3)]; [left; exact H1|right; auto]. Qed.

Lemma settled_lookup O S P P' : single_inheritance O -> settled O S P P' ->
  forall x b, lookup O P' x b = lookup O P x b.
Proof.
  intros (HD & ND & HS & _) ST x b.
  assert (Q : forall l, NoDup l -> (forall y, In y l -> exists pre, l = pre ++ mro O y) ->
            first_own (own P') l b = first_own (own P) l b).
  { induction l as [|y r IH]; intros N SF; [reflexivity|]. cbn [first_own].
    apply NoDup_cons_iff in N. destruct N as [NY NR].
    assert (SR : forall z, In z r -> exists pre, r = pre ++ mro O z).
    { intros z Hz. destruct (SF z (or_intror Hz)) as [[|p pre] E].
      - cbn in E. destruct (HD z) as [q Eq]. rewrite Eq in E. inversion E; subst. contradiction.
      - inversion E. exists pre. reflexivity. }
    specialize (IH NR SR).
    destruct (ST y b) as [E|(_ & E1 & E2)].
    - rewrite E, IH. reflexivity.
    - rewrite E1, E2. assert (EY : mro O y = y :: r).
      { destruct (SF y (or_introl eq_refl)) as [[|p pre] E].
        - exact (eq_sym E).
        - injection E as Ep Er. destruct (HD y) as [q Eq]. exfalso. apply NY. rewrite Er, Eq.
          apply in_or_app. right. left. reflexivity. }
      unfold lookup. rewrite EY. cbn [first_own]. rewrite E1.
      destruct (first_own (own P) r b) eqn:F; [reflexivity|]. rewrite IH. reflexivity. }
  apply Q; [apply ND|apply HS].
Qed.

(** Two steps, the second one's additions not depending on what the first changed. *)
Lemma settled_refl O S P : settled O S P P.
Proof. intros x b. left. reflexivity. Qed.

(** ** Computations that put things back *)

(** Lists that were there are still there, unchanged. *)
Definition lists_kept (P P' : patched) : Prop :=
  forall n l, dget (lists P) n = Some l -> dget (lists P') n = Some l.

Definition restoring (O : outside) (S : list (nat * nat)) (P P' : patched) : Prop :=
  settled O S P P' /\ lists_kept P P' /\ ast_at P' = ast_at P /\ input_at P' = input_at P.

Definition puts_back {A} (O : outside) (S : list (nat * nat)) (m : M A) : Prop :=
  forall w w' r, m w = (w', r) -> restoring O S (pt w) (pt w').

Lemma restoring_refl O S P : restoring O S P P.
Proof. split; [apply settled_refl|]. split; [intros n l H; exact H|]. auto. Qed.

Lemma restoring_trans O S P P1 P2 : single_inheritance O ->
  restoring O S P P1 -> restoring O S P1 P2 -> restoring O S P P2.
Proof.
  intros SI (A1 & A2 & A3 & A4) (B1 & B2 & B3 & B4).
  split; [|split; [intros n l H; apply B2, A2, H|split; congruence]].
  intros x b. pose proof (settled_lookup _ _ _ _ SI A1 x b) as L.
  destruct (A1 x b) as [E|(I1 & E1 & E2)].
  - destruct (B1 x b) as [F|(J1 & F1 & F2)]; [left; congruence|].
    right. repeat split; congruence.
  - destruct (B1 x b) as [F|(J1 & F1 & F2)]; right; repeat split; congruence.
Qed.

Lemma pb_ret {A} O S (a : A) : puts_back O S (ret a).
Proof. intros w w' r E. inversion E; subst. apply restoring_refl. Qed.

Lemma pb_raise {A} O S e : puts_back O S (@raise A e).
Proof. intros w w' r E. inversion E; subst. apply restoring_refl. Qed.

Lemma pb_point O S F p : puts_back O S (at_point F p).
Proof. unfold at_point. destruct (F p); [apply pb_raise|apply pb_ret]. Qed.

Lemma pb_hooks O S f : puts_back O S (on_hooks f).
Proof. intros w w' r E. inversion E; subst. apply restoring_refl. Qed.

Lemma pb_bind {A B} O S (m : M A) (k : A -> M B) : single_inheritance O ->
  puts_back O S m -> (forall a, puts_back O S (k a)) -> puts_back O S (bind m k).
Proof.
  intros SI Hm Hk w w' r E. unfold bind in E. destruct (m w) as [w1 [a|e]] eqn:E1.
  - eapply restoring_trans; [exact SI|eapply Hm, E1|eapply Hk, E].
  - inversion E; subst. eapply Hm, E1.
Qed.

Lemma pb_weaken {A} O S S' (m : M A) : incl S S' -> puts_back O S m -> puts_back O S' m.
Proof.
  intros I H w w' r E. destruct (H _ _ _ E) as (A1 & A2). split; [|exact A2].
  eapply settled_weaken; eauto.
Qed.

Lemma pb_attr {A} O S c a wrap (body : M A) :
  (exists r, mro O c = c :: r) -> (forall x, In (x, a) S -> ~ In c (mro O x)) ->
  puts_back O S body -> puts_back O ((c, a) :: S) (with_attr O c a wrap body).
Proof.
  intros HD OK H w w' r E. unfold with_attr in E.
  destruct (lookup O (pt w) c a) as [orig|] eqn:L; [|inversion E; subst; apply restoring_refl].
  destruct (body _) as [w1 r1] eqn:EB. inversion E; subst. clear E.
  apply H in EB. cbn [pt with_pt] in *. destruct EB as (A1 & A2 & A3 & A4).
  split; [|split; [exact A2|split; [exact A3|exact A4]]].
  intros x b. cbn [own put]. destruct ((x =? c) && (b =? a)) eqn:X.
  - apply andb_prop in X. destruct X as [X1 X2]. apply Nat.eqb_eq in X1, X2. subst x b.
    destruct (own (pt w) c a) as [f|] eqn:EO.
    + left. destruct HD as [q Eq]. unfold lookup in L. rewrite Eq in L. cbn [first_own] in L.
      rewrite EO in L. congruence.
    + right. repeat split; auto. left; reflexivity.
  - destruct (A1 x b) as [E|(I1 & E1 & E2)].
    + left. rewrite E, own_put, X. reflexivity.
    + right. rewrite own_put, X in E1. split; [right; exact I1|]. split; [exact E1|].
      rewrite E2. apply lookup_put_other. intros ->. apply OK, I1.
Qed.

Lemma dget_fresh (d : dict (list nat)) n l : dget d n = Some l -> n <> fresh d.
Proof.
  intros E N. unfold fresh in N. assert (X : In n (map fst d)).
  { clear N. induction d as [|[k v] d IH]; [discriminate|]. cbn in E. cbn [map fst].
    destruct (Nat.eqb_spec n k); [left; auto|right; apply IH, E]. }
  assert (Y : forall l : list nat, In n l -> n <= list_max l).
  { clear. induction l as [|a l IH]; [intros []|]. intros [->|H]; unfold list_max; cbn [fold_right];
      fold (list_max l); [lia|specialize (IH H); lia]. }
  specialize (Y _ X). lia.
Qed.

Lemma pb_ast {A} O S extra (body : M A) : puts_back O S body -> puts_back O S (with_ast extra body).
Proof.
  intros H w w' r E. unfold with_ast in E.
  destruct (dget (lists (pt w)) (ast_at (pt w))) as [l|] eqn:L; [|inversion E; subst; apply restoring_refl].
  destruct (body _) as [w1 r1] eqn:EB. inversion E; subst. clear E.
  apply H in EB. cbn [pt with_pt] in *. destruct EB as (A1 & A2 & A3 & A4).
  split; [exact A1|]. split; [|split; [reflexivity|exact A4]].
  intros n k E. apply A2. cbn [lists]. rewrite dget_dset.
  destruct (Nat.eqb_spec n (fresh (lists (pt w)))) as [->|N]; [|exact E].
  exfalso. eapply dget_fresh; [exact E|reflexivity].
Qed.

Lemma pb_input {A} O S extra (body : M A) : puts_back O S body -> puts_back O S (with_input extra body).
Proof.
  intros H w w' r E. unfold with_input in E.
  destruct (dget (lists (pt w)) (input_at (pt w))) as [l|] eqn:L; [|inversion E; subst; apply restoring_refl].
  destruct (body _) as [w1 r1] eqn:EB. inversion E; subst. clear E.
  apply H in EB. cbn [pt with_pt] in *. destruct EB as (A1 & A2 & A3 & A4).
  split; [exact A1|]. split; [|split; [exact A3|reflexivity]].
  intros n k E. apply A2. cbn [lists]. rewrite dget_dset.
  destruct (Nat.eqb_spec n (fresh (lists (pt w)))) as [->|N]; [|exact E].
  exfalso. eapply dget_fresh; [exact E|reflexivity].
Qed.

Lemma pb_syntax {A} F O S on ts (body : M A) : single_inheritance O ->
  puts_back O S body -> puts_back O S (syntax_context F O on ts body).
Proof.
  intros SI H. unfold syntax_context. destruct (on && negb (is_nil ts)).
  - apply pb_bind; [exact SI|apply pb_point|]. intros _. apply pb_input, H.
  - apply pb_input, H.
Qed.

(** The attributes patched beside those of tracers. *)
Definition places : list (nat * nat) :=
  [(PYC, EXEC); (PYC, EVAL); (BASE, EXEC); (BASE, EVAL); (SHELL, LINE); (SHELL, CELL)].

Lemma pb_inner {A} F O (body : M A) : single_inheritance O -> puts_back O [] body ->
  puts_back O places (patch_exec_eval O (inner_context F O body)).
Proof.
  intros SI H. pose proof SI as (HD & _ & _ & M1 & M2 & M3).
  unfold patch_exec_eval, inner_context, places.
  assert (N : forall c, exists r, mro O c = c :: r) by exact HD.
  apply pb_attr; [apply N| |].
  { intros x Hx. cbn in Hx. unfold PYC, BASE, SHELL, EXEC, EVAL, LINE, CELL in *.
    destruct Hx as [E|[E|[E|[E|[E|[]]]]]]; inversion E; subst; rewrite ?M1, ?M2, ?M3; cbn; lia. }
  apply pb_attr; [apply N| |].
  { intros x Hx. cbn in Hx. unfold PYC, BASE, SHELL, EXEC, EVAL, LINE, CELL in *.
    destruct Hx as [E|[E|[E|[E|[]]]]]; inversion E; subst; rewrite ?M1, ?M2, ?M3; cbn; lia. }
  apply pb_attr; [apply N| |].
  { intros x Hx. cbn in Hx. unfold PYC, BASE, SHELL, EXEC, EVAL, LINE, CELL in *.
    destruct Hx as [E|[E|[E|[]]]]; inversion E. }
  apply pb_attr; [apply N| |].
  { intros x Hx. cbn in Hx. unfold PYC, BASE, SHELL, EXEC, EVAL, LINE, CELL in *.
    destruct Hx as [E|[E|[]]]; inversion E. }
  apply pb_bind; [exact SI|apply pb_point|]. intros _.
  apply pb_attr; [apply N| |].
  { intros x Hx. cbn in Hx. unfold PYC, BASE, SHELL, EXEC, EVAL, LINE, CELL in *.
    destruct Hx as [E|[]]; inversion E. }
  apply pb_attr; [apply N|intros x []|exact H].
Qed.

Definition filter_places (ts : list nat) : list (nat * nat) :=
  flat_map (fun t => [(t, PASSES); (t, CHECKER)]) ts.

Lemma in_filter_places t a ts : In (t, a) (filter_places ts) -> In t ts.
Proof.
  unfold filter_places. rewrite in_flat_map. intros (u & Hu & [E|[E|[]]]); inversion E; subst; exact Hu.
Qed.

Lemma pb_filters {A} O ts (body : M A) : single_inheritance O -> derived_first O ts ->
  puts_back O places body -> puts_back O (filter_places ts ++ places) (with_filters O ts body).
Proof.
  intros SI D H. pose proof SI as (HD & _ & _). induction ts as [|t ts IH].
  - exact H.
  - inversion D as [|? ? FA D']; subst. specialize (IH D'). cbn [with_filters fold_right].
    unfold patch_filters. cbn [filter_places flat_map app]. fold (filter_places ts).
    rewrite Forall_forall in FA.
    assert (NP : forall x a, In (x, a) places -> a = PASSES \/ a = CHECKER -> False).
    { intros x a Hp. unfold places, PASSES, CHECKER, EXEC, EVAL, LINE, CELL in *.
      destruct Hp as [E|[E|[E|[E|[E|[E|[]]]]]]]; inversion E; subst; lia. }
    apply pb_attr; [apply HD| |].
    + intros x [E|Hx]; [inversion E|]. apply in_app_or in Hx. destruct Hx as [Hx|Hx].
      * apply FA. eapply in_filter_places, Hx.
      * exfalso. eapply NP; [exact Hx|auto].
    + apply pb_attr; [apply HD| |exact IH].
      intros x Hx. apply in_app_or in Hx. destruct Hx as [Hx|Hx].
      * apply FA. eapply in_filter_places, Hx.
      * exfalso. eapply NP; [exact Hx|auto].
Qed.

Lemma incl_places ts : incl places (filter_places ts ++ places) /\ @incl (nat * nat) [] (filter_places ts ++ places).
Proof. split; [intros x Hx; apply in_or_app; right; exact Hx|intros x []]. Qed.

Lemma pb_tracing {A} F O only capture syntax (body : M A) w w' r :
  single_inheritance O ->
  derived_first O (with_manager O (wanted O capture (hk w))) ->
  puts_back O [] body ->
  tracing_context F O only capture syntax body w = (w', r) ->
  exists S, restoring O S (pt w) (pt w').
Proof.
  intros SI D H E. unfold tracing_context in E.
  set (ts := with_manager O (wanted O capture (hk w))) in *.
  exists (filter_places ts ++ places).
  destruct (incl_places ts) as [I1 I2].
  destruct only.
  - eapply (pb_syntax F O); [exact SI| |exact E]. eapply pb_weaken; [exact I2|exact H].
  - revert E. apply pb_bind; [exact SI|apply pb_hooks|]. intros _.
    apply pb_bind; [exact SI|apply pb_point|]. intros _.
    apply pb_filters; [exact SI|exact D|].
    apply pb_bind; [exact SI|apply pb_point|]. intros _.
    apply pb_bind; [exact SI|apply pb_hooks|]. intros _.
    apply pb_bind; [exact SI| |].
    + destruct (is_nil ts).
      * eapply pb_weaken; [|exact H]. intros x [].
      * apply pb_bind; [exact SI|apply pb_point|]. intros _.
        apply pb_syntax; [exact SI|]. apply pb_ast. apply pb_inner; assumption.
    + intros x. apply pb_bind; [exact SI| |].
      * destruct (memb (dataflow O) ts); [apply pb_point|apply pb_ret].
      * intros _. apply pb_bind; [exact SI|apply pb_hooks|]. intros _. apply pb_ret.
Qed.

Lemma restoring_looks O S P P' : single_inheritance O -> complete O P -> restoring O S P P' ->
  looks_same O P P'.
Proof.
  intros SI C (A1 & A2 & A3 & A4). split; [apply (settled_lookup _ _ _ _ SI A1)|].
  destruct C as (_ & _ & _ & _ & _ & _ & _ & C1 & C2).
  unfold ast_transformers, input_transformers in *. rewrite A3, A4. split.
  - destruct (dget (lists P) (ast_at P)) eqn:E; [|congruence]. apply A2, E.
  - destruct (dget (lists P) (input_at P)) eqn:E; [|congruence]. apply A2, E.
Qed.

Lemma leaves_pb O cell : leaves_alone cell -> puts_back O [] cell.
Proof.
  intros L w w' r E. destruct (L _ _ _ E) as (A1 & A2 & A3 & A4).
  split; [intros x b; left; apply A1|]. split; [exact A2|]. auto.
Qed.

Lemma pb_inner_run O F cell : single_inheritance O -> leaves_alone cell -> puts_back O [] (inner_run F cell).
Proof.
  intros SI L. unfold inner_run. apply pb_bind; [exact SI|apply pb_point|]. intros _.
  apply pb_bind; [exact SI|apply leaves_pb, L|]. intros x w w' r E. inversion E; subst. apply restoring_refl.
Qed.

Lemma run_restoring F O H cell w w' r :
  single_inheritance O -> derived_first O (tracers_of O H w) -> leaves_alone cell ->
  ipyflow_run_cell F O H cell w = (w', r) -> exists S, restoring O S (pt w) (pt w').
Proof.
  intros SI D L E. unfold ipyflow_run_cell in E. unfold bind at 1 in E. cbn [set_ret] in E.
  unfold bind at 1 in E. unfold at_point at 1 in E.
  destruct (F PBefore) as [e|]; cbn [raise ret] in E.
  { inversion E; subst. cbn [pt]. exists []. apply restoring_refl. }
  unfold bind at 1 in E.
  set (w1 := mkWorld (pt w) (hk w) None (kept w)) in *.
  assert (X : forall w2 r2,
    ((if trace H
      then tracing_context F O (only_syntax H) (negb (capturing H)) (syntax_on H && negb (cell_magic H))
             (inner_run F cell)
      else inner_run F cell) ;;
     (if trace H then at_point F PAfter else ret tt)) w1 = (w2, r2) ->
    exists S, restoring O S (pt w) (pt w2)).
  { intros w2 r2 E2. unfold bind in E2. destruct (trace H).
    - destruct (tracing_context _ _ _ _ _ _ w1) as [wa [a|e]] eqn:ET.
      + pose proof (pb_point O [] F PAfter _ _ _ E2) as (P1 & P2 & P3 & P4).
        apply pb_tracing in ET; [|exact SI|exact D|apply pb_inner_run; assumption].
        destruct ET as [S RS]. exists S. eapply restoring_trans; [exact SI|exact RS|].
        split; [|auto]. eapply settled_weaken; [|exact P1]. intros y [].
      + inversion E2; subst. eapply pb_tracing in ET; eauto. apply pb_inner_run; assumption.
    - destruct (inner_run F cell w1) as [wa [a|e]] eqn:ET; inversion E2; subst;
        apply (pb_inner_run O F cell SI L) in ET; exists []; exact ET. }
  match type of E with context [match ?b w1 with _ => _ end] => destruct (b w1) as [w2 r2] eqn:E2 end.
  destruct (X _ _ eq_refl) as [S RS]. exists S.
  destruct r2 as [u|e].
  - cbn [on_exception] in E. cbn [ret_var] in E. destruct (ret_var w2); inversion E; subst; exact RS.
  - destruct (caught e); [|inversion E; subst; exact RS].
    cbn [on_exception] in E. cbn [ret_var] in E. destruct (ret_var w2); inversion E; subst; exact RS.
Qed.

(** ** Contexts that let the body through *)

Definition grows (P P' : patched) : Prop :=
  (forall c a, own P c a <> None -> own P' c a <> None) /\ lists_kept P P' /\
  ast_at P' = ast_at P /\ input_at P' = input_at P.

Lemma first_own_some own l a : first_own own l a <> None <-> exists c, In c l /\ own c a <> None.
Proof.
  induction l as [|c r IH]; cbn [first_own].
  - split; [congruence|intros (c & [] & _)].
  - destruct (own c a) eqn:E.
    + split; [intros _; exists c; split; [left; reflexivity|congruence]|congruence].
    + rewrite IH. split; intros (d & Hd & N); exists d; (split; [|exact N]).
      * right; exact Hd.
      * destruct Hd as [->|Hd]; [congruence|exact Hd].
Qed.

Lemma grows_lookup O P P' c a : grows P P' -> lookup O P c a <> None -> lookup O P' c a <> None.
Proof.
  intros (G & _) H. unfold lookup in *. rewrite first_own_some in *.
  destruct H as (d & Hd & N). exists d. auto.
Qed.

Lemma grows_complete O P P' : grows P P' -> complete O P -> complete O P'.
Proof.
  intros G (C0 & C1 & C2 & C3 & C4 & C5 & C6 & C7 & C8).
  split; [intros t; destruct (C0 t); split; eapply grows_lookup; eauto|].
  do 6 (split; [eapply grows_lookup; eassumption|]).
  destruct G as (_ & G2 & G3 & G4). unfold ast_transformers, input_transformers in *.
  rewrite G3, G4. split.
  - destruct (dget (lists P) (ast_at P)) eqn:E; [|congruence]. rewrite (G2 _ _ E). congruence.
  - destruct (dget (lists P) (input_at P)) eqn:E; [|congruence]. rewrite (G2 _ _ E). congruence.
Qed.

Definition same_rest (w w' : world) : Prop := hk w' = hk w /\ ret_var w' = ret_var w /\ kept w' = kept w.

(** A context: in a complete world the body is reached, with the rest of the world
    as it was, and what the body does to the rest is what the whole does to it. *)
Definition thru (O : outside) (w w_in : world) (m : forall A, M A -> M A) : Prop :=
  same_rest w w_in /\ complete O (pt w_in) /\
  forall A (body : M A) w_out r, body w_in = (w_out, r) -> grows (pt w_in) (pt w_out) ->
    exists w', m A body w = (w', r) /\ same_rest w_out w' /\ grows (pt w) (pt w').

Lemma same_rest_refl w : same_rest w w.
Proof. repeat split. Qed.

Lemma same_rest_trans a b c : same_rest a b -> same_rest b c -> same_rest a c.
Proof. intros (A1 & A2 & A3) (B1 & B2 & B3). repeat split; congruence. Qed.

Lemma thru_comp O w w1 w2 m1 m2 : thru O w w1 m1 -> thru O w1 w2 m2 ->
  thru O w w2 (fun A b => m1 A (m2 A b)).
Proof.
  intros (A1 & A2 & A3) (B1 & B2 & B3). split; [eapply same_rest_trans; eauto|].
  split; [exact B2|]. intros A body wo r E G.
  destruct (B3 A body wo r E G) as (wb & Eb & Rb & Gb).
  destruct (A3 A _ wb r Eb Gb) as (wa & Ea & Ra & Ga).
  exists wa. split; [exact Ea|]. split; [eapply same_rest_trans; eauto|exact Ga].
Qed.

Lemma thru_id O w : complete O (pt w) -> thru O w w (fun A b => b).
Proof.
  intros C. split; [apply same_rest_refl|]. split; [exact C|].
  intros A body wo r E G. exists wo. split; [exact E|]. split; [apply same_rest_refl|exact G].
Qed.

Lemma grows_put P c a f : grows P (put P c a f).
Proof.
  split; [|split; [intros n l H; exact H|split; reflexivity]].
  intros x b H. rewrite own_put. destruct ((x =? c) && (b =? a)); [congruence|exact H].
Qed.

Lemma grows_trans P P1 P2 : grows P P1 -> grows P1 P2 -> grows P P2.
Proof.
  intros (A1 & A2 & A3 & A4) (B1 & B2 & B3 & B4).
  split; [auto|]. split; [intros n l H; auto|]. split; congruence.
Qed.

Lemma thru_attr O w c a wrap : complete O (pt w) -> lookup O (pt w) c a <> None ->
  exists w1, thru O w w1 (fun A => with_attr O c a wrap).
Proof.
  intros C L. destruct (lookup O (pt w) c a) as [orig|] eqn:E; [|congruence].
  exists (with_pt w (put (pt w) c a (wrap orig))).
  split; [repeat split|]. split; [eapply grows_complete; [apply grows_put|exact C]|].
  intros A body wo r EB G. exists (with_pt wo (put (pt wo) c a orig)).
  unfold with_attr. rewrite E, EB. split; [reflexivity|]. split; [repeat split|].
  cbn [pt with_pt] in *. eapply grows_trans; [apply grows_put|].
  eapply grows_trans; [exact G|apply grows_put].
Qed.

Lemma thru_ast O w extra : complete O (pt w) -> exists w1, thru O w w1 (fun A => with_ast extra).
Proof.
  intros C. pose proof C as (_ & _ & _ & _ & _ & _ & _ & C7 & C8).
  unfold ast_transformers, input_transformers in *.
  destruct (dget (lists (pt w)) (ast_at (pt w))) as [l|] eqn:E; [|congruence].
  destruct (dget (lists (pt w)) (input_at (pt w))) as [li|] eqn:Ei; [|congruence].
  eexists. split; [|split].
  3:{ intros A body wo r EB G. unfold with_ast. rewrite E. rewrite EB. eexists. split; [reflexivity|].
      split; [repeat split|]. cbn [pt with_pt] in *. destruct G as (G1 & G2 & G3 & G4).
      split; [exact G1|]. split; [|split; [reflexivity|exact G4]].
      intros n k En. apply G2. cbn [lists]. rewrite dget_dset.
      destruct (Nat.eqb_spec n (fresh (lists (pt w)))) as [->|N]; [|exact En].
      exfalso. eapply dget_fresh; [exact En|reflexivity]. }
  - repeat split.
  - cbn [pt with_pt]. destruct C as (D0 & D1 & D2 & D3 & D4 & D5 & D6 & _).
    do 7 (split; [assumption|]). unfold ast_transformers, input_transformers.
    cbn [lists ast_at input_at]. rewrite !dget_dset, Nat.eqb_refl. split; [congruence|].
    destruct (input_at (pt w) =? fresh (lists (pt w))); congruence.
Qed.

Lemma thru_input O w extra : complete O (pt w) -> exists w1, thru O w w1 (fun A => with_input extra).
Proof.
  intros C. pose proof C as (_ & _ & _ & _ & _ & _ & _ & C7 & C8).
  unfold ast_transformers, input_transformers in *.
  destruct (dget (lists (pt w)) (ast_at (pt w))) as [l|] eqn:E; [|congruence].
  destruct (dget (lists (pt w)) (input_at (pt w))) as [li|] eqn:Ei; [|congruence].
  eexists. split; [|split].
  3:{ intros A body wo r EB G. unfold with_input. rewrite Ei. rewrite EB. eexists. split; [reflexivity|].
      split; [repeat split|]. cbn [pt with_pt] in *. destruct G as (G1 & G2 & G3 & G4).
      split; [exact G1|]. split; [|split; [exact G3|reflexivity]].
      intros n k En. apply G2. cbn [lists]. rewrite dget_dset.
      destruct (Nat.eqb_spec n (fresh (lists (pt w)))) as [->|N]; [|exact En].
      exfalso. eapply dget_fresh; [exact En|reflexivity]. }
  - repeat split.
  - cbn [pt with_pt]. destruct C as (D0 & D1 & D2 & D3 & D4 & D5 & D6 & _).
    do 7 (split; [assumption|]). unfold ast_transformers, input_transformers.
    cbn [lists ast_at input_at]. rewrite !dget_dset, Nat.eqb_refl. split; [|congruence].
    destruct (ast_at (pt w) =? fresh (lists (pt w))); congruence.
Qed.

Lemma thru_filters O ts : forall w, complete O (pt w) ->
  exists w1, thru O w w1 (fun A => with_filters O ts).
Proof.
  induction ts as [|t ts IH]; intros w C.
  - exists w. apply thru_id, C.
  - destruct (thru_attr O w t PASSES
      (fun f => if negb (is_manager O t) || (t =? dataflow O) then Guarded t f else f) C) as (w1 & T1);
      [apply (proj1 C)|].
    pose proof T1 as (_ & C1 & _).
    destruct (thru_attr O w1 t CHECKER (Guarded t) C1) as (w2 & T2); [apply (proj1 C1)|].
    pose proof T2 as (_ & C2 & _). destruct (IH w2 C2) as (w3 & T3).
    exists w3. exact (thru_comp _ _ _ _ _ _ T1 (thru_comp _ _ _ _ _ _ T2 T3)).
Qed.

(** Points that do not raise. *)
Definition calm (F : faults) (p : point) : Prop := F p = None.

Lemma thru_point O w F p : complete O (pt w) -> calm F p -> thru O w w (fun A b => at_point F p ;; b).
Proof.
  intros C E. split; [apply same_rest_refl|]. split; [exact C|].
  intros A body wo r EB G. exists wo. unfold bind, at_point. rewrite E. cbn [ret].
  split; [exact EB|]. split; [apply same_rest_refl|exact G].
Qed.

Lemma thru_inner O w F : complete O (pt w) -> calm F PVirtual ->
  exists w1, thru O w w1 (fun A b => patch_exec_eval O (inner_context F O b)).
Proof.
  intros C E. unfold patch_exec_eval, inner_context.
  destruct (thru_attr O w PYC EXEC Paused C) as (w1 & T1); [apply C|]. pose proof T1 as (_ & C1 & _).
  destruct (thru_attr O w1 PYC EVAL Paused C1) as (w2 & T2); [apply C1|]. pose proof T2 as (_ & C2 & _).
  destruct (thru_attr O w2 BASE EXEC Paused C2) as (w3 & T3); [apply C2|]. pose proof T3 as (_ & C3 & _).
  destruct (thru_attr O w3 BASE EVAL Paused C3) as (w4 & T4); [apply C3|]. pose proof T4 as (_ & C4 & _).
  pose proof (thru_point O w4 F PVirtual C4 E) as T5.
  destruct (thru_attr O w4 SHELL LINE Paused C4) as (w6 & T6); [apply C4|]. pose proof T6 as (_ & C6 & _).
  destruct (thru_attr O w6 SHELL CELL Paused C6) as (w7 & T7); [apply C6|].
  exists w7.
  exact (thru_comp _ _ _ _ _ _ T1 (thru_comp _ _ _ _ _ _ T2 (thru_comp _ _ _ _ _ _ T3
    (thru_comp _ _ _ _ _ _ T4 (thru_comp _ _ _ _ _ _ T5 (thru_comp _ _ _ _ _ _ T6 T7)))))).
Qed.

Lemma thru_syntax O w F on ts : complete O (pt w) -> calm F PRewriter ->
  exists w1, thru O w w1 (fun A => syntax_context F O on ts).
Proof.
  intros C E. unfold syntax_context. destruct (on && negb (is_nil ts)).
  - destruct (thru_input O w (map (augmenter O) ts) C) as (w1 & T1). exists w1.
    exact (thru_comp _ _ _ _ _ _ (thru_point O w F PRewriter C E) T1).
  - apply thru_input, C.
Qed.

(** The middle of the tracing context, 303-321. *)
Definition middle (F : faults) (O : outside) (syntax : bool) (ts : list nat) (A : Type) (body : M A) : M A :=
  if is_nil ts then body
  else at_point F PRewriter ;;
       syntax_context F O syntax ts
         (with_ast [rewriter O] (patch_exec_eval O (inner_context F O body))).

Lemma thru_middle O w F syntax ts : complete O (pt w) -> calm F PRewriter -> calm F PVirtual ->
  exists w1, thru O w w1 (middle F O syntax ts).
Proof.
  intros C E1 E2. unfold middle. destruct (is_nil ts); [exists w; apply thru_id, C|].
  pose proof (thru_point O w F PRewriter C E1) as T0.
  destruct (thru_syntax O w F syntax ts C E1) as (w1 & T1). pose proof T1 as (_ & C1 & _).
  destruct (thru_ast O w1 [rewriter O] C1) as (w2 & T2). pose proof T2 as (_ & C2 & _).
  destruct (thru_inner O w2 F C2 E2) as (w3 & T3). exists w3.
  exact (thru_comp _ _ _ _ _ _ T0 (thru_comp _ _ _ _ _ _ T1 (thru_comp _ _ _ _ _ _ T2 T3))).
Qed.

(** ** The whole context *)

Definition switched_on (ts : list nat) (h : hooks) : hooks :=
  let h1 := restore_meta h in
  if is_nil (callbacks h1) then first_time h1 ts else fold_left enable ts h1.

Definition taken_down (ts : list nat) (h : hooks) : hooks :=
  if pending h then cleanup_tracers h else save_meta (fold_left disable (rev ts) h).

(** What comes of the body's result, and of the hooks as the body left them. *)
Definition ended {A} (F : faults) (O : outside) (ts : list nat) (r : out A) (h : hooks) : out A * hooks :=
  match r with
  | Raised e => (Raised e, h)
  | Done x =>
      match (if memb (dataflow O) ts then F PFinish else None) with
      | Some e => (Raised e, h)
      | None => (Done x, taken_down ts h)
      end
  end.

Lemma tracing_thru F O capture syntax w :
  complete O (pt w) -> calm F PReset -> calm F PEnable -> calm F PRewriter -> calm F PVirtual ->
  let ts := with_manager O (wanted O capture (hk w)) in
  exists d, hk d = switched_on ts (hk w) /\ ret_var d = ret_var w /\ kept d = kept w /\
    complete O (pt d) /\
    forall A (body : M A) w_out r, body d = (w_out, r) -> grows (pt d) (pt w_out) ->
      exists w', tracing_context F O false capture syntax body w = (w', fst (ended F O ts r (hk w_out))) /\
        hk w' = snd (ended F O ts r (hk w_out)) /\
        ret_var w' = ret_var w_out /\ kept w' = kept w_out /\ grows (pt w) (pt w').
Proof.
  intros C R1 R2 R3 R4 ts.
  set (w1 := mkWorld (pt w) (restore_meta (hk w)) (ret_var w) (kept w)).
  destruct (thru_filters O ts w1 C) as (wf & (F1 & F2 & F3) & CF & TF).
  set (we := mkWorld (pt wf) (switched_on ts (hk w)) (ret_var wf) (kept wf)).
  destruct (thru_middle O we F syntax ts CF R3 R4) as (d & (D1 & D2 & D3) & CD & TD).
  exists d. split; [exact D1|]. split; [rewrite D2; cbn; rewrite F2; reflexivity|].
  split; [rewrite D3; cbn; rewrite F3; reflexivity|]. split; [exact CD|].
  intros A body wo r EB G.
  destruct (TD A body wo r EB G) as (wm & EM & (M1 & M2 & M3) & GM).
  set (B := at_point F PEnable ;;
        on_hooks (fun h => if is_nil (callbacks h) then first_time h ts else fold_left enable ts h) ;;
        x <- (if is_nil ts then body
              else at_point F PRewriter ;;
                   syntax_context F O syntax ts
                     (with_ast [rewriter O] (patch_exec_eval O (inner_context F O body)))) ;;
        (if memb (dataflow O) ts then at_point F PFinish else ret tt) ;;
        on_hooks (fun h => if pending h then cleanup_tracers h
                           else save_meta (fold_left disable (rev ts) h)) ;;
        ret x).
  assert (EBf : exists wb, B wf = (wb, fst (ended F O ts r (hk wo))) /\
            hk wb = snd (ended F O ts r (hk wo)) /\ ret_var wb = ret_var wo /\ kept wb = kept wo /\
            grows (pt wf) (pt wb)).
  { unfold B. unfold bind at 1, at_point at 1. rewrite R2. cbn [ret].
    unfold bind at 1, on_hooks at 1.
    assert (EW : mkWorld (pt wf) ((fun h => if is_nil (callbacks h) then first_time h ts else fold_left enable ts h) (hk wf))
              (ret_var wf) (kept wf) = we).
    { unfold we, switched_on. cbv beta. rewrite F1. reflexivity. }
    rewrite EW. unfold bind at 1. fold (middle F O syntax ts A body). rewrite EM.
    destruct r as [x|e].
    2:{ exists wm. cbn [ended fst snd]. repeat split; auto; apply GM. }
    cbn [ended]. unfold bind at 1.
    destruct (memb (dataflow O) ts).
    - unfold at_point at 1. destruct (F PFinish) as [e|].
      + cbn [raise]. exists wm. cbn [fst snd]. repeat split; auto; apply GM.
      + cbn [ret]. unfold bind, on_hooks, ret. eexists. split; [reflexivity|].
        cbn [fst snd hk ret_var kept pt]. rewrite M1. repeat split; auto; apply GM.
    - cbn [ret]. unfold bind, on_hooks, ret. eexists. split; [reflexivity|].
      cbn [fst snd hk ret_var kept pt]. rewrite M1. repeat split; auto; apply GM. }
  destruct EBf as (wb & EBf & H1 & H2 & H3 & GB).
  destruct (TF A B wb _ EBf GB) as (w' & E' & (S1 & S2 & S3) & G').
  exists w'. split; [|repeat split; try congruence; apply G'].
  unfold tracing_context. fold ts. unfold bind at 1, on_hooks at 1.
  fold w1. unfold bind at 1, at_point at 1. rewrite R1. cbn [ret]. exact E'.
Qed.

(** ** What becomes of hooks *)

Lemma rev_push {A} (l m : list A) : fold_left (fun m e => e :: m) (rev l) m = l ++ m.
Proof.
  assert (X : forall l m : list A, fold_left (fun m e => e :: m) l m = rev l ++ m).
  { clear. induction l as [|a l IH]; intros m; [reflexivity|]. cbn. rewrite IH, <- app_assoc. reflexivity. }
  rewrite X, rev_involutive. reflexivity.
Qed.

Lemma restore_meta_eq h : restore_meta h =
  mkHooks (saved h ++ meta h) [] (enabled h) (callbacks h) (pending h) (registered h) (made h).
Proof. unfold restore_meta. rewrite rev_push. reflexivity. Qed.

Lemma fold_enable ts : forall h, fold_left enable ts h =
  mkHooks (meta h) (saved h) (fold_left (fun l t => sadd t l) ts (enabled h)) (callbacks h)
    (pending h) (registered h) (made h).
Proof.
  induction ts as [|t ts IH]; intros h; [destruct h; reflexivity|]. cbn [fold_left].
  rewrite IH. reflexivity.
Qed.

Lemma fold_sadd ts : forall l x, In x (fold_left (fun l t => sadd t l) ts l) <-> In x ts \/ In x l.
Proof.
  induction ts as [|t ts IH]; intros l x; cbn [fold_left].
  - split; [auto|intros [[]|H]; exact H].
  - rewrite IH, In_sadd. split; [intros [H|[H|H]]; auto using in_cons|intros [[H|H]|H]; auto].
    subst. left; left; reflexivity.
Qed.

(** Callbacks of one switching on: one for each tracer, and the entry they take off. *)
Definition covers (f : nat) (ts : list nat) (cbs : list (nat * option nat)) : Prop :=
  map fst cbs = ts /\ (forall t n, In (t, Some n) cbs -> n = f) /\ (exists t, In (t, Some f) cbs).

Lemma first_time_eq ts : forall h, ts <> [] ->
  exists cbs, covers (made h) ts cbs /\
  first_time h ts = mkHooks (Finder (made h) :: meta h) (saved h)
    (fold_left (fun l t => sadd t l) ts (enabled h)) (callbacks h ++ cbs) (pending h) (registered h) (S (made h)).
Proof.
  induction ts as [|t ts IH]; intros h N; [congruence|]. cbn [first_time].
  destruct ts as [|u ts].
  - exists [(t, Some (made h))]. split.
    + split; [reflexivity|]. split; [|exists t; left; reflexivity].
      intros t' n [E|[]]. inversion E. reflexivity.
    + reflexivity.
  - destruct (IH (non_context h t false)) as (cbs & (C1 & C2 & C3) & E); [discriminate|].
    cbn [is_nil]. rewrite E. exists ((t, None) :: cbs). split.
    + split; [cbn; f_equal; exact C1|]. split.
      * intros t' n [H|H]; [inversion H|]. eapply C2, H.
      * destruct C3 as [t' H]. exists t'. right. exact H.
    + cbn [non_context enable meta saved enabled callbacks pending registered made].
      rewrite <- app_assoc. reflexivity.
Qed.

(** While a cell is run. *)
Definition running (ts : list nat) (fs m : list entry) (h : hooks) : Prop :=
  meta h = fs ++ m /\ saved h = [] /\ (forall t, In t (enabled h) <-> In t ts) /\
  ((ts = [] /\ fs = [] /\ callbacks h = []) \/
   (ts <> [] /\ exists f, fs = [Finder f] /\ covers f ts (callbacks h))).

(** Between runs. *)
Definition resting (O : outside) (h : hooks) : Prop :=
  foreign (meta h) /\ enabled h = [] /\
  ((callbacks h = [] /\ saved h = []) \/
   (exists f, pending h = false /\ saved h = [Finder f] /\ callbacks h <> [] /\
      covers f (with_manager O (wanted O true h)) (callbacks h))).

Lemma switched_on_running O h : resting O h ->
  let ts := with_manager O (wanted O true h) in
  exists fs, running ts fs (meta h) (switched_on ts h) /\
    pending (switched_on ts h) = pending h /\ registered (switched_on ts h) = registered h.
Proof.
  intros (FM & EN & CB) ts. unfold switched_on. rewrite restore_meta_eq. cbn [callbacks].
  destruct CB as [[CB SV]|(f & PE & SV & CB & CV)].
  - rewrite CB, SV, EN. cbn [is_nil app].
    destruct ts as [|t r] eqn:ET.
    + exists []. cbn [first_time]. unfold running. cbn. intuition.
    + destruct (first_time_eq (t :: r) (mkHooks (meta h) [] [] [] (pending h) (registered h) (made h)))
        as (cbs & CV & E); [discriminate|].
      rewrite E. exists [Finder (made h)]. unfold running.
      cbn [meta saved enabled callbacks pending registered made app].
      split; [|auto]. split; [reflexivity|]. split; [reflexivity|]. split.
      * intros x. rewrite fold_sadd. cbn. tauto.
      * right. split; [discriminate|]. exists (made h). auto.
  - destruct (callbacks h) as [|c0 cr] eqn:EC; [congruence|]. cbn [is_nil].
    rewrite fold_enable. exists [Finder f]. unfold running.
    cbn [meta saved enabled callbacks pending registered made]. rewrite SV, EN.
    split; [|auto]. split; [reflexivity|]. split; [reflexivity|]. split.
    + intros x. rewrite fold_sadd. cbn. tauto.
    + right. split; [|exists f; auto]. destruct CV as (C1 & _). fold ts in C1. rewrite <- C1. discriminate.
Qed.

Lemma fold_disable ts : forall h, fold_left disable ts h =
  mkHooks (meta h) (saved h) (fold_left (fun l t => remove Nat.eq_dec t l) ts (enabled h)) (callbacks h)
    (pending h) (registered h) (made h).
Proof.
  induction ts as [|t ts IH]; intros h; [destruct h; reflexivity|]. cbn [fold_left].
  rewrite IH. reflexivity.
Qed.

Lemma fold_remove ts : forall l x,
  In x (fold_left (fun l t => remove Nat.eq_dec t l) ts l) -> In x l /\ ~ In x ts.
Proof.
  induction ts as [|t ts IH]; intros l x H; cbn [fold_left] in H; [split; [exact H|intros []]|].
  apply IH in H. destruct H as [H N]. apply in_remove in H. destruct H as [H T].
  split; [exact H|]. intros [E|E]; [congruence|contradiction].
Qed.

Lemma filter_twice {A} (f g : A -> bool) l : filter g (filter f l) = filter (fun x => f x && g x) l.
Proof.
  induction l as [|a l IH]; [reflexivity|]. cbn. destruct (f a); cbn; rewrite IH; reflexivity.
Qed.

Lemma filter_all {A} (f : A -> bool) l : (forall x, In x l -> f x = true) -> filter f l = l.
Proof.
  induction l as [|a l IH]; intros H; [reflexivity|]. cbn. rewrite (H a (or_introl eq_refl)).
  f_equal. apply IH. intros x Hx. apply H. right; exact Hx.
Qed.

Lemma fold_callbacks cbs : forall h, fold_left run_callback cbs h =
  mkHooks (filter (fun e => negb (existsb (fun cb => match snd cb with Some n => entry_eqb e (Finder n) | None => false end) cbs)) (meta h))
    (saved h) (fold_left (fun l t => remove Nat.eq_dec t l) (map fst cbs) (enabled h)) (callbacks h)
    (pending h) (registered h) (made h).
Proof.
  induction cbs as [|[t o] cbs IH]; intros h; cbn [fold_left map fst existsb].
  - rewrite filter_all by reflexivity. destruct h; reflexivity.
  - rewrite IH. unfold run_callback. cbn [fst snd]. destruct o as [n|]; cbn [meta saved enabled callbacks pending registered made disable].
    + f_equal. rewrite filter_twice. apply filter_ext. intros e. rewrite negb_orb. reflexivity.
    + f_equal.
Qed.

Lemma no_members {A} (l : list A) : (forall x, ~ In x l) -> l = [].
Proof. destruct l as [|a l]; [reflexivity|]. intros H. exfalso. apply (H a). left; reflexivity. Qed.

Lemma put_aside_eq fs m : forall s, (forall e, In e fs -> is_finder e = true) -> foreign m ->
  put_aside (fs ++ m) s = (m, s ++ fs).
Proof.
  induction fs as [|e fs IH]; intros s F M; cbn [app].
  - rewrite app_nil_r. destruct m as [|e m]; [reflexivity|]. cbn [put_aside].
    rewrite (M e (or_introl eq_refl)). reflexivity.
  - cbn [put_aside]. rewrite (F e (or_introl eq_refl)), IH; [rewrite <- app_assoc; reflexivity| |exact M].
    intros x Hx. apply F. right; exact Hx.
Qed.

Lemma running_finders ts fs m h : running ts fs m h -> forall e, In e fs -> is_finder e = true.
Proof.
  intros (_ & _ & _ & [(_ & -> & _)|(_ & f & -> & _)]) e; [intros []|intros [<-|[]]; reflexivity].
Qed.

Lemma taken_down_resting O ts fs m h :
  running ts fs m h -> foreign m ->
  (pending h = true \/ ts = with_manager O (wanted O true h)) ->
  resting O (taken_down ts h) /\ meta (taken_down ts h) = m.
Proof.
  intros R FM PE. pose proof (running_finders _ _ _ _ R) as FF.
  destruct R as (EM & ES & EN & CS). unfold taken_down. destruct (pending h) eqn:EP.
  - unfold cleanup_tracers. rewrite restore_meta_eq, ES. cbn [callbacks app].
    rewrite fold_callbacks. cbn [meta saved enabled callbacks pending registered made].
    assert (MM : filter (fun e => negb (existsb (fun cb => match snd cb with
                   | Some n => entry_eqb e (Finder n) | None => false end) (rev (callbacks h)))) (meta h) = m).
    { rewrite EM. destruct CS as [(_ & -> & EC)|(_ & f & -> & C1 & C2 & t & C3)].
      - cbn [app]. rewrite EC. apply filter_all. reflexivity.
      - cbn [app filter].
        assert (X : existsb (fun cb => match snd cb with Some n => entry_eqb (Finder f) (Finder n)
                      | None => false end) (rev (callbacks h)) = true).
        { apply existsb_exists. exists (t, Some f). split; [apply -> in_rev; exact C3|].
          cbn. apply Nat.eqb_refl. }
        rewrite X. clear X. cbn [negb]. apply filter_all. intros e He. apply negb_true_iff.
        apply not_true_is_false. intros Y. apply existsb_exists in Y.
        destruct Y as ([t' o] & _ & Y). cbn in Y. destruct o as [n|]; [|discriminate].
        specialize (FM e He). destruct e; cbn in *; congruence. }
    rewrite MM. split; [|reflexivity]. split; [exact FM|]. split; [|left; auto].
    cbn [enabled]. apply no_members. intros x Hx. apply fold_remove in Hx. destruct Hx as [Hx N].
    apply N. rewrite map_rev. apply -> in_rev. apply EN in Hx.
    destruct CS as [(-> & _)|(_ & f & _ & C1 & _)]; [destruct Hx|rewrite C1; exact Hx].
  - destruct PE as [PE|PE]; [discriminate|].
    rewrite fold_disable. unfold save_meta. cbn [meta saved enabled callbacks pending registered made].
    rewrite EM, ES, (put_aside_eq fs m [] FF FM). cbn [meta app]. split; [|reflexivity].
    split; [exact FM|]. cbn [enabled callbacks saved pending]. split.
    + apply no_members. intros x Hx. apply fold_remove in Hx. destruct Hx as [Hx N].
      apply N. apply -> in_rev. apply EN, Hx.
    + destruct CS as [(E1 & -> & EC)|(N & f & -> & CV)]; [left; auto|right].
      exists f. split; [exact EP|]. split; [reflexivity|]. destruct CV as (C1 & C2 & C3). split.
      * intros X. rewrite X in C1. cbn in C1. congruence.
      * split; [|auto]. unfold wanted. cbn [registered]. unfold wanted in PE. rewrite <- PE. exact C1.
Qed.

(** ** Runs *)

Lemma untouched_grows P P' : untouched P P' -> grows P P'.
Proof.
  intros (A1 & A2 & A3 & A4). split; [intros c a H; rewrite A1; exact H|]. auto.
Qed.

(** A run in which nothing but the hooks after the cell may raise. *)
Lemma run_reaches F O H cell w :
  complete O (pt w) -> trace H = true -> only_syntax H = false ->
  calm F PBefore -> calm F PReset -> calm F PEnable -> calm F PRewriter -> calm F PVirtual -> calm F PCurrent ->
  exists d,
    hk d = switched_on (tracers_of O H w) (hk w) /\ complete O (pt d) /\
    (forall A (body : M A) wo r, body d = (wo, r) -> grows (pt d) (pt wo) ->
       exists w', tracing_context F O false (negb (capturing H)) (syntax_on H && negb (cell_magic H)) body (begun w)
                  = (w', fst (ended F O (tracers_of O H w) r (hk wo)))) /\
    forall wo x, cell d = (wo, Done x) -> grows (pt d) (pt wo) ->
      exists w' r', ipyflow_run_cell F O H cell w = (w', r') /\ grows (pt w) (pt w') /\
        hk w' = snd (ended F O (tracers_of O H w) (Done x) (hk wo)) /\
        match (match fst (ended F O (tracers_of O H w) (Done x) (hk wo)) with Raised e => Some e | Done _ => F PAfter end) with
        | None => r' = Done x /\ kept w' = None
        | Some e => if caught e then r' = Done x /\ kept w' = Some e else r' = Raised e
        end.
Proof.
  intros C HT HO R0 R1 R2 R3 R4 R5.
  destruct (tracing_thru F O (negb (capturing H)) (syntax_on H && negb (cell_magic H)) (begun w)
              C R1 R2 R3 R4) as (d & D1 & D2 & D3 & CD & TD).
  fold (tracers_of O H (begun w)) in *. change (tracers_of O H (begun w)) with (tracers_of O H w) in *.
  exists d. split; [exact D1|]. split; [exact CD|]. split.
  { intros A body wo r EB G. destruct (TD A body wo r EB G) as (w' & E & _). exists w'. exact E. }
  intros wo x EC G.
  set (wr := mkWorld (pt wo) (hk wo) (Some x) (kept wo)).
  assert (EI : inner_run F cell d = (wr, Done tt)).
  { unfold inner_run, bind, at_point. rewrite R5. cbn [ret]. rewrite EC. reflexivity. }
  destruct (TD unit (inner_run F cell) wr (Done tt) EI G) as (w' & E & H1 & H2 & H3 & GW).
  assert (EQ : forall A B (a : A) (b : B), snd (ended F O (tracers_of O H w) (Done a) (hk wo)) =
                 snd (ended F O (tracers_of O H w) (Done b) (hk wo))).
  { intros. cbn [ended]. destruct (if memb _ _ then _ else _); reflexivity. }
  assert (ER : match fst (ended F O (tracers_of O H w) (Done x) (hk wo)) with Raised e => Some e | Done _ => None end
             = match fst (ended F O (tracers_of O H w) (Done tt) (hk wo)) with Raised e => Some e | Done _ => None end).
  { cbn [ended]. destruct (if memb _ _ then _ else _); reflexivity. }
  unfold ipyflow_run_cell. unfold bind at 1. cbn [set_ret]. fold (begun w).
  unfold bind at 1, at_point at 1. rewrite R0. cbn [ret].
  rewrite HT, HO. unfold bind at 1. unfold bind at 1. rewrite E. cbn [hk wr] in *.
  destruct (fst (ended F O (tracers_of O H w) (Done tt) (hk wo))) as [u|e] eqn:E1.
  - destruct (fst (ended F O (tracers_of O H w) (Done x) (hk wo))) as [y|e2]; [|discriminate].
    unfold at_point. destruct (F PAfter) as [e|]; cbn [raise ret].
    + destruct (caught e).
      * cbn [on_exception ret_var]. rewrite H2. cbn [ret_var wr]. do 2 eexists. split; [reflexivity|].
        cbn [pt hk kept]. rewrite H1. auto.
      * do 2 eexists. split; [reflexivity|]. rewrite H1. auto.
    + cbn [on_exception ret_var]. rewrite H2. cbn [ret_var wr]. do 2 eexists. split; [reflexivity|].
      cbn [pt hk kept]. rewrite H1. auto.
  - destruct (fst (ended F O (tracers_of O H w) (Done x) (hk wo))) as [y|e2]; [discriminate|].
    inversion ER; subst e2. destruct (caught e).
    + cbn [on_exception ret_var]. rewrite H2. cbn [ret_var wr]. do 2 eexists. split; [reflexivity|].
      cbn [pt hk kept]. rewrite H1. auto.
    + do 2 eexists. split; [reflexivity|]. rewrite H1. auto.
Qed.

(** ** What a cell sees of the filters *)

Definition guards (O : outside) (P0 P : patched) (t : nat) : Prop :=
  (exists g, lookup O P0 t CHECKER = Some g /\ own P t CHECKER = Some (Guarded t g)) /\
  (negb (is_manager O t) || (t =? dataflow O) = true ->
   exists g, lookup O P0 t PASSES = Some g /\ own P t PASSES = Some (Guarded t g)).

Lemma attr_inv {A} O c a wrap (body : M A) w w' d :
  with_attr O c a wrap body w = (w', Done d) ->
  exists orig w1, lookup O (pt w) c a = Some orig /\
    body (with_pt w (put (pt w) c a (wrap orig))) = (w1, Done d).
Proof.
  unfold with_attr. destruct (lookup O (pt w) c a) as [orig|]; [|discriminate].
  destruct (body _) as [w1 r] eqn:E. intros X. inversion X; subst. eauto.
Qed.

Lemma bind_inv {A B} (m : M A) (k : A -> M B) w w' d : bind m k w = (w', Done d) ->
  exists a w1, m w = (w1, Done a) /\ k a w1 = (w', Done d).
Proof.
  unfold bind. destruct (m w) as [w1 [a|e]]; [eauto|discriminate].
Qed.

Lemma ForallOrdPairs_tail {A} (R : A -> A -> Prop) a l : ForallOrdPairs R (a :: l) ->
  (forall b, In b l -> R a b) /\ ForallOrdPairs R l.
Proof. intros H. inversion H as [|? ? F T]; subst. rewrite Forall_forall in F. auto. Qed.

Lemma filters_inv {A} O P0 (body : M A) : forall ts don w w' d,
  derived_first O ts -> (forall t u, In t don -> In u ts -> ~ In t (mro O u)) ->
  (forall x, exists r, mro O x = x :: r) ->
  (forall u a, In u ts -> lookup O (pt w) u a = lookup O P0 u a) ->
  (forall t, In t don -> guards O P0 (pt w) t) ->
  with_filters O ts body w = (w', Done d) ->
  exists w1 w2, body w1 = (w2, Done d) /\ hk w1 = hk w /\ forall t, In t (don ++ ts) -> guards O P0 (pt w1) t.
Proof.
  induction ts as [|t ts IH]; intros don w w' d D X HD L G E.
  - exists w, w'. rewrite app_nil_r. auto.
  - apply ForallOrdPairs_tail in D. destruct D as [D1 D2]. cbn [with_filters fold_right] in E.
    unfold patch_filters in E. apply attr_inv in E. destruct E as (o1 & w1 & L1 & E).
    apply attr_inv in E. destruct E as (o2 & w2 & L2 & E). cbn [pt with_pt] in *.
    rewrite L in L1 by (left; reflexivity).
    rewrite lookup_put_other in L2 by (unfold CHECKER, PASSES; lia).
    rewrite L in L2 by (left; reflexivity).
    assert (NT : ~ In t don).
    { intros Hd. apply (X t t Hd (or_introl eq_refl)). destruct (HD t) as [r ->]. left; reflexivity. }
    match type of E with fold_right _ _ _ ?w0 = _ => set (wn := w0) in * end.
    assert (GO : forall u, u <> t -> guards O P0 (pt w) u -> guards O P0 (pt wn) u).
    { intros u N [(g & G1 & G2) G3]. unfold wn. cbn [pt with_pt].
      split.
      - exists g. split; [exact G1|]. rewrite !own_put. rewrite (proj2 (Nat.eqb_neq u t) N). exact G2.
      - intros K. destruct (G3 K) as (g' & G4 & G5). exists g'. split; [exact G4|].
        rewrite !own_put. rewrite (proj2 (Nat.eqb_neq u t) N). exact G5. }
    destruct (IH (don ++ [t]) wn w2 d D2) as (wa & wb & EA & EH & GA); try assumption.
    + intros u v Hu Hv. apply in_app_or in Hu. destruct Hu as [Hu|[<-|[]]].
      * apply X; [exact Hu|right; exact Hv].
      * apply D1, Hv.
    + intros u a Hu. unfold wn. cbn [pt with_pt].
      rewrite !lookup_put_other by (intros _; apply D1, Hu). apply L. right; exact Hu.
    + intros u Hu. apply in_app_or in Hu. destruct Hu as [Hu|[<-|[]]].
      * apply GO; [|apply G, Hu]. intros ->. contradiction.
      * unfold wn. cbn [pt with_pt]. split.
        -- exists o2. split; [exact L2|]. rewrite own_put, !Nat.eqb_refl. reflexivity.
        -- intros K. rewrite K. exists o1. split; [exact L1|]. rewrite !own_put, Nat.eqb_refl.
           cbn. reflexivity.
    + exists wa, wb. split; [exact EA|]. split; [exact EH|]. intros u Hu. apply GA. rewrite <- app_assoc. exact Hu.
Qed.

Lemma guards_put O P0 P c a f t : a <> PASSES -> a <> CHECKER -> guards O P0 P t -> guards O P0 (put P c a f) t.
Proof.
  intros N1 N2 [(g & G1 & G2) G3]. split.
  - exists g. split; [exact G1|]. rewrite own_put, (proj2 (Nat.eqb_neq CHECKER a)), andb_false_r by auto. exact G2.
  - intros K. destruct (G3 K) as (g' & G4 & G5). exists g'. split; [exact G4|].
    rewrite own_put, (proj2 (Nat.eqb_neq PASSES a)), andb_false_r by auto. exact G5.
Qed.

Lemma guards_own O P0 P P' t : own P' = own P -> guards O P0 P t -> guards O P0 P' t.
Proof. intros E [(g & G1 & G2) G3]. split; [exists g|]; rewrite E; auto. Qed.

Lemma seen_guards O syntax w d : (forall x, exists r, mro O x = x :: r) ->
  derived_first O (with_manager O (wanted O true (hk w))) ->
  seen O syntax w d ->
  forall t, In t (with_manager O (wanted O true (hk w))) -> guards O (pt w) (pt d) t.
Proof.
  intros HD D (w' & E). unfold tracing_context in E. set (ts := with_manager O (wanted O true (hk w))) in *.
  apply bind_inv in E. destruct E as (u1 & w1 & E1 & E). inversion E1; subst w1. clear E1.
  apply bind_inv in E. destruct E as (u2 & w2 & E2 & E). inversion E2; subst w2. clear E2.
  apply (filters_inv O (pt w) _ ts [] _ _ _ D) in E; [|intros t u []|exact HD|reflexivity|intros t []].
  destruct E as (wf & wf' & E & _ & G). cbn [app] in G.
  apply bind_inv in E. destruct E as (u3 & w3 & E3 & E). inversion E3; subst w3. clear E3.
  apply bind_inv in E. destruct E as (u4 & w4 & E4 & E). unfold on_hooks in E4. injection E4 as <- <-.
  apply bind_inv in E. destruct E as (x & w5 & E5 & E).
  assert (x = d).
  { apply bind_inv in E. destruct E as (u6 & w6 & _ & E). apply bind_inv in E.
    destruct E as (u7 & w7 & _ & E). inversion E. reflexivity. }
  subst x. clear E.
  match type of E5 with _ ?w0 = _ => set (we := w0) in * end.
  assert (GE : forall t, In t ts -> guards O (pt w) (pt we) t) by exact G.
  clearbody we. clear G. destruct (is_nil ts).
  - inversion E5; subst. exact GE.
  - apply bind_inv in E5. destruct E5 as (u8 & w8 & E8 & E5). inversion E8; subst w8. clear E8.
    assert (X : exists w1 w2 : world, (forall t, In t ts -> guards O (pt w) (pt w1) t) /\
              (with_ast [rewriter O] (patch_exec_eval O (inner_context no_faults O look))) w1 = (w2, Done d)).
    { unfold syntax_context in E5. 
      assert (Y : forall l wa, with_input l (with_ast [rewriter O] (patch_exec_eval O (inner_context no_faults O look))) we = (wa, Done d) ->
        exists w1 w2 : world, (forall t, In t ts -> guards O (pt w) (pt w1) t) /\
              (with_ast [rewriter O] (patch_exec_eval O (inner_context no_faults O look))) w1 = (w2, Done d)).
      { intros l wa EY. unfold with_input in EY. destruct (dget _ _) as [li|]; [|discriminate].
        match type of EY with context [with_ast _ _ ?w0] => set (w9 := w0) in * end.
        destruct (with_ast _ _ w9) as [w10 r10] eqn:E10. inversion EY; subst.
        exists w9, w10. split; [|exact E10]. intros t Ht. eapply guards_own; [|apply GE, Ht]. reflexivity. }
      destruct (syntax && negb (is_nil ts)).
      - apply bind_inv in E5. destruct E5 as (u9 & w9 & E9 & E5). inversion E9; subst w9. eapply Y, E5.
      - eapply Y, E5. }
    destruct X as (wa & wb & GA & EA). unfold with_ast in EA. destruct (dget _ _) as [li|]; [|discriminate].
    match type of EA with context [patch_exec_eval _ _ ?w0] => set (wc := w0) in * end.
    destruct (patch_exec_eval O _ wc) as [w10 r10] eqn:E10. inversion EA; subst. clear EA.
    assert (GC : forall t, In t ts -> guards O (pt w) (pt wc) t).
    { intros t Ht. eapply guards_own; [|apply GA, Ht]. reflexivity. }
    clearbody wc. unfold patch_exec_eval, inner_context in E10.
    apply attr_inv in E10. destruct E10 as (o1 & v1 & _ & E10).
    apply attr_inv in E10. destruct E10 as (o2 & v2 & _ & E10).
    apply attr_inv in E10. destruct E10 as (o3 & v3 & _ & E10).
    apply attr_inv in E10. destruct E10 as (o4 & v4 & _ & E10).
    apply bind_inv in E10. destruct E10 as (u5 & v5 & E11 & E10). inversion E11; subst v5. clear E11.
    apply attr_inv in E10. destruct E10 as (o6 & v6 & _ & E10).
    apply attr_inv in E10. destruct E10 as (o7 & v7 & _ & E10).
    inversion E10; subst d. cbn [pt with_pt]. intros t Ht.
    repeat (apply guards_put; [discriminate|discriminate|]). apply GC, Ht.
Qed.

(** ** Registration *)

Lemma remove_first_nodup t l u : NoDup l -> (In u (remove_first t l) <-> In u l /\ u <> t).
Proof.
  induction l as [|a l IH]; intros N; cbn [remove_first]; [split; [intros []|intros [[] _]]|].
  apply NoDup_cons_iff in N. destruct N as [NA NL]. destruct (Nat.eqb_spec a t) as [E|E].
  - subst a. split; [intros H; split; [right; exact H|intros ->; contradiction]|].
    intros [[H|H] Q]; [congruence|exact H].
  - cbn [In]. rewrite (IH NL). split.
    + intros [H|[H Q]]; [subst; auto|auto].
    + intros [[H|H] Q]; auto.
Qed.

Lemma remove_first_incl t l u : In u (remove_first t l) -> In u l.
Proof.
  induction l as [|a l IH]; cbn [remove_first]; [auto|]. destruct (a =? t); [intros H; right; exact H|].
  intros [H|H]; [left; exact H|right; apply IH, H].
Qed.

Lemma remove_first_NoDup t l : NoDup l -> NoDup (remove_first t l).
Proof.
  induction l as [|a l IH]; intros N; cbn [remove_first]; [exact N|].
  apply NoDup_cons_iff in N. destruct N as [NA NL]. destruct (a =? t); [exact NL|].
  constructor; [intros H; apply NA; eapply remove_first_incl, H|apply IH, NL].
Qed.

Lemma remove_all ts : forall l u, NoDup l ->
  (In u (fold_left (fun l t => remove_first t l) ts l) <-> In u l /\ ~ In u ts) /\
  NoDup (fold_left (fun l t => remove_first t l) ts l).
Proof.
  induction ts as [|t ts IH]; intros l u N; cbn [fold_left]; [split; [cbn; tauto|exact N]|].
  destruct (IH (remove_first t l) u (remove_first_NoDup t l N)) as [I1 I2]. split; [|exact I2].
  rewrite I1, (remove_first_nodup t l u N). cbn [In]. split; [intros [[A B] C]|intros [A B]]; intuition.
Qed.

Lemma names_nodup O l : names_differ O l -> NoDup l.
Proof. apply NoDup_map_inv. Qed.

Lemma filter_none {A} (f : A -> bool) l : (forall x, In x l -> f x = false) -> filter f l = [].
Proof.
  induction l as [|a l IH]; intros H; [reflexivity|]. cbn. rewrite (H a (or_introl eq_refl)).
  apply IH. intros x Hx. apply H. right; exact Hx.
Qed.

Lemma run1_resting O syn magic cell w :
  complete O (pt w) -> resting O (hk w) -> polite cell ->
  let ts := tracers_of O (ordinary syn magic) w in
  let w2 := run1 O (syn, magic, cell) w in
  complete O (pt w2) /\ resting O (hk w2) /\
  exists d wc x, seen O (syn && negb magic) (begun w) d /\ cell d = (wc, Done x) /\
    (forall t, In t (enabled (hk d)) <-> In t ts) /\
    (exists fs, meta (hk d) = fs ++ meta (hk w) /\ (forall e, In e fs -> is_finder e = true) /\
       length fs = if is_nil ts then 0 else 1) /\
    meta (hk w2) = filter (fun e => negb (is_finder e)) (meta (hk wc)).
Proof.
  intros C RS PO ts w2.
  destruct (run_reaches no_faults O (ordinary syn magic) cell w) as (d & D1 & CD & SEE & RUN);
    try reflexivity; try exact C.
  pose proof PO as [LV HP].
  destruct (cell d) as [wc r] eqn:EC. destruct (HP _ _ _ EC) as ((x & ->) & E1 & E2 & E3 & E4 & E5 & E6).
  pose proof (untouched_grows _ _ (LV _ _ _ EC)) as G.
  destruct (RUN wc x eq_refl G) as (w' & r' & ER & GW & HW & _).
  assert (EW : w2 = w') by (unfold w2, run1; cbn [fst snd]; rewrite ER; reflexivity).
  destruct (switched_on_running O (hk w) RS) as (fs & RN & RP & RR).
  change (with_manager O (wanted O true (hk w))) with ts in RN, RP, RR.
  change (tracers_of O (ordinary syn magic) w) with ts in D1, SEE, HW. rewrite <- D1 in RN, RP, RR.
  pose proof (running_finders _ _ _ _ RN) as FF.
  destruct RS as (FM & RS1 & RS2).
  destruct RN as (N1 & N2 & N3 & N4).
  destruct (E6 fs (meta (hk w)) N1 FF FM) as (m' & EM & FM').
  assert (RC : running ts fs m' (hk wc)).
  { split; [exact EM|]. split; [congruence|]. split; [intros t; rewrite E1; apply N3|].
    rewrite E2. exact N4. }
  destruct (taken_down_resting O ts fs m' (hk wc) RC FM') as [T1 T2].
  { destruct E5 as [E5|[_ E5]]; [left; exact E5|right]. unfold wanted. rewrite E5, RR. reflexivity. }
  assert (EH : hk w' = taken_down ts (hk wc)).
  { rewrite HW. cbn [ended]. unfold no_faults. destruct (memb (dataflow O) ts); reflexivity. }
  rewrite EW, EH. split; [eapply grows_complete; eauto|]. split; [exact T1|].
  exists d, wc, x. split.
  { destruct (SEE world look d (Done d)) as (wl & EL); [reflexivity|repeat split; auto; intros n l H; exact H|].
    exists wl. cbn [ended] in EL. unfold no_faults in EL at 2.
    replace (if memb (dataflow O) ts then None else None) with (@None exn) in EL by (destruct (memb (dataflow O) ts); reflexivity).
    exact EL. }
  split; [exact EC|]. split; [exact N3|]. split.
  - exists fs. split; [exact N1|]. split; [exact FF|].
    destruct N4 as [(-> & -> & _)|(N & f & -> & _)]; [reflexivity|].
    destruct ts as [|t0 tr]; [congruence|reflexivity].
  - rewrite T2, EM, filter_app. rewrite (filter_none _ fs).
    + symmetry. apply filter_all. intros e He. rewrite (FM' e He). reflexivity.
    + intros e He. rewrite (FF e He). reflexivity.
Qed.

