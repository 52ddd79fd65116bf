(** Proofs about the functions made of slices. *)
Require Import String List Bool Arith Lia Permutation.
Import ListNotations.
Require Import Verif.Base Verif.Loops Verif.LiveModel Verif.LiveSpec Verif.LiveSound Verif.FuncModel
  Verif.FuncSpec.
Local Open Scope string_scope.
Local Open Scope list_scope.

Lemma is_local_In names x : is_local names x = true <-> In x names.
Proof.
  unfold is_local. rewrite existsb_exists. split.
  - intros (y & I & E). apply String.eqb_eq in E. now subst.
  - intros I. exists x. split; [exact I|apply String.eqb_refl].
Qed.
Lemma is_local_nIn names x : is_local names x = false <-> ~ In x names.
Proof. rewrite <- is_local_In. destruct (is_local names x); split; congruence. Qed.

(** The local variables and the globals of the function, and those of the cell; [D]: the local
    variables that have been assigned. *)
Definition agree (names : list string) (D : string -> Prop) (l g m : env) : Prop :=
  (forall x, In x names -> D x -> exists v, l x = Some v /\ m x = Some v) /\
  (forall x, ~ In x names -> g x = m x).

Lemma agree_weaken names (D D' : string -> Prop) l g m : (forall x, D' x -> D x) ->
  agree names D l g m -> agree names D' l g m.
Proof. intros S (A & B). split; [intros x I J; apply A; auto|exact B]. Qed.

Definition ok {A} (r : exn + A) : bool := match r with inl _ => false | inr _ => true end.

Section Eval.
Variables (o : ops) (bi : env) (F : list (string * fndef)).

Definition traced (e : expr) : Prop := forall st, exists tr,
  ev [] F e tr (ok (eval o bi [] st e)) /\
  (forall v, In v tr -> exists x, v = Read x /\ In x (enames e)) /\
  forall names D l g, agree names D l g (glob st) ->
    (forall x, In (Read x) tr -> D x \/ ~ In x names) ->
    eval o bi names (mkS l g) e = eval o bi [] st e.

Fixpoint evals (names : list string) (st : state) (es : list expr) : exn + list val :=
  match es with
  | [] => inr []
  | e :: es =>
      match eval o bi names st e with
      | inl x => inl x
      | inr v => match evals names st es with inl x => inl x | inr vs => inr (v :: vs) end
      end
  end.

Fixpoint any (names : list string) (st : state) (es : list expr) : exn + val :=
  match es with
  | [] => inr VNone
  | e :: es =>
      match eval o bi names st e with
      | inl x => inl x
      | inr v => match es with
                 | [] => inr v
                 | _ => if truth o v then inr v else any names st es
                 end
      end
  end.

Lemma eval_list names st es : eval o bi names st (EList es) =
  match evals names st es with inl x => inl x | inr vs => of_op (op_list o vs) end.
Proof.
  assert (E : forall es, (fix evals es :=
    match es with
    | [] => inr []
    | e :: es =>
        match eval o bi names st e with
        | inl x => inl x
        | inr v => match evals es with inl x => inl x | inr vs => inr (v :: vs) end
        end
    end) es = evals names st es).
  { induction es0 as [|e es0 IH]; [reflexivity|]. cbn [evals]. now rewrite <- IH. }
  cbn [eval]. now rewrite E.
Qed.
Lemma eval_op names st es : eval o bi names st (EOp es) =
  match evals names st es with inl x => inl x | inr vs => of_op (op_other o vs) end.
Proof.
  assert (E : forall es, (fix evals es :=
    match es with
    | [] => inr []
    | e :: es =>
        match eval o bi names st e with
        | inl x => inl x
        | inr v => match evals es with inl x => inl x | inr vs => inr (v :: vs) end
        end
    end) es = evals names st es).
  { induction es0 as [|e es0 IH]; [reflexivity|]. cbn [evals]. now rewrite <- IH. }
  cbn [eval]. now rewrite E.
Qed.
Lemma eval_cond names st es : eval o bi names st (ECond es) = any names st es.
Proof.
  induction es as [|e es IH]; [reflexivity|]. cbn [any]. rewrite <- IH. reflexivity.
Qed.

Lemma evals_traced es : Forall traced es -> forall st, exists tr,
  evs [] F es tr (ok (evals [] st es)) /\
  (forall v, In v tr -> exists x, v = Read x /\ In x (flat_map enames es)) /\
  forall names D l g, agree names D l g (glob st) ->
    (forall x, In (Read x) tr -> D x \/ ~ In x names) ->
    evals names (mkS l g) es = evals [] st es.
Proof.
  induction 1 as [|e es H Hs IH]; intros st.
  - exists []. split; [constructor|]. split; [intros v []|]. reflexivity.
  - destruct (H st) as (tr & T & R & S). destruct (IH st) as (tr' & T' & R' & S').
    cbn [evals]. destruct (eval o bi [] st e) as [x|v] eqn:E; cbn [ok] in T.
    + exists tr. split; [apply evs_stop; exact T|]. split.
      { intros w I. destruct (R w I) as (y & -> & J). exists y. split; [reflexivity|].
        cbn. apply in_or_app. now left. }
      intros names D l g A Hr. rewrite (S names D l g A Hr). reflexivity.
    + exists (tr ++ tr'). split; [|split].
      * destruct (evals [] st es); cbn [ok] in *; apply (evs_cons _ _ _ _ _ _ _ T T').
      * intros w I. cbn. apply in_app_or in I. destruct I as [I|I].
        -- destruct (R w I) as (y & -> & J). exists y. split; [reflexivity|]. apply in_or_app. now left.
        -- destruct (R' w I) as (y & -> & J). exists y. split; [reflexivity|]. apply in_or_app. now right.
      * intros names D l g A Hr.
        rewrite (S names D l g A) by (intros y I; apply Hr, in_or_app; now left).
        rewrite (S' names D l g A) by (intros y I; apply Hr, in_or_app; now right). reflexivity.
Qed.

Lemma any_traced es : es <> [] -> Forall traced es -> forall st, exists tr,
  evsome [] F es tr (ok (any [] st es)) /\
  (forall v, In v tr -> exists x, v = Read x /\ In x (flat_map enames es)) /\
  forall names D l g, agree names D l g (glob st) ->
    (forall x, In (Read x) tr -> D x \/ ~ In x names) ->
    any names (mkS l g) es = any [] st es.
Proof.
  intros N H. induction H as [|e es H Hs IH]; [congruence|]. clear N. intros st.
  destruct (H st) as (tr & T & R & S).
  assert (R0 : forall v, In v tr -> exists x, v = Read x /\ In x (flat_map enames (e :: es))).
  { intros w I. destruct (R w I) as (y & -> & J). exists y. split; [reflexivity|].
    cbn. apply in_or_app. now left. }
  cbn [any]. destruct (eval o bi [] st e) as [x|v] eqn:E; cbn [ok] in T.
  - exists tr. split; [apply evsome_one; exact T|]. split; [exact R0|].
    intros names D l g A Hr. rewrite (S names D l g A Hr). reflexivity.
  - destruct es as [|e' es].
    + exists tr. split; [apply evsome_one; exact T|]. split; [exact R0|].
      intros names D l g A Hr. rewrite (S names D l g A Hr). reflexivity.
    + destruct (truth o v) eqn:Tv.
      * exists tr. split; [apply evsome_one; exact T|]. split; [exact R0|].
        intros names D l g A Hr. rewrite (S names D l g A Hr), Tv. reflexivity.
      * destruct (IH ltac:(discriminate) st) as (tr' & T' & R' & S').
        exists (tr ++ tr'). split; [|split].
        -- eapply evsome_next; [exact T|exact T'].
        -- intros w I. apply in_app_or in I. destruct I as [I|I]; [now apply R0|].
           destruct (R' w I) as (y & -> & J). exists y. split; [reflexivity|].
           cbn [flat_map]. apply in_or_app. now right.
        -- intros names D l g A Hr.
           rewrite (S names D l g A) by (intros y I; apply Hr, in_or_app; now left).
           rewrite Tv, (S' names D l g A) by (intros y I; apply Hr, in_or_app; now right).
           reflexivity.
Qed.

Lemma lookup_agree names (D : string -> Prop) l g st x : agree names D l g (glob st) ->
  D x \/ ~ In x names -> lookup bi names (mkS l g) x = lookup bi [] st x.
Proof.
  intros (A & B) H. unfold lookup. cbn [is_local existsb].
  destruct (is_local names x) eqn:E; cbn [loc glob].
  - apply is_local_In in E. destruct H as [H|H]; [|contradiction].
    destruct (A x E H) as (v & -> & ->). reflexivity.
  - apply is_local_nIn in E. now rewrite (B x E).
Qed.

Lemma finish (f : list val -> option val) e es : 
  (forall tr r, evs [] F es tr r -> ev [] F e tr r) -> enames e = flat_map enames es ->
  (forall names st, eval o bi names st e =
     match evals names st es with inl x => inl x | inr vs => of_op (f vs) end) ->
  Forall traced es -> traced e.
Proof.
  intros C N E H st. destruct (evals_traced es H st) as (tr & T & R & S). exists tr.
  split; [|split].
  - rewrite E. destruct (evals [] st es) as [x|vs]; cbn [ok] in T; [now apply C|].
    destruct (f vs); cbn; [now apply C|apply ev_fail; now apply C].
  - now rewrite N.
  - intros names D l g A Hr. rewrite !E. now rewrite (S names D l g A Hr).
Qed.

Lemma eval_traced : forall e, simple_expr e -> traced e.
Proof.
  fix IH 1. intros e Hs. destruct e; try destruct Hs.
  - intros st. exists []. split; [constructor|]. split; [intros v []|]. reflexivity.
  - intros st. exists [Read x]. split; [|split].
    + change [Read x] with (read [] x). cbn [eval].
      destruct (lookup bi [] st x); cbn [ok]; [apply ev_fail|]; apply ev_name.
    + intros v [<- |[]]. exists x. split; [reflexivity|now left].
    + intros names D l g A Hr. cbn [eval]. apply (lookup_agree names D); [exact A|].
      apply Hr. now left.
  - apply (finish (fun vs => match vs with [a; b] => op_bin o a b | _ => None end) _ [e1; e2]).
    + intros tr r T. now apply ev_bin.
    + cbn. now rewrite app_nil_r.
    + intros names st. cbn [eval evals]. destruct (eval o bi names st e1); [reflexivity|].
      destruct (eval o bi names st e2); reflexivity.
    + constructor; [now apply IH|]. constructor; [now apply IH|constructor].
  - apply (finish (op_list o) _ es); [intros; now apply ev_list|reflexivity|intros; apply eval_list|].
    revert es Hs. fix go 1. intros [|e es] Hs; constructor; [apply IH, Hs|apply go, Hs].
  - apply (finish (op_other o) _ es); [intros; now apply ev_op|reflexivity|intros; apply eval_op|].
    revert es Hs. fix go 1. intros [|e es] Hs; constructor; [apply IH, Hs|apply go, Hs].
  - assert (Fa : Forall traced es).
    { clear H. revert es H0. fix go 1. intros [|e es] Hs; constructor; [apply IH, Hs|apply go, Hs]. }
    intros st. destruct (any_traced es H Fa st) as (tr & T & R & S). exists tr. rewrite eval_cond.
    split; [|split; [exact R|]].
    + destruct es as [|e es]; [congruence|]. now apply ev_cond.
    + intros names D l g A Hr. rewrite eval_cond. exact (S names D l g A Hr).
Qed.

(** ** Statements *)

Variable k : nat.

Definition oc (r : out) : outcome :=
  match r with ONormal => Normal | OReturn _ => Return | ORaise _ => Raise end.

(** [X]: what relates the events of a run to its outcome; [R]: the names that are read; [W]: those
    that are bound. *)
Definition followed (X : list event -> outcome -> Prop) (R W : list string)
    (run : list string -> state -> out * state) : Prop :=
  forall st, exists tr,
    X tr (oc (fst (run [] st))) /\
    (forall x, In (Read x) tr -> In x R) /\
    forall names D l g, incl W names -> agree names D l g (glob st) ->
      (forall x, exposed x tr -> D x \/ ~ In x names) ->
      exists l', run names (mkS l g) = (fst (run [] st), mkS l' g) /\
        agree names (fun x => D x \/ In (Write x) tr) l' g (glob (snd (run [] st))).

Lemma exposed_reads_only tr x : (forall v, In v tr -> exists y, v = Read y) -> In (Read x) tr ->
  exposed x tr.
Proof.
  intros R I. apply in_split in I. destruct I as (pre & post & ->). exists pre, post.
  split; [reflexivity|]. intros J. destruct (R (Write x)) as (y & E); [apply in_or_app; now left|].
  discriminate.
Qed.
Lemma exposed_app_l x tr tr' : exposed x tr -> exposed x (tr ++ tr').
Proof.
  intros (pre & post & -> & N). exists pre, (post ++ tr'). split; [now rewrite <- app_assoc|exact N].
Qed.
Lemma exposed_app_r x tr tr' : ~ In (Write x) tr -> exposed x tr' -> exposed x (tr ++ tr').
Proof.
  intros N (pre & post & -> & N'). exists (tr ++ pre), post. split; [now rewrite <- app_assoc|].
  intros I. apply in_app_or in I. tauto.
Qed.
Lemma in_write_dec x (tr : list event) : In (Write x) tr \/ ~ In (Write x) tr.
Proof.
  destruct (in_dec (fun a b : event => ltac:(decide equality; apply string_dec)) (Write x) tr); auto.
Qed.

(** One after the other. *)
Definition andthen (r1 r2 : list string -> state -> out * state) names st :=
  match r1 names st with (ONormal, st') => r2 names st' | r => r end.

Lemma followed_then (X1 X2 X : list event -> outcome -> Prop) R1 W1 R2 W2 r1 r2 : followed X1 R1 W1 r1 -> followed X2 R2 W2 r2 ->
  (forall tr tr' q, X1 tr Normal -> X2 tr' q -> X (tr ++ tr') q) ->
  (forall tr q, X1 tr q -> q = Return \/ q = Raise -> X tr q) ->
  followed X (R1 ++ R2) (W1 ++ W2) (andthen r1 r2).
Proof.
  intros H1 H2 XA XB st. destruct (H1 st) as (tr & T & R & S).
  unfold andthen at 1 3. destruct (r1 [] st) as (q & st') eqn:E. cbn [fst snd] in *.
  destruct q as [|v|x]; cbn [oc] in T.
  - destruct (H2 st') as (tr' & T' & R' & S'). exists (tr ++ tr'). split; [now apply XA|]. split.
    { intros x I. apply in_app_or in I. apply in_or_app. destruct I as [I|I]; [left; now apply R|right; now apply R']. }
    intros names D l g I A Hr.
    destruct (S names D l g) as (l1 & E1 & A1).
    { intros y J; apply I, in_or_app; now left. } { exact A. }
    { intros x J. apply Hr. now apply exposed_app_l. }
    destruct (S' names _ l1 g (fun y J => I y (in_or_app _ _ _ (or_intror J))) A1) as (l2 & E2 & A2).
    { intros x J. destruct (in_write_dec x tr) as [K|K]; [left; now right|].
      destruct (Hr x (exposed_app_r _ _ _ K J)) as [Y|Y]; [left; now left|now right]. }
    exists l2. unfold andthen. rewrite E1, E. split; [exact E2|].
    eapply agree_weaken; [|exact A2]. intros x [J|J]; [left; now left|].
    apply in_app_or in J. destruct J; [left; now right|now right].
  - exists tr. split; [apply XB; [exact T|auto]|]. split.
    { intros x I. apply in_or_app. left. now apply R. }
    intros names D l g I A Hr. destruct (S names D l g) as (l1 & E1 & A1); auto.
    { intros y J; apply I, in_or_app; now left. }
    exists l1. unfold andthen. rewrite E1, E. now split.
  - exists tr. split; [apply XB; [exact T|auto]|]. split.
    { intros y I. apply in_or_app. left. now apply R. }
    intros names D l g I A Hr. destruct (S names D l g) as (l1 & E1 & A1); auto.
    { intros y J; apply I, in_or_app; now left. }
    exists l1. unfold andthen. rewrite E1, E. now split.
Qed.

Definition stmt_ok (s : stmt) : Prop :=
  followed (fun tr q => ex [] F s tr q F) (snames s) (sbinds s) (fun names => exec k o bi names s).

Lemma block_ok ss : Forall stmt_ok ss ->
  followed (fun tr q => exs [] F ss tr q F) (flat_map snames ss) (flat_map sbinds ss)
    (fun names => block_run (exec k o bi names) ss).
Proof.
  induction 1 as [|s ss H Hs IH].
  - intros st. exists []. split; [constructor|]. split; [intros x []|].
    intros names D l g I A Hr. exists l. split; [reflexivity|].
    eapply agree_weaken; [|exact A]. intros x [J|[]]. exact J.
  - pose proof (followed_then _ _ (fun tr q => exs [] F (s :: ss) tr q F) _ _ _ _ _ _ H IH) as P.
    intros st. apply P.
    + intros tr tr' q T T'. eapply exs_cons; [exact T|exact T'].
    + intros tr q T N. apply exs_stop; [exact T|]. destruct N; subst; discriminate.
Qed.

(** An expression, as a statement that may stop. *)
Lemma expr_then e (X1 X : list event -> outcome -> Prop) R W (r : val -> list string -> state -> out * state) :
  simple_expr e ->
  (forall v, followed X1 R W (r v)) ->
  (forall tr tr' q, ev [] F e tr true -> X1 tr' q -> X (tr ++ tr') q) ->
  (forall tr, ev [] F e tr false -> X tr Raise) ->
  followed X (enames e ++ R) W
    (fun names st => match eval o bi names st e with inl x => (ORaise x, st) | inr v => r v names st end).
Proof.
  intros Hs Hr XA XB st. destruct (eval_traced e Hs st) as (tr & T & Rd & S).
  assert (Only : forall v, In v tr -> exists y, v = Read y).
  { intros v I. destruct (Rd v I) as (y & -> & _). now exists y. }
  assert (NW : forall x, ~ In (Write x) tr).
  { intros x I. destruct (Only _ I) as (y & E). discriminate. }
  destruct (eval o bi [] st e) as [x|v] eqn:E; cbn [ok] in T.
  - exists tr. cbn. split; [now apply XB|]. split.
    { intros y I. destruct (Rd _ I) as (z & Ez & J). injection Ez as ->. apply in_or_app. now left. }
    intros names D l g I A Hx. rewrite (S names D l g A).
    2:{ intros y J. apply Hx. now apply exposed_reads_only. }
    exists l. split; [reflexivity|]. eapply agree_weaken; [|exact A]. intros y [J|J]; [exact J|].
    destruct (NW _ J).
  - destruct (Hr v st) as (tr' & T' & R' & S'). exists (tr ++ tr'). split; [now apply XA|]. split.
    { intros y I. apply in_app_or in I. apply in_or_app. destruct I as [I|I].
      - left. destruct (Rd _ I) as (z & Ez & J). now injection Ez as ->.
      - right. now apply R'. }
    intros names D l g I A Hx. rewrite (S names D l g A).
    2:{ intros y J. apply Hx, exposed_app_l. now apply exposed_reads_only. }
    destruct (S' names D l g I A) as (l' & E' & A').
    { intros y J. apply Hx, exposed_app_r; auto. }
    exists l'. split; [exact E'|]. eapply agree_weaken; [|exact A'].
    intros y [J|J]; [now left|]. apply in_app_or in J. destruct J as [J|J]; [destruct (NW _ J)|now right].
Qed.

(** Nothing happens. *)
Lemma followed_stop (q : out) : followed (fun tr q' => tr = [] /\ q' = oc q) [] [] (fun _ st => (q, st)).
Proof.
  intros st. exists []. split; [now split|]. split; [intros x []|].
  intros names D l g I A Hr. exists l. split; [reflexivity|].
  eapply agree_weaken; [|exact A]. intros x [J|[]]. exact J.
Qed.

Lemma assign_followed x v :
  followed (fun tr q => tr = [Write x] /\ q = Normal) [] [x] (fun names st => (ONormal, assign names st x v)).
Proof.
  intros st. exists [Write x]. split; [now split|]. split; [intros y [E|[]]; discriminate|].
  intros names D l g I (A & B) Hr. assert (J : In x names) by (apply I; now left).
  unfold assign. cbn [fst snd loc glob is_local existsb]. pose proof (proj2 (is_local_In names x) J) as L.
  rewrite L. exists (upd l x v). split; [reflexivity|]. cbn [glob]. unfold upd. split.
  - intros y Jy H. destruct (String.eqb y x) eqn:E; [now exists v|]. apply A; [exact Jy|].
    destruct H as [H|[H|[]]]; [exact H|]. injection H as ->. now rewrite String.eqb_refl in E.
  - intros y Ny. destruct (String.eqb y x) eqn:E; [|now apply B]. apply String.eqb_eq in E. now subst.
Qed.

Lemma assigns_followed v ts : all (fun t => exists x, t = EName x) ts ->
  followed (fun tr q => stores [] F ts tr true /\ q = Normal) [] (flat_map tnames ts)
    (fun names st => (ONormal, fold_left (fun st t => assign names st (target_name t) v) ts st)).
Proof.
  induction ts as [|t ts IH]; intros H.
  - intros st. destruct (followed_stop ONormal st) as (tr & (-> & _) & P). exists []. split; [|exact P].
    split; [constructor|reflexivity].
  - destruct H as ((x & ->) & H).
    pose proof (followed_then _ _ (fun tr q => stores [] F (EName x :: ts) tr true /\ q = Normal)
                  _ _ _ _ _ _ (assign_followed x v) (IH H)) as P.
    intros st. apply P.
    + intros tr tr' q (-> & _) (T & ->). split; [|reflexivity].
      apply (stores_cons [] F (EName x) ts [Write x] tr' true); [|exact T].
      apply (store_name [] F x).
    + intros tr q (-> & ->) [N|N]; discriminate.
Qed.

Lemma followed_weaken (X X' : list event -> outcome -> Prop) R R' W W' r r' :
  (forall tr q, X tr (oc q) -> X' tr (oc q)) -> incl R R' -> incl W W' ->
  (forall names st, r names st = r' names st) -> followed X R W r -> followed X' R' W' r'.
Proof.
  intros HX HR HW E H st. destruct (H st) as (tr & T & Rd & S). exists tr. rewrite <- (E [] st).
  split; [now apply HX|]. split; [intros x I; now apply HR, Rd|].
  intros names D l g I A Hr. rewrite <- E.
  apply S; [intros y J; now apply I, HW|exact A|exact Hr].
Qed.

Lemma loop_ok e a : simple_expr e ->
  followed (fun tr q => exs [] F a tr q F) (flat_map snames a) (flat_map sbinds a)
    (fun names => block_run (exec k o bi names) a) ->
  forall n, followed (fun tr q => loop [] F (SWhile e a []) tr q F)
    (enames e ++ flat_map snames a) (flat_map sbinds a)
    (fun names => loop_run (fun st => match eval o bi names st e with
                          | inl x => inl x
                          | inr v => inr (truth o v)
                          end) (block_run (exec k o bi names) a) n).
Proof.
  intros Hs Ha. induction n as [|n IH].
  - intros st. destruct (followed_stop (ORaise Diverges) st) as (tr & (-> & _) & _ & P). exists [].
    split; [|split; [intros x []|]].
    + cbn. apply loop_while_test, ev_raise.
    + intros names D l g I A Hr. apply P; auto. intros x [].
  - set (rest := fun names => loop_run (fun st => match eval o bi names st e with
                          | inl x => inl x | inr v => inr (truth o v) end)
                 (block_run (exec k o bi names) a) n) in *.
    set (X1 := fun tr q => (tr = [] /\ q = Normal) \/
            (exists tr' tr2, tr = tr' ++ tr2 /\ exs [] F a tr' Normal F /\
               loop [] F (SWhile e a []) tr2 q F) \/
            (exs [] F a tr q F /\ (q = Return \/ q = Raise))).
    eapply followed_weaken; cycle 4.
    + eapply (expr_then e X1 (fun tr q => loop [] F (SWhile e a []) tr q F)
          (flat_map snames a ++ enames e ++ flat_map snames a)
          (flat_map sbinds a ++ flat_map sbinds a)
          (fun v names st => if truth o v then andthen (fun names => block_run (exec k o bi names) a) rest names st
                             else (ONormal, st)) Hs).
      * intros v. destruct (truth o v).
        -- eapply followed_then; [exact Ha|exact IH| |].
           ++ intros tr tr' q T T'. right. left. exists tr, tr'. auto.
           ++ intros tr q T N. right. right. auto.
        -- eapply followed_weaken; [| | | |exact (followed_stop ONormal)].
           ++ intros tr q (-> & E). left. now rewrite E.
           ++ intros y [].
           ++ intros y [].
           ++ reflexivity.
      * intros tr tr' q T [(-> & ->)|[(t1 & t2 & -> & T1 & T2)|(T1 & N)]].
        -- rewrite app_nil_r. now apply loop_while_end.
        -- eapply loop_while_next; [exact T|exact T1|now left|exact T2].
        -- eapply loop_while_exit; [exact T|exact T1|].
           now right.
      * intros tr T. now apply loop_while_test.
    + auto.
    + intros y I. apply in_app_or in I. apply in_or_app. destruct I as [I|I]; [now left|].
      apply in_app_or in I. destruct I as [I|I]; [now right|]. apply in_app_or in I. destruct I; auto.
    + intros y I. apply in_app_or in I. tauto.
    + intros names st. cbn [loop_run]. unfold andthen, rest.
      destruct (eval o bi names st e) as [x|v]; [reflexivity|]. destruct (truth o v); reflexivity.
Qed.

Lemma expr_stop e (X : list event -> outcome -> Prop) (q : val -> out) : simple_expr e ->
  (forall v tr, ev [] F e tr true -> X tr (oc (q v))) -> (forall tr, ev [] F e tr false -> X tr Raise) ->
  followed X (enames e ++ []) []
    (fun names st => match eval o bi names st e with inl x => (ORaise x, st) | inr v => (q v, st) end).
Proof.
  intros Hs XA XB.
  apply (expr_then e (fun tr q' => exists v, tr = [] /\ q' = oc (q v)) X [] []
           (fun v _ st => (q v, st)) Hs).
  - intros v st. destruct (followed_stop (q v) st) as (tr & (-> & E) & P). exists [].
    split; [now exists v|exact P].
  - intros tr tr' q' T (v & -> & ->). rewrite app_nil_r. now apply XA.
  - exact XB.
Qed.

Lemma bin_inv_gen L F0 b x e : forall tr q, ev L F0 b tr q -> b = EBin (EName x) e ->
  evs L F0 [EName x; e] tr q \/ q = false /\ (tr = [] \/ evs L F0 [EName x; e] tr true).
Proof.
  induction 1; intros E; try discriminate.
  - right. split; [reflexivity|now left].
  - subst. destruct (IHev eq_refl) as [T'|(N & _)]; [|discriminate]. right. split; [reflexivity|now right].
  - injection E as -> ->. now left.
Qed.
Lemma bin_inv x e tr q : ev [] F (EBin (EName x) e) tr q ->
  evs [] F [EName x; e] tr q \/ q = false /\ (tr = [] \/ evs [] F [EName x; e] tr true).
Proof. intros H. now apply (bin_inv_gen _ _ _ x e _ _ H). Qed.

Lemma stmt_followed : forall s, simple s -> stmt_ok s.
Proof.
  fix IH 1. intros s Hs. unfold stmt_ok. destruct s; try destruct Hs.
  - eapply followed_weaken; [| | | |exact (followed_stop ONormal)].
    + intros tr q (-> & E). rewrite E. constructor.
    + intros y [].
    + intros y [].
    + reflexivity.
  - eapply followed_weaken; [| | | |apply (expr_stop e (fun tr q => ex [] F (SExpr e) tr q F) (fun _ => ONormal) Hs)].
    + auto.
    + intros y I. now rewrite app_nil_r in I.
    + intros y [].
    + reflexivity.
    + intros v tr T. now apply ex_expr.
    + intros tr T. now apply ex_expr_raise.
  - eapply followed_weaken; [| | | |eapply (expr_then e _ (fun tr q => ex [] F (SAssign ts e) tr q F)
       _ _ (fun v names st => (ONormal, fold_left (fun st t => assign names st (target_name t) v) ts st)) H0)].
    + auto.
    + intros y I. cbn. rewrite app_nil_r in I. apply in_or_app. now right.
    + intros y I. cbn. apply in_or_app. right. apply in_or_app. left. exact I.
    + reflexivity.
    + intros v. apply (assigns_followed v ts H).
    + intros tr tr' q T (T' & ->). apply (ex_assign [] F ts e tr tr' true T T').
    + intros tr T. now apply ex_assign_raise.
  - destruct H as (x & ->).
    assert (Hb : simple_expr (EBin (EName x) e)) by (split; [exact I|exact H0]).
    pose proof (bin_inv x e) as Inv.
    eapply followed_weaken; [| | | |eapply (expr_then (EBin (EName x) e) _
       (fun tr q => ex [] F (SAug (EName x) e) tr q F) [] [x]
       (fun v names st => (ONormal, assign names st x v)) Hb)].
    + auto.
    + intros y J. cbn in *. now rewrite app_nil_r in J.
    + intros y J. cbn. left. destruct J as [J|[]]. exact J.
    + reflexivity.
    + intros v. apply assign_followed.
    + intros tr tr' q T (-> & ->). destruct (Inv _ _ T) as [T'|(N & _)]; [|discriminate].
      apply (ex_aug [] F (EName x) e tr T').
    + intros tr T. apply ex_aug_raise. destruct (Inv _ _ T) as [T'|(_ & [-> |T'])]; [exact T'| |].
      * apply evs_stop. apply ev_raise.
      * inversion T' as [| |? ? ? ? t1 t2 ? T1 T2]; subst.
        inversion T2 as [| |? ? ? ? t3 t4 ? T3 T4]; subst. inversion T4; subst. rewrite app_nil_r.
        eapply evs_cons; [exact T1|]. apply evs_stop. now apply ev_fail.
  - destruct H0 as (Ha & Hb).
    assert (Fa : Forall stmt_ok body).
    { clear Hb. revert body Ha. fix go 1. intros [|s' ss] H'; constructor; [apply IH, H'|apply go, H']. }
    assert (Fb : Forall stmt_ok orelse).
    { clear Ha Fa. revert orelse Hb. fix go 1. intros [|s' ss] H'; constructor; [apply IH, H'|apply go, H']. }
    eapply followed_weaken; [| | | |eapply (expr_then test
       (fun tr q => exs [] F body tr q F \/ exs [] F orelse tr q F)
       (fun tr q => ex [] F (SIf test body orelse) tr q F)
       (flat_map snames body ++ flat_map snames orelse) (flat_map sbinds body ++ flat_map sbinds orelse)
       (fun v names st => if truth o v then block_run (exec k o bi names) body st
                          else block_run (exec k o bi names) orelse st) H)].
    + auto.
    + intros y J. exact J.
    + intros y J. cbn. apply in_or_app. right. exact J.
    + reflexivity.
    + intros v. destruct (truth o v).
      * eapply followed_weaken; [| | | |exact (block_ok body Fa)]; [now left| | |reflexivity];
        intros y J; apply in_or_app; now left.
      * eapply followed_weaken; [| | | |exact (block_ok orelse Fb)]; [now right| | |reflexivity];
        intros y J; apply in_or_app; now right.
    + intros tr tr' q T [T'|T']; [eapply ex_if_then|eapply ex_if_else]; eauto.
    + intros tr T. now apply ex_if_raise.
  - destruct H0 as (Ha & ->).
    assert (Fa : Forall stmt_ok body).
    { revert body Ha. fix go 1. intros [|s' ss] H'; constructor; [apply IH, H'|apply go, H']. }
    eapply followed_weaken; [| | | |exact (loop_ok test body H (block_ok body Fa) k)].
    + intros tr q T. rewrite <- (app_nil_r tr). destruct q.
      * eapply ex_while; [exact T|]. apply after_end. constructor.
      * eapply ex_while; [exact T|]. apply after_exit. now left.
      * eapply ex_while; [exact T|]. apply after_exit. now right.
    + intros y J. cbn in *. now rewrite app_nil_r.
    + intros y J. cbn. rewrite app_nil_r. apply in_or_app. now right.
    + reflexivity.
Qed.

Lemma return_followed e : simple_expr e -> stmt_ok (SReturn [e]).
Proof.
  intros Hs. unfold stmt_ok.
  eapply followed_weaken; [| | | |apply (expr_stop e (fun tr q => ex [] F (SReturn [e]) tr q F) OReturn Hs)].
  - auto.
  - intros y J. exact J.
  - intros y [].
  - reflexivity.
  - intros v tr T. rewrite <- (app_nil_r tr).
    apply (ex_return [] F [e] (tr ++ []) true). eapply evs_cons; [exact T|constructor].
  - intros tr T. apply (ex_return [] F [e] tr false). now apply evs_stop.
Qed.
End Eval.

(** ** The text *)

Definition ret (s : stmt) : stmt := match s with SExpr e => SReturn [e] | _ => s end.

Lemma stmts_app a b : stmts_of (a ++ b) = stmts_of a ++ stmts_of b.
Proof. apply flat_map_app. Qed.

Lemma ends_well_shape text : ends_well text -> exists pre s,
  stmts_of text = pre ++ [s] /\ with_return text = inr (pre ++ [ret s]).
Proof.
  intros [(before & s & ->)|(before & s & t & -> & N & T)]; exists (stmts_of before), s.
  - split; [rewrite stmts_app; reflexivity|]. unfold with_return. rewrite rev_app_distr. cbn [rev app].
    rewrite rev_involutive. cbn. destruct s; reflexivity.
  - split; [rewrite stmts_app; reflexivity|]. unfold with_return. rewrite rev_app_distr. cbn [rev app].
    rewrite rev_involutive. cbn [last_line].
    replace (ret s) with s by (destruct s; reflexivity || discriminate).
    destruct t as [t|]; [|reflexivity]. rewrite (T t eq_refl). reflexivity.
Qed.

Lemma ret_snames s : flat_map snames [ret s] = flat_map snames [s].
Proof. destruct s; cbn; try reflexivity. now rewrite !app_nil_r. Qed.
Lemma ret_sbinds s : flat_map sbinds [ret s] = flat_map sbinds [s].
Proof. destruct s; cbn; try reflexivity. now rewrite !app_nil_r. Qed.

Definition result (r : out * state) : exn + val :=
  match fst r with ONormal => inr VNone | OReturn v => inr v | ORaise x => inl x end.

Lemma cell_value_run k o bi s pre : forall st,
  cell_value k o bi st (pre ++ [s]) = result (block_run (exec k o bi []) (pre ++ [ret s]) st).
Proof.
  induction pre as [|p pre IH]; intros st.
  - cbn [app]. destruct s; cbn [cell_value ret block_run];
      try (destruct (exec k o bi [] _ st) as ([|v|x] & st'); reflexivity).
    cbn [exec]. destruct (eval o bi [] st e); reflexivity.
  - cbn [app block_run].
    assert (E : cell_value k o bi st (p :: pre ++ [s]) =
              match exec k o bi [] p st with
              | (ORaise x, _) => inl x
              | (OReturn v, _) => inr v
              | (ONormal, st') => cell_value k o bi st' (pre ++ [s])
              end).
    { cbn [cell_value]. destruct p; try reflexivity. destruct (pre ++ [s]) eqn:N; [|reflexivity].
      destruct pre; discriminate. }
    rewrite E. destruct (exec k o bi [] p st) as ([|v|x] & st'); [apply IH|reflexivity|reflexivity].
Qed.

(** ** The slices are among those for which the analysis is right *)

Lemma simple_expr_fine : forall e, simple_expr e -> fine_expr [] e /\ ebinds e = [].
Proof.
  fix IH 1. intros e Hs.
  destruct e; try destruct Hs; try (split; [exact I|reflexivity]).
  - destruct (IH e1 H) as (A & B). destruct (IH e2 H0) as (A' & B'). split; [now split|].
    cbn. now rewrite B, B'.
  - cbn. revert es Hs. fix go 1. intros [|e es] Hs; cbn; [now split|]. destruct Hs as (H1 & H2).
    destruct (IH e H1) as (A & B). destruct (go es H2) as (A' & B'). rewrite B, B'. now repeat split.
  - cbn. revert es Hs. fix go 1. intros [|e es] Hs; cbn; [now split|]. destruct Hs as (H1 & H2).
    destruct (IH e H1) as (A & B). destruct (go es H2) as (A' & B'). rewrite B, B'. now repeat split.
  - assert (G : fold_right (fun a Q => fine_expr [] a /\ Q) True es /\ flat_map ebinds es = []).
    { clear H. revert es H0. fix go 1. intros [|e es] Hs; cbn; [now split|]. destruct Hs as (H1 & H2).
      destruct (IH e H1) as (A & B). destruct (go es H2) as (A' & B'). rewrite B, B'. now repeat split. }
    destruct G as (G1 & G2). split; [|exact G2]. cbn. split; [exact G1|].
    destruct es as [|e es]; [congruence|]. cbn in G2. now apply app_eq_nil in G2.
Qed.

Lemma simple_fine : forall s top, simple s -> fine_stmt [] [] top s.
Proof.
  fix IH 1. intros s top Hs. destruct s; try destruct Hs; cbn; auto.
  - now apply simple_expr_fine.
  - split; [|now apply simple_expr_fine]. clear IH H0. induction ts as [|t ts IHt]; [exact I|].
    destruct H as ((x & ->) & H). split; [exact I|now apply IHt].
  - destruct H as (x & ->). split; [exact I|now apply simple_expr_fine].
  - destruct H0 as (Ha & Hb). split; [now apply simple_expr_fine|]. split.
    + clear Hb. revert body Ha. fix go 1. intros [|s ss] Hs; [exact I|].
      split; [apply IH, Hs|apply go, Hs].
    + clear Ha. revert orelse Hb. fix go 1. intros [|s ss] Hs; [exact I|].
      split; [apply IH, Hs|apply go, Hs].
  - destruct H0 as (Ha & ->). split; [now apply simple_expr_fine|]. split; [|split; [exact I|now left]].
    revert body Ha. fix go 1. intros [|s ss] Hs; [exact I|]. split; [apply IH, Hs|apply go, Hs].
Qed.

Lemma all_app {A} (P : A -> Prop) a b : all P (a ++ b) <-> all P a /\ all P b.
Proof. induction a; cbn; tauto. Qed.

Lemma body_fine pre s : all simple (pre ++ [s]) -> fine (pre ++ [ret s]).
Proof.
  intros H. apply all_app in H. destruct H as (Hp & Hs & _). exists [], []. apply all_app. split.
  - induction pre as [|p pre IH]; [exact I|]. destruct Hp. split; [now apply simple_fine|now apply IH].
  - split; [|exact I]. destruct s; try (now apply simple_fine). cbn. split; [|exact I].
    now apply simple_expr_fine.
Qed.

Lemma body_ok o bi F k pre s : all simple (pre ++ [s]) ->
  Forall (stmt_ok o bi F k) (pre ++ [ret s]).
Proof.
  intros H. apply all_app in H. destruct H as (Hp & Hs & _). apply Forall_app. split.
  - induction pre as [|p pre IH]; [constructor|]. destruct Hp.
    constructor; [now apply stmt_followed|now apply IH].
  - constructor; [|constructor]. destruct s; try (now apply stmt_followed). now apply return_followed.
Qed.

(** ** Calls *)

Lemma fill_ok C : forall ps l,
  (forall x, In x ps -> exists v, l x = Some v /\ (v = VNone -> exists w, C x = Some w)) ->
  exists l', fill C ps l = inr l' /\
    forall x, l' x = if is_local ps x then match l x with Some VNone => C x | r => r end else l x.
Proof.
  induction ps as [|p ps IH]; intros l H.
  - exists l. split; reflexivity.
  - destruct (H p (or_introl eq_refl)) as (v & E & N). cbn [fill]. rewrite E.
    destruct (is_none v) eqn:Iv.
    + destruct v; try discriminate. destruct (N eq_refl) as (w & Ew). rewrite Ew.
      destruct (IH (upd l p w)) as (l' & E' & H').
      { intros x I. unfold upd. destruct (String.eqb x p) eqn:Ex.
        - apply String.eqb_eq in Ex. subst. exists w. split; [reflexivity|]. intros _. now exists w.
        - apply H. now right. }
      exists l'. split; [exact E'|]. intros x. rewrite H'. unfold is_local, upd. cbn [existsb].
      destruct (String.eqb x p) eqn:Ex.
      * apply String.eqb_eq in Ex. subst. cbn [orb]. rewrite E, Ew.
        destruct (existsb (String.eqb p) ps); [|reflexivity]. destruct w; reflexivity.
      * cbn [orb]. destruct (existsb (String.eqb x) ps); reflexivity.
    + destruct (IH l) as (l' & E' & H'); [intros x I; apply H; now right|].
      exists l'. split; [exact E'|]. intros x. rewrite H'. unfold is_local. cbn [existsb].
      destruct (String.eqb x p) eqn:Ex; [|reflexivity]. apply String.eqb_eq in Ex. subst. cbn [orb].
      rewrite E. destruct v; try discriminate; destruct (existsb (String.eqb p) ps); reflexivity.
Qed.

Lemma assoc_In l x v : assoc l x = Some v -> In (x, v) l.
Proof.
  induction l as [|(y, w) l IH]; cbn; [discriminate|]. destruct (String.eqb x y) eqn:E.
  - apply String.eqb_eq in E. subst. intros [= ->]. now left.
  - intros H. right. now apply IH.
Qed.

Lemma given_param ps pos kw x v : accepts ps pos kw = true -> given ps pos kw x = Some v -> In x ps.
Proof.
  unfold accepts, given. intros A G. apply andb_prop in A. destruct A as (_ & A).
  destruct (assoc (combine ps pos) x) eqn:E.
  - apply assoc_In in E. now apply in_combine_l in E.
  - apply assoc_In in G. rewrite forallb_forall in A. specialize (A _ G). cbn in A.
    apply andb_prop in A. destruct A as (A & _). now apply is_local_In.
Qed.

Lemma first_name_live x st : reported_live x st <-> In x (flat_map first_name (live st)).
Proof.
  unfold reported_live, rooted. rewrite in_flat_map. split.
  - intros (c & I & a & l & -> & E). exists (a :: l). split; [exact I|]. cbn. rewrite E. now left.
  - intros (c & I & J). exists c. split; [exact I|]. destruct c as [|a l]; [destruct J|].
    cbn in J. destruct (a_val a) eqn:E; [|destruct J]. destruct J as [<- |[]]. now exists a, l.
Qed.

Lemma to_function_inv n excluded order text f : to_function n excluded order text = inr f ->
  exists st, with_return text = inr (body f) /\ analyze n (body f) = Ok st /\
    params f = order (filter (fun x => negb (excluded x)) (nodup string_dec (flat_map first_name (live st)))).
Proof.
  unfold to_function. destruct (with_return text) as [x|prog]; [discriminate|].
  destruct (analyze n prog) as [st|e] eqn:E; [|discriminate]. intros [= <-]. cbn. now exists st.
Qed.

Lemma params_are n excluded order text f : (forall l, Permutation (order l) l) ->
  to_function n excluded order text = inr f -> exists st,
  with_return text = inr (body f) /\ analyze n (body f) = Ok st /\
  (forall x, In x (params f) <-> reported_live x st /\ excluded x = false) /\ NoDup (params f).
Proof.
  intros P H. apply to_function_inv in H. destruct H as (st & H1 & H2 & H3). exists st.
  split; [exact H1|]. split; [exact H2|]. rewrite H3. split.
  - intros x. split.
    + intros I. apply (Permutation_in _ (P _)) in I. apply filter_In in I. destruct I as (I & E).
      apply nodup_In in I. split; [now apply first_name_live|]. now destruct (excluded x).
    + intros (I & E). apply (Permutation_in _ (Permutation_sym (P _))). apply filter_In.
      split; [|now rewrite E]. apply nodup_In. now apply first_name_live.
  - eapply Permutation_NoDup; [apply Permutation_sym, P|]. apply NoDup_filter, NoDup_nodup.
Qed.

Theorem call_ok n k o bi excluded order text f pos kw G C :
  (forall l, Permutation (order l) l) -> to_function n excluded order text = inr f ->
  all simple (stmts_of text) -> ends_well text -> excluded "sys" = true ->
  no_clash excluded (stmts_of text) -> accepts (params f) pos kw = true ->
  (forall x v, given (params f) pos kw x = Some v -> v <> VNone) ->
  (forall x, In x (params f) -> given (params f) pos kw x = None ->
     exists v, C x = Some v /\ G x = Some v) ->
  call k o bi f pos kw G C =
  (cell_value k o bi (mkS (fun _ => None) (override G (given (params f) pos kw))) (stmts_of text), G).
Proof.
  intros P H Hs Hw Sys Nc Ac Gn Cl. destruct (params_are _ _ _ _ _ P H) as (st & H1 & H2 & H3 & _).
  destruct (ends_well_shape text Hw) as (pre & s & E1 & E2).
  rewrite H1 in E2. injection E2 as E2. rewrite E1 in *.
  unfold call. rewrite Ac.
  set (ps := params f) in *. set (m := given ps pos kw) in *.
  set (l0 := upd _ _ _).
  assert (Np : forall x, In x ps -> x <> "sys").
  { intros x I ->. apply H3 in I. destruct I. congruence. }
  assert (L0 : forall x, In x ps -> l0 x = match m x with Some v => Some v | None => Some VNone end).
  { intros x I. unfold l0, upd. destruct (String.eqb x "sys") eqn:E.
    - apply String.eqb_eq in E. destruct (Np x I E).
    - apply is_local_In in I. unfold is_local in I. rewrite I. reflexivity. }
  destruct (fill_ok C ps l0) as (l & El & Hl).
  { intros x I. rewrite (L0 x I). destruct (m x) as [v|] eqn:Em.
    - exists v. split; [reflexivity|]. intros ->. destruct (Gn x VNone Em eq_refl).
    - exists VNone. split; [reflexivity|]. intros _. destruct (Cl x I Em) as (v & E & _). now exists v. }
  rewrite El.
  set (names := ps ++ "sys" :: flat_map sbinds (body f)).
  set (st0 := mkS (fun _ => None) (override G m)).
  destruct (block_ok o bi [] k (body f)) with (st := st0) as (tr & T & R & S).
  { rewrite E2. apply body_ok. exact Hs. }
  assert (Fine : fine (body f)) by (rewrite E2; now apply body_fine).
  destruct (analyze_sound n (body f) st tr _ H2 Fine (ex_intro _ [] T)) as (Live & _).
  destruct (S names (fun x => In x ps) l G) as (l' & Er & _).
  - intros x I. apply in_or_app. right. now right.
  - split.
    + intros x _ I. rewrite Hl, (proj2 (is_local_In ps x) I), (L0 x I). unfold st0, override. cbn [glob].
      destruct (m x) as [v|] eqn:Em.
      * exists v. split; [|reflexivity]. destruct v; try reflexivity. destruct (Gn x VNone Em eq_refl).
      * destruct (Cl x I Em) as (v & Ec & Eg). rewrite Ec, Eg. now exists v.
    + intros x N. unfold st0, override. cbn [glob]. destruct (m x) as [v|] eqn:Em; [|reflexivity].
      destruct N. apply in_or_app. left. exact (given_param _ _ _ _ _ Ac Em).
  - intros x Ex. destruct (excluded x) eqn:Ee.
    + right. assert (Rx : In x (flat_map snames (pre ++ [s]))).
      { rewrite flat_map_app, <- ret_snames, <- flat_map_app, <- E2. apply R.
        destruct Ex as (a & b & -> & _). apply in_or_app. right. now left. }
      destruct (Nc x Ee Rx) as (N1 & N2). intros I. apply in_app_or in I. destruct I as [I|[I|I]].
      * apply H3 in I. destruct I. congruence.
      * now apply N1.
      * apply N2. rewrite flat_map_app, <- ret_sbinds, <- flat_map_app, <- E2. exact I.
    + left. apply H3. split; [now apply Live|exact Ee].
  - rewrite Er, cell_value_run, <- E2. fold m. fold st0. unfold result.
    destruct (fst (block_run (exec k o bi []) (body f) st0)); reflexivity.
Qed.
