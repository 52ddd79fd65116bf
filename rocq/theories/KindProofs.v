From Coq Require Import List Arith Bool.
From Verif Require Import Base KindModel KindSpec.
Import ListNotations.

Lemma kind_eqb_eq : forall a b, kind_eqb a b = true <-> a = b.
Proof. intros [] []; cbn; split; intros; (discriminate || reflexivity). Qed.

Lemma meant_kind : forall m e, meant m e = kind_of m e.
Proof. intros m e. destruct e as [| | | |[] x o deps|]; try reflexivity. cbn. now destruct (m o). Qed.

Lemma take_knd : forall s x deps y, knd (take s x deps y) = knd y /\ obj (take s x deps y) = obj y.
Proof.
  intros s x deps. unfold take. induction deps as [|z deps IH]; intros y; cbn [fold_left]; [auto|].
  destruct (z =? x); [apply IH|]. destruct (dget s z) as [q|]; [|apply IH].
  destruct ((obj q =? obj y) && scoped q); [|apply IH].
  destruct (IH (mkSym (knd y) (obj y) (body q) true)) as (A & B). rewrite A, B. auto.
Qed.

Lemma stmt_knd : forall d y, knd (update_stmt_node d y) = knd y /\ obj (update_stmt_node d y) = obj y.
Proof. intros d [k o b c]. destruct k; cbn; auto. Qed.

Lemma upsert_other : forall s x k o d deps z, z <> x -> dget (upsert s x k o d deps) z = dget s z.
Proof.
  intros s x k o d deps z N. apply Nat.eqb_neq in N. unfold upsert.
  destruct (dget s x); rewrite dget_dset, N; reflexivity.
Qed.

Lemma upsert_wf : forall s x k o d deps, dwf s -> dwf (upsert s x k o d deps).
Proof. intros. unfold upsert. destruct (dget s x); now apply dwf_dset. Qed.

(** The kind and the object of an upserted symbol. *)
Lemma upsert_same : forall s x k o d deps, exists y,
  dget (upsert s x k o d deps) x = Some y /\ obj y = o /\
  knd y = match dget s x with
          | Some p => if kind_eqb (knd p) Module || kind_eqb k Import then knd p else k
          | None => k
          end.
Proof.
  intros s x k o d deps. unfold upsert. destruct (dget s x) as [p|].
  - set (k1 := if kind_eqb (knd p) Module || kind_eqb k Import then knd p else k).
    set (y := update_stmt_node d (mkSym k1 o (body p) (scoped p))).
    destruct (stmt_knd d (mkSym k1 o (body p) (scoped p))) as (A & B). fold y in A, B. cbn in A, B.
    destruct (take_knd s x deps y) as (C & D).
    eexists. split; [rewrite dget_dset, Nat.eqb_refl; reflexivity|].
    destruct (kind_eqb k1 Import && (obj p =? o)); split; congruence.
  - destruct (stmt_knd d (mkSym k o None false)) as (A & B). cbn in A, B.
    destruct (take_knd s x deps (update_stmt_node d (mkSym k o None false))) as (C & D).
    eexists. split; [rewrite dget_dset, Nat.eqb_refl; reflexivity|]. split; congruence.
Qed.

Lemma step_cases : forall modobj s e,
  (exists x, e = Del x /\ step modobj s e = ddel s x) \/
  (exists x k o d deps, kind_of modobj e = Some (x, k) /\ target e = x /\
     step modobj s e = upsert s x k o d deps /\
     forall env, bind env e = fun z => if z =? x then Some o else env z).
Proof.
  intros modobj s e. destruct e as [x d o deps|x o|x o|x o|sub x o deps|x];
    [right; repeat eexists..|left; eexists; split; reflexivity].
Qed.

Lemma step_wf : forall modobj s e, dwf s -> dwf (step modobj s e).
Proof.
  intros modobj s e W. destruct (step_cases modobj s e) as [(x & _ & -> )|(x & k & o & d & deps & _ & _ & -> & _)].
  - now apply dwf_ddel.
  - now apply upsert_wf.
Qed.

(** Histories from the end. *)
Lemma hist_ind : forall (P : list event -> Prop),
  P [] -> (forall h e, P h -> P (h ++ [e])) -> forall h, P h.
Proof. intros P A B h. induction h using rev_ind; auto. Qed.

Lemma always_snoc : forall P h e, always P (h ++ [e]) -> always P h /\ P h e.
Proof.
  intros P h e A. split; [|now apply (A h e [])].
  intros h1 e1 h2 ->. apply (A h1 e1 (h2 ++ [e])). now rewrite <- app_assoc.
Qed.

Lemma run_snoc : forall m h e, run m (h ++ [e]) = step m (run m h) e.
Proof. intros. unfold run. now rewrite fold_left_app. Qed.

Lemma env_snoc : forall h e, env_of (h ++ [e]) = bind (env_of h) e.
Proof. intros. unfold env_of. now rewrite fold_left_app. Qed.

Lemma run_wf : forall m h, dwf (run m h).
Proof.
  intros m. apply hist_ind; [constructor|]. intros h e W. rewrite run_snoc. now apply step_wf.
Qed.

(** Objects of symbols are the variables'. *)
Lemma run_env : forall m h x, env_of h x = option_map obj (dget (run m h) x).
Proof.
  intros m. apply (hist_ind (fun h => forall x, env_of h x = option_map obj (dget (run m h) x))); [reflexivity|].
  intros h e IH x. rewrite env_snoc, run_snoc.
  destruct (step_cases m (run m h) e) as [(z & -> & -> )|(z & k & o & d & deps & _ & _ & -> & B)].
  - cbn. rewrite dget_ddel by apply run_wf. destruct (x =? z); [reflexivity|apply IH].
  - rewrite B. destruct (Nat.eqb_spec x z) as [ -> |N].
    + destruct (upsert_same (run m h) z k o d deps) as (y & -> & <- & _). reflexivity.
    + rewrite upsert_other by auto. apply IH.
Qed.

(** Kinds. *)
Lemma last_kind_snoc : forall m x h e, last_kind m x (h ++ [e]) =
  match e with
  | Del z => if z =? x then None else last_kind m x h
  | _ => match kind_of m e with
         | Some (z, k) => if z =? x then Some k else last_kind m x h
         | None => last_kind m x h
         end
  end.
Proof. intros. unfold last_kind. rewrite fold_left_app. cbn [fold_left]. rewrite <- meant_kind. reflexivity. Qed.

Lemma run_kind : forall m x h, always (usual m x) h ->
  last_kind m x h = option_map knd (dget (run m h) x).
Proof.
  intros m x. apply (hist_ind (fun h => always (usual m x) h -> last_kind m x h = option_map knd (dget (run m h) x)));
    [reflexivity|].
  intros h e IH A. apply always_snoc in A. destruct A as (A & U). specialize (IH A).
  rewrite last_kind_snoc, run_snoc.
  destruct (step_cases m (run m h) e) as [(z & -> & -> )|(z & k & o & d & deps & K & _ & -> & _)].
  - rewrite dget_ddel by apply run_wf. rewrite Nat.eqb_sym. destruct (x =? z); [reflexivity|exact IH].
  - assert (L : match e with
                | Del z0 => if z0 =? x then None else last_kind m x h
                | _ => match kind_of m e with
                       | Some (z0, k0) => if z0 =? x then Some k0 else last_kind m x h
                       | None => last_kind m x h
                       end
                end = if z =? x then Some k else last_kind m x h).
    { destruct e; try discriminate K; rewrite K; reflexivity. }
    rewrite L. unfold usual in U. rewrite meant_kind, K in U. destruct (Nat.eqb_spec z x) as [ -> |N].
    + destruct (U eq_refl) as (NM & IM).
      destruct (upsert_same (run m h) x k o d deps) as (y & -> & _ & KY). cbn [option_map]. rewrite KY.
      f_equal. destruct (dget (run m h) x) as [p|] eqn:G; [|reflexivity]. cbn [option_map] in IH.
      destruct (kind_eqb (knd p) Module) eqn:KM; [apply kind_eqb_eq in KM; congruence|].
      destruct (kind_eqb k Import) eqn:KI; [|reflexivity]. apply kind_eqb_eq in KI. cbn [orb].
      destruct (IM KI) as [H|H]; congruence.
    + rewrite upsert_other by auto. exact IH.
Qed.

(** Bodies. *)
Definition good (code : nat -> option nat) (y : sym) : Prop :=
  body y = code (obj y) /\ (body y <> None -> scoped y = true).

Lemma take_good : forall code s x deps y,
  (forall z q, dget s z = Some q -> good code q) -> good code y -> good code (take s x deps y).
Proof.
  intros code s x deps. unfold take. induction deps as [|z deps IH]; intros y A G; cbn [fold_left]; [auto|].
  apply IH; auto. destruct (z =? x); auto. destruct (dget s z) as [q|] eqn:Q; auto.
  destruct ((obj q =? obj y) && scoped q) eqn:E; auto.
  apply andb_true_iff in E. destruct E as (E & _). apply Nat.eqb_eq in E.
  destruct (A z q Q) as (B & _). split; cbn; congruence.
Qed.

(** Whatever the body was before, a dependency with the function gives it. *)
Lemma take_known : forall code s x deps y z q,
  (forall z q, dget s z = Some q -> good code q) ->
  In z deps -> z <> x -> dget s z = Some q -> obj q = obj y -> code (obj y) <> None ->
  good code (take s x deps y).
Proof.
  intros code s x deps. induction deps as [|w deps IH]; intros y z q A I N Q O C; [destruct I|].
  change (take s x (w :: deps) y) with (take s x deps
    (if w =? x then y else match dget s w with
       | Some q => if (obj q =? obj y) && scoped q then mkSym (knd y) (obj y) (body q) true else y
       | None => y end)).
  destruct I as [ -> |I].
  - apply Nat.eqb_neq in N. rewrite N, Q. apply Nat.eqb_eq in O as O'. rewrite O'. cbn [andb].
    destruct (A z q Q) as (B & S). assert (SC : scoped q = true) by (apply S; congruence).
    rewrite SC. apply take_good; auto. split; cbn; [congruence|auto].
  - set (y1 := if w =? x then y else _).
    assert (O1 : obj y1 = obj y).
    { unfold y1. destruct (w =? x); auto. destruct (dget s w); auto. destruct (_ && _); auto. }
    apply (IH y1 z q); auto; congruence.
Qed.

Record inv (code : nat -> option nat) (s : st) : Prop := mkInv {
  v_good : forall x y, dget s x = Some y -> good code y;
  v_fun : forall x y, dget s x = Some y -> knd y = Function -> body y <> None
}.

Lemma always_imp : forall (P Q : list event -> event -> Prop) h,
  (forall h e, P h e -> Q h e) -> always P h -> always Q h.
Proof. intros P Q h I A h1 e h2 E. apply I, (A h1 e h2 E). Qed.

(** Histories in which no function takes the name of a module. *)
Definition unmoduled (m : nat -> bool) (h : list event) (e : event) : Prop :=
  match e with Def x _ _ _ => forall y, dget (run m h) x = Some y -> knd y <> Module | _ => True end.

Lemma take_fun : forall code s x deps y,
  (forall z q, dget s z = Some q -> good code q) -> good code (take s x deps y) ->
  code (obj y) <> None -> body (take s x deps y) <> None.
Proof.
  intros code s x deps y A (B & _) C. destruct (take_knd s x deps y) as (_ & O). rewrite B, O. exact C.
Qed.

Lemma inv_upsert : forall code s x k o d deps,
  dwf s -> inv code s ->
  (match k with
   | Function => code o = d /\ d <> None /\ forall p, dget s x = Some p -> knd p <> Module
   | _ => d = None /\
          ((match dget s x with Some p => code (obj p) | None => None end) = code o \/
           (k <> Import /\ code o <> None /\ exists z q, In z deps /\ z <> x /\ dget s z = Some q /\ obj q = o)) /\
          (k = Import -> code o = None)
   end) ->
  inv code (upsert s x k o d deps).
Proof.
  intros code s x k o d deps W [G F] C.
  assert (ONE : forall y, good code y -> (knd y = Function -> body y <> None) ->
            inv code (dset s x y)).
  { intros y GY FY. split; intros z q; rewrite dget_dset; destruct (z =? x).
    - intros E. injection E as <-. auto.
    - apply G.
    - intros E. injection E as <-. auto.
    - apply F. }
  assert (FT : forall y, good code (take s x deps y) -> code (obj y) <> None \/ knd y <> Function ->
            inv code (dset s x (take s x deps y))).
  { intros y GY H. apply ONE; auto. destruct (take_knd s x deps y) as (K & _). rewrite K.
    intros KF. destruct H as [H|H]; [|contradiction]. now apply (take_fun code). }
  unfold upsert. destruct (dget s x) as [p|] eqn:P.
  - destruct (G x p P) as (BP & SP). pose proof (F x p P) as FP.
    destruct (kind_eqb (knd p) Module) eqn:KM.
    + (* stays a module *)
      cbn [orb]. apply kind_eqb_eq in KM. rewrite KM. cbn [kind_eqb andb update_stmt_node knd].
      destruct k; try (destruct C as (_ & _ & H); exfalso; now apply (H p)).
      all: destruct C as (_ & [C|(KN & CO & z & q & I & N & Q & O)] & CI);
        (apply FT; [|right; cbn; discriminate]);
        solve [apply take_good; auto; split; cbn; [congruence|auto]
              |apply (take_known code s x deps _ z q); auto].
    + destruct (kind_eqb k Import) eqn:KI; cbn [orb].
      * apply kind_eqb_eq in KI. subst k. destruct C as (-> & [C|(KN & _)] & CI); [|contradiction].
        specialize (CI eq_refl). rewrite CI in C.
        assert (KF : knd p <> Function).
        { intros H. apply (FP H). congruence. }
        assert (ST : update_stmt_node None (mkSym (knd p) o (body p) (scoped p)) = mkSym (knd p) o (body p) (scoped p)).
        { unfold update_stmt_node. cbn [knd]. destruct (knd p); try reflexivity. contradiction. }
        rewrite ST.
        assert (GY : good code (mkSym (knd p) o (body p) (scoped p))).
        { split; cbn; [congruence|]. intros H. exfalso. apply H. congruence. }
        destruct (kind_eqb (knd p) Import && (obj p =? o)).
        -- apply ONE; auto.
        -- apply FT; [now apply take_good|]. right. exact KF.
      * assert (NI : kind_eqb k Import && (obj p =? o) = false) by (rewrite KI; reflexivity).
        rewrite NI. destruct k; try discriminate KI.
        3: { destruct C as (CO & D & _). unfold update_stmt_node; cbn [knd obj].
             apply FT; [|left; cbn; congruence]. apply take_good; auto. split; cbn; [congruence|auto]. }
        all: destruct C as (-> & [C|(KN & CO & z & q & I & N & Q & O)] & _); cbn [update_stmt_node knd];
          (apply FT; [|right; cbn; discriminate]);
          solve [apply take_good; auto; split; cbn; [congruence|auto]
                |apply (take_known code s x deps _ z q); auto].
  - destruct k.
    3: { destruct C as (CO & D & _). unfold update_stmt_node; cbn [knd obj].
         apply FT; [|left; cbn; congruence]. apply take_good; auto. split; cbn; [congruence|auto]. }
    all: destruct C as (-> & [C|(KN & CO & z & q & I & N & Q & O)] & _); cbn [update_stmt_node knd];
      (apply FT; [|right; cbn; discriminate]);
      solve [apply take_good; auto; split; cbn; [congruence|auto]
            |apply (take_known code s x deps _ z q); auto].
Qed.

Lemma run_inv : forall m code h,
  always (tracked code) h -> always (unmoduled m) h -> inv code (run m h).
Proof.
  intros m code. apply (hist_ind (fun h => always (tracked code) h -> always (unmoduled m) h -> inv code (run m h))).
  { intros _ _. split; intros x y; discriminate. }
  intros h e IH A B. apply always_snoc in A, B. destruct A as (A & T), B as (B & U).
  specialize (IH A B). rewrite run_snoc. pose proof (run_wf m h) as W.
  assert (R : forall x, runs code (env_of h) x = match dget (run m h) x with Some p => code (obj p) | None => None end).
  { intros x. unfold runs. rewrite (run_env m h x). destruct (dget (run m h) x); reflexivity. }
  destruct e as [x d o deps|x o|x o|x o|sub x o deps|x]; cbn [step kind_of]; cbn [tracked] in T.
  - apply inv_upsert; auto. split; [exact T|]. split; [discriminate|exact U].
  - apply inv_upsert; auto. rewrite R in T. destruct T. repeat split; auto; try discriminate. left. congruence.
  - apply inv_upsert; auto. rewrite R in T. destruct T. repeat split; auto. left. congruence.
  - apply inv_upsert; auto. rewrite R in T. destruct T. repeat split; auto; try discriminate. left. congruence.
  - rewrite R in T.
    assert (C : (match dget (run m h) x with Some p => code (obj p) | None => None end) = code o \/
           (code o <> None /\ exists z q, In z deps /\ z <> x /\ dget (run m h) z = Some q /\ obj q = o)).
    { destruct T as [T|(CO & z & I & N & E)]; [auto|]. right. split; auto.
      rewrite (run_env m h z) in E. destruct (dget (run m h) z) as [q|] eqn:Q; [|discriminate].
      injection E as <-. exists z, q. auto. }
    apply inv_upsert; auto. destruct sub; [|destruct (m o)];
      (split; [reflexivity|]; split; [|discriminate]; destruct C as [C|C]; [left; exact C|right; split; [discriminate|exact C]]).
  - destruct IH as [G F]. split; intros z q; rewrite dget_ddel by auto; destruct (z =? x); try discriminate; eauto.
Qed.

(** A symbol is a module's as long as it is not deleted. *)
Lemma was_module_snoc : forall m x h e, was_module m x (h ++ [e]) =
  match e with
  | Del z => if z =? x then false else was_module m x h
  | _ => match kind_of m e with
         | Some (z, Module) => if z =? x then true else was_module m x h
         | _ => was_module m x h
         end
  end.
Proof. intros. unfold was_module. rewrite fold_left_app. cbn [fold_left]. rewrite <- meant_kind. reflexivity. Qed.

Lemma run_module : forall m x h y, dget (run m h) x = Some y -> knd y = Module -> was_module m x h = true.
Proof.
  intros m x. apply (hist_ind (fun h => forall y, dget (run m h) x = Some y -> knd y = Module -> was_module m x h = true));
    [discriminate|].
  intros h e IH y. rewrite was_module_snoc, run_snoc.
  destruct (step_cases m (run m h) e) as [(z & -> & -> )|(z & k & o & d & deps & K & _ & -> & _)].
  - rewrite dget_ddel by apply run_wf. rewrite (Nat.eqb_sym z x). destruct (x =? z); [discriminate|apply IH].
  - intros E KY.
    assert (L : (z = x /\ k = Module) \/ was_module m x h = true).
    { destruct (Nat.eqb_spec x z) as [ -> |N].
      - destruct (upsert_same (run m h) z k o d deps) as (y' & E' & _ & K').
        assert (y' = y) by congruence. subst y'. rewrite KY in K'.
        destruct (dget (run m h) z) as [p|] eqn:P; [|left; auto].
        destruct (kind_eqb (knd p) Module) eqn:KM; cbn [orb] in K'.
        + right. apply kind_eqb_eq in KM. now apply (IH p).
        + destruct (kind_eqb k Import); [|left; auto].
          exfalso. rewrite <- K' in KM. discriminate.
      - right. rewrite upsert_other in E by auto. now apply (IH y). }
    destruct e; try discriminate K; rewrite K; destruct L as [(-> & -> )|L]; try (now rewrite Nat.eqb_refl);
      destruct k; auto; destruct (z =? x); auto.
Qed.

Lemma nameless_unmoduled : forall m h, always (nameless m) h -> always (unmoduled m) h.
Proof.
  intros m h. apply always_imp. intros h' e H. destruct e; cbn in *; auto.
  intros y E K. pose proof (run_module m x h' y E K). congruence.
Qed.

Lemma run_follows : forall m code h x,
  always (tracked code) h -> always (nameless m) h ->
  followed (run m h) x = runs code (env_of h) x.
Proof.
  intros m code h x A B. destruct (run_inv m code h A (nameless_unmoduled m h B)) as [G _].
  unfold followed, runs. rewrite (run_env m h x). destruct (dget (run m h) x) as [y|] eqn:E; [|reflexivity].
  cbn. apply (G x y E).
Qed.

Lemma step_other : forall m s e z, dwf s -> z <> target e -> dget (step m s e) z = dget s z.
Proof.
  intros m s e z W N. destruct (step_cases m s e) as [(x & -> & -> )|(x & k & o & d & deps & _ & T & -> & _)].
  - rewrite dget_ddel by auto. apply Nat.eqb_neq in N. cbn in N. now rewrite N.
  - apply upsert_other. congruence.
Qed.

(** A definition of a function takes effect at once, whatever came before, if the
    name is not a module's. *)
Lemma def_follows : forall m h x d o,
  was_module m x h = false -> followed (run m (h ++ [Def x d o []])) x = Some d.
Proof.
  intros m h x d o NM. rewrite run_snoc. cbn. unfold upsert, followed.
  destruct (dget (run m h) x) as [p|] eqn:P.
  - destruct (kind_eqb (knd p) Module) eqn:KM.
    + apply kind_eqb_eq in KM. rewrite (run_module m x h p P KM) in NM. discriminate.
    + cbn. rewrite dget_dset, Nat.eqb_refl. reflexivity.
  - rewrite dget_dset, Nat.eqb_refl. reflexivity.
Qed.
