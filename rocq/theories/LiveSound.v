(** The analysis of a cell is sound: what may be read is reported live, and what is reported dead
    is written. *)
Require Import String List Bool Arith Lia.
Import ListNotations.
Require Import Verif.Base Verif.Loops Verif.LiveModel Verif.LiveSpec Verif.LiveProofs.
Local Open Scope list_scope.

(** ** Events *)

Definition wr (tr : list event) (x : string) : Prop := In (Write x) tr.
Definition orp (W V : string -> Prop) (x : string) : Prop := W x \/ V x.

Lemma exposed_nil x : ~ exposed x [].
Proof. intros (pre & post & E & _). destruct pre; discriminate. Qed.

Lemma exposed_app x a b : exposed x (a ++ b) <-> exposed x a \/ (~ wr a x /\ exposed x b).
Proof.
  split.
  - intros (pre & post & E & N).
    revert b pre post E N. induction a as [|v a IH]; intros b pre post E N.
    + right. split; [intros []|]. exists pre, post. auto.
    + destruct pre as [|u pre].
      * simpl in E. injection E as -> E. left. exists [], a. auto.
      * simpl in E. injection E as <- E. apply IH in E.
        -- destruct E as [(p & q & -> & M)|[M X]].
           ++ left. exists (v :: p), q. split; auto. intros [->|I]; [apply N; simpl; auto|auto].
           ++ right. split; auto. intros [->|I]; [apply N; simpl; auto|auto].
        -- intros I. apply N. right. auto.
  - intros [(p & q & -> & N)|[N (p & q & -> & M)]].
    + exists p, (q ++ b). rewrite <- app_assoc. auto.
    + exists (a ++ p), q. rewrite <- app_assoc. split; auto. rewrite in_app_iff. intros [I|I]; auto.
Qed.

Lemma exposed_in x a : exposed x a -> In (Read x) a.
Proof. intros (p & q & -> & _). apply in_or_app. simpl. auto. Qed.

Lemma exposed_read x L y : exposed x (read L y) -> x = y /\ ~ In x L.
Proof.
  intros E. apply exposed_in in E. unfold read in E. destruct (existsb (String.eqb y) L) eqn:D.
  - destruct E.
  - destruct E as [[= ->]|[]]. apply smem_nIn in D. auto.
Qed.

Lemma exposed_write x L y : ~ exposed x (write L y).
Proof.
  intros E. apply exposed_in in E. unfold write in E. destruct (existsb _ L); [destruct E|].
  destruct E as [[=]|[]].
Qed.

Lemma wr_write x L : In x L \/ wr (write L x) x.
Proof.
  unfold write, wr. destruct (existsb (String.eqb x) L) eqn:D.
  - apply smem_In in D. auto.
  - right. simpl. auto.
Qed.

Lemma wr_app x a b : wr (a ++ b) x <-> wr a x \/ wr b x.
Proof. unfold wr. apply in_app_iff. Qed.

(** ** One step of evaluation *)

Definition core L F e tr ok : Prop :=
  match e with
  | EConst _ => tr = [] /\ ok = true
  | EName x => tr = read L x /\ ok = true
  | EAttr b _ => ev L F b tr ok
  | ESub b s => evs L F [b; s] tr ok
  | ECall f args => evs L F (f :: args) tr ok \/
      exists g fn tr1 trb out F', f = EName g /\ evs L F (EName g :: args) tr1 true /\
        existsb (String.eqb g) L = false /\ fget F g = Some fn /\
        exs (fn_locals fn) F (fn_body fn) trb out F' /\ tr = tr1 ++ trb
  | EBin l r => evs L F [l; r] tr ok
  | EList es | EStr es | EOp es => evs L F es tr ok
  | EDict ks vs => evs L F (flat_map (fun p => [fst p; snd p]) (combine ks vs)) tr ok
  | ECond es => es <> [] /\ evsome L F es tr ok
  | EStar e => ev L F e tr ok
  | ENamed x e => ev L F e tr false /\ ok = false \/
                  exists tr', ev L F e tr' true /\ tr = tr' ++ write L x /\ ok = true
  | EComp elts gens => exists t i ifs gens', gens = Gen t i ifs :: gens' /\
      (ev L F i tr false /\ ok = false \/
       exists tr1 tr2, tr = tr1 ++ tr2 /\ ev L F i tr1 true /\
         evany (flat_map tnames (map gen_target gens) ++ L) F
           (elts ++ ifs ++ flat_map (fun g => gen_iter g :: gen_ifs g) gens') tr2 ok)
  | ELambda ds => evs L F ds tr ok
  end.

Lemma ev_core L F e tr ok : ev L F e tr ok ->
  (tr = [] /\ ok = false) \/ exists ok', core L F e tr ok' /\ (ok = true -> ok' = true).
Proof.
  induction 1; simpl; auto;
    try (right; eexists; split; [eassumption|auto]; fail);
    try (right; eexists; split; [split; reflexivity|auto]; fail).
  - destruct IHev as [[-> X]|(ok' & C & D)]; [discriminate|]. right. exists ok'. split; [auto|discriminate].
  - right. exists ok. split; auto.
  - right. exists (match out with Raise => false | _ => true end). split; auto. right.
    exists g, fn, tr, trb, out, F'. auto 10.
  - right. exists ok. split; auto. split; auto. discriminate.
  - right. exists true. split; auto. right. eauto.
  - right. exists false. split; auto.
  - right. exists false. split; auto. exists t, i, ifs, gens. auto.
  - right. exists ok. split; auto. exists t, i, ifs, gens. split; auto. right. exists tr, tr'. auto.
Qed.

(** ** Invariants *)

Definition Inv (L : list string) (W B : string -> Prop) (st : vst) : Prop :=
  (forall a x, In [a] (dead st) -> a_val a = CStr x -> In x L \/ W x) /\
  (forall c x, In c (dead st) -> rooted x c -> In x L \/ W x \/ B x \/ reported_live x st).

Lemma live_mono st st' x : incl (live st) (live st') -> reported_live x st -> reported_live x st'.
Proof. intros I (c & H & R). exists c. auto. Qed.

Lemma Inv_mono L (W W' B B' : string -> Prop) st st' :
  Inv L W B st -> incl (dead st') (dead st) -> incl (live st) (live st') ->
  (forall x, W x -> W' x) -> (forall x, B x -> B' x) -> Inv L W' B' st'.
Proof.
  intros [I J] D E HW HB. split.
  - intros a x H1 H2. destruct (I a x); auto.
  - intros c x H1 H2. destruct (J c x) as [?|[?|[?|?]]]; auto. right; right; right.
    eapply live_mono; eassumption.
Qed.

Section Sound.
Variables fs gs : list string.

Definition FI (st : vst) (F : list (string * fndef)) : Prop :=
  forall f fn, fget F f = Some fn ->
    fget (funs st) f = Some fn /\ In f fs /\ all (fine_stmt fs gs false) (fn_body fn) /\
    (forall y, In y (flat_map snames (fn_body fn)) -> In y (fn_locals fn) \/ In y gs) /\
    (forall y, In y gs -> ~ In y (fn_locals fn)).

Lemma FI_funs st st' F : funs st' = funs st -> FI st F -> FI st' F.
Proof. intros E H f fn G. rewrite E. auto. Qed.
Lemma FI_still st st' F : still st st' -> FI st F -> FI st' F.
Proof. intros [_ E]. apply FI_funs. auto. Qed.

Definition covers (N W B : string -> Prop) (st : vst) (tr : list event) : Prop :=
  forall x, exposed x tr -> N x /\ (W x \/ B x \/ reported_live x st).
Definition sound L N W B st tr (nrm : Prop) : Prop :=
  covers N W B st tr /\ (nrm -> Inv L (orp W (wr tr)) B st).

Lemma covers_nil N W B st : covers N W B st [].
Proof. intros x E. destruct (exposed_nil _ E). Qed.
Lemma covers_live (N W B : string -> Prop) st st' tr :
  covers N W B st tr -> incl (live st) (live st') -> covers N W B st' tr.
Proof.
  intros C I x E. destruct (C x E) as [C1 [C2|[C2|C2]]]; auto. split; auto. right; right.
  eapply live_mono; eassumption.
Qed.
Lemma covers_seq (N W B : string -> Prop) st a b :
  covers N W B st a -> covers N (orp W (wr a)) B st b -> covers N W B st (a ++ b).
Proof.
  intros C D x E. apply exposed_app in E. destruct E as [E|[M E]]; auto.
  destruct (D x E) as [D1 [[D2|D2]|D2]]; auto. contradiction.
Qed.
Lemma covers_app (N W B : string -> Prop) st a b :
  covers N W B st a -> covers N W B st b -> covers N W B st (a ++ b).
Proof. intros C D x E. apply exposed_app in E. destruct E as [E|[M E]]; auto. Qed.
Lemma covers_weaken (N W W' B B' : string -> Prop) st tr :
  (forall x, W x -> W' x \/ B' x) -> (forall x, B x -> B' x) -> covers N W B st tr -> covers N W' B' st tr.
Proof.
  intros HW HB C x E. destruct (C x E) as [C1 [C2|[C2|C2]]]; auto. destruct (HW _ C2); auto.
Qed.

Lemma sound_seq L N W B st1 st2 t1 t2 nrm :
  sound L N W B st1 t1 True -> incl (live st1) (live st2) ->
  sound L N (orp W (wr t1)) B st2 t2 nrm -> sound L N W B st2 (t1 ++ t2) nrm.
Proof.
  intros [C1 _] I [C2 I2]. split.
  - apply covers_seq; auto. eapply covers_live; eassumption.
  - intros n. eapply Inv_mono; [apply I2; auto| | | |]; auto using incl_refl.
    intros x. unfold orp. rewrite wr_app. tauto.
Qed.
Lemma sound_stop L N W B st1 st2 t1 (nrm : Prop) :
  covers N W B st1 t1 -> incl (live st1) (live st2) -> ~ nrm -> sound L N W B st2 t1 nrm.
Proof. intros C I X. split; [eapply covers_live; eassumption|tauto]. Qed.

Definition gsN (N : string -> Prop) : Prop := forall x, In x gs -> N x.
Definition namesN L (N : string -> Prop) (l : list string) : Prop :=
  forall x, In x l -> In x L \/ N x.

Lemma namesN_app L N a b : namesN L N (a ++ b) <-> namesN L N a /\ namesN L N b.
Proof.
  unfold namesN. split.
  - intros H. split; intros x I; apply H, in_or_app; auto.
  - intros [H1 H2] x I. apply in_app_or in I. destruct I; auto.
Qed.
Lemma namesN_flat {A} L N (f : A -> list string) l :
  namesN L N (flat_map f l) <-> forall a, In a l -> namesN L N (f a).
Proof.
  unfold namesN. split.
  - intros H a I x X. apply H. apply in_flat_map. eauto.
  - intros H x I. apply in_flat_map in I. destruct I as (a & I & X). eauto.
Qed.

Definition Pe n : Prop := forall L F (N W B : string -> Prop) st e st' tr ok,
  vexpr n false false st e = Ok st' -> fine_expr fs e -> FI st F -> gsN N ->
  namesN L N (enames e) -> Inv L W B st -> ev L F e tr ok ->
  sound L N W B st' tr (ok = true).

Definition Pa n : Prop := forall L F (N W B : string -> Prop) st e st' tr ok,
  vexpr n false true st e = Ok st' -> fine_expr fs e -> chainy fs e -> FI st F -> gsN N ->
  namesN L N (enames e) -> Inv L W B st -> ev L F e tr ok ->
  sound L N W (fun x => B x \/ root e = Some x /\ ~ In x L) st' tr False /\
  (ok = true -> Inv L (orp W (wr tr)) B st').

Definition Ps n : Prop := forall L F (N W B : string -> Prop) st top s st' tr out F',
  vstmt n false false st s = Ok st' -> fine_stmt fs gs top s -> FI st F -> gsN N ->
  namesN L N (snames s) -> (forall x, N x -> ~ In x L) -> Inv L W B st ->
  ex L F s tr out F' ->
  sound L N W B st' tr (out = Normal) /\ (top = false -> F' = F) /\ (out = Normal -> FI st' F').

(** ** Expressions without [:=] do not kill *)

Lemma nowalrus_dead n : forall att st e st',
  vexpr n false att st e = Ok st' -> fine_expr fs e -> ebinds e = [] ->
  incl (dead st') (dead st).
Proof.
  induction n as [|n IH]; intros att st e st' H Fe Be; [discriminate|].
  assert (IHs : forall att es st st', rfold (vexpr n false att) es st = Ok st' ->
            all (fine_expr fs) es -> flat_map ebinds es = [] -> incl (dead st') (dead st)).
  { intros att' es. induction es as [|e' es IHes]; simpl; intros s s' R A Bs.
    - injection R as <-. apply incl_refl.
    - steps R. destruct A as [A1 A2]. apply app_eq_nil in Bs. destruct Bs as [B1 B2].
      eapply incl_tran; [eapply IHes; eassumption|]. eapply IH; eassumption. }
  assert (At : forall b st c, dead (if b : bool then st else add_attrsub st c) = dead st).
  { intros b s c. destruct b; auto. unfold add_attrsub. destruct (cmem _ _); auto.
    destruct c as [|a l]; auto. destruct (a_val a); auto. destruct (_ || _)%bool; auto. }
  destruct e; cbn [vexpr] in H; cbn [fine_expr] in Fe; cbn [ebinds] in Be.
  - injection H as <-. apply incl_refl.
  - injection H as <-. unfold visit_name. destruct att; [apply incl_refl|].
    destruct (cmem _ _); apply incl_refl.
  - apply IH in H; [|tauto|auto]. rewrite At in H. auto.
  - destruct (quoted e1); [injection H as <-; apply incl_refl|]. steps H.
    apply app_eq_nil in Be. destruct Be as [B1 B2].
    apply IH in E; [|tauto|auto]. apply IH in H; [|tauto|auto]. rewrite At in E.
    eapply incl_tran; eassumption.
  - steps H. destruct Fe as (F1 & F2 & F3 & F4). apply app_eq_nil in Be. destruct Be as [B1 B2].
    apply IHs in E; auto. apply IH in E0; auto. rewrite At in E0.
    assert (D : dead st' = dead s0).
    { destruct e; try (injection H as <-; auto).
      destruct (fget (funs s0) x) as [fn|]; [|injection H as <-; auto].
      destruct (fn_kwonly fn); [|discriminate]. steps H. injection H as <-. auto. }
    rewrite D. eapply incl_tran; eassumption.
  - steps H. apply app_eq_nil in Be. destruct Be as [B1 B2].
    apply IH in E; [|tauto|auto]. apply IH in H; [|tauto|auto]. eapply incl_tran; eassumption.
  - eapply IHs; eassumption.
  - steps H. destruct Fe as (F1 & F2 & F3). apply app_eq_nil in Be. destruct Be as [B1 B2].
    apply IHs in E; auto. apply IHs in H; auto. eapply incl_tran; eassumption.
  - eapply IHs; eassumption.
  - eapply IHs; eassumption.
  - destruct Fe as [F1 F2]. eapply IHs; eassumption.
  - eapply IH; eassumption.
  - discriminate.
  - destruct Fe as (F1 & F2 & F3 & F4). apply app_eq_nil in Be. destruct Be as [B1 B2].
    steps H. injection H as <-. simpl. apply IHs in E0; auto. simpl in E0.
    assert (G : incl (dead s1) (dead s0)).
    { assert (F2' : forall g, In g gens -> fine_expr fs (gen_iter g) /\ all (fine_expr fs) (gen_ifs g)).
      { intros [t i ifs] I. change (all (fun g => let 'Gen t i ifs := g in
          pattern t /\ fine_expr fs i /\ all (fine_expr fs) ifs) gens) in F2.
        rewrite all_In in F2. apply F2 in I. simpl. tauto. }
      assert (B2' : forall g, In g gens -> ebinds (gen_iter g) = [] /\ flat_map ebinds (gen_ifs g) = []).
      { intros [t i ifs] I. rewrite nil_flat_map in B2. apply B2 in I. simpl.
        apply app_eq_nil in I. destruct I as [_ I]. apply app_eq_nil in I. auto. }
      revert E1. apply (rfold_inv _ (fun s => incl (dead s) (dead s0))); [apply incl_refl|].
      intros g t t' I J R. cbv beta in R. steps R. destruct (F2' g I), (B2' g I).
      apply IH in E1; auto. apply IHs in R; auto.
      eapply incl_tran; [exact R|]. eapply incl_tran; eassumption. }
    intros c I. apply In_cdiff in I. destruct I as [I J]. apply G, E0 in I.
    apply in_app_or in I. destruct I as [I|I]; auto. rewrite In_cdiff in J.
    destruct (in_dec (fun a b => match bool_dec (chain_eqb a b) true with
                                 | left h => left (proj1 (chain_eqb_eq a b) h)
                                 | right h => right (fun e => h (proj2 (chain_eqb_eq a b) e))
                                 end) c (dead st)); auto.
    exfalso. apply J. auto.
  - assert (A : forall ds s s', all (fun d => match d with EConst _ => True | _ => False end) ds ->
        rfold (vexpr n true att) ds s = Ok s' -> s' = s).
    { intros ds. induction ds as [|d ds IHd]; simpl; intros s s' A R.
      - injection R as <-. auto.
      - destruct A as [A1 A2]. destruct d; try destruct A1. steps R.
        destruct n as [|n]; [discriminate|]. injection E as <-. auto. }
    apply A in H; auto. subst. apply incl_refl.
Qed.

(** ** Targets that are visited to be killed *)

Lemma kill_pattern n : forall t att st st', pattern t -> vexpr n true att st t = Ok st' ->
  live st' = live st /\ modified st' = modified st /\ funs st' = funs st /\
  forall c, In c (dead st') <-> In c (dead st) \/ exists x, In x (tnames t) /\ c = [nm x].
Proof.
  induction n as [|n IH]; intros t att st st' P H; [discriminate|].
  destruct t; cbn [pattern] in P; try (destruct P; fail); cbn [vexpr] in H.
  - injection H as <-. simpl. repeat split; auto.
    + intros [<-|I]; eauto.
    + intros [I|(y & [<-|[]] & ->)]; auto.
  - cbn [tnames]. revert st st' H. induction es as [|e es IHes]; simpl; intros st st' H.
    + injection H as <-. split; [auto|]. split; [auto|]. split; [auto|]. intros c. split; auto.
      intros [I|(x & [] & _)]; auto.
    + destruct P as [P1 P2]. steps H. apply IH in E; auto. apply IHes in H; auto.
      destruct E as (E1 & E2 & E3 & E4), H as (H1 & H2 & H3 & H4).
      split; [congruence|]. split; [congruence|]. split; [congruence|].
      intros c. rewrite H4, E4. split.
      * intros [[I|(x & X & ->)]|(x & X & ->)]; auto; right; exists x; split; auto; apply in_or_app; auto.
      * intros [I|(x & X & ->)]; auto. apply in_app_or in X. destruct X; eauto.
  - apply IH in H; auto.
Qed.

Lemma kill_patterns n att : forall ts st st', all pattern ts ->
  rfold (vexpr n true att) ts st = Ok st' ->
  live st' = live st /\ modified st' = modified st /\ funs st' = funs st /\
  forall c, In c (dead st') <-> In c (dead st) \/ exists x, In x (flat_map tnames ts) /\ c = [nm x].
Proof.
  induction ts as [|t ts IH]; simpl; intros st st' P H.
  - injection H as <-. split; [auto|]. split; [auto|]. split; [auto|]. intros c. split; auto.
    intros [I|(x & [] & _)]; auto.
  - destruct P as [P1 P2]. steps H. apply kill_pattern in E; auto. apply IH in H; auto.
    destruct E as (E1 & E2 & E3 & E4), H as (H1 & H2 & H3 & H4).
    split; [congruence|]. split; [congruence|]. split; [congruence|].
    intros c. rewrite H4, E4. split.
    + intros [[I|(x & X & ->)]|(x & X & ->)]; auto; right; exists x; split; auto; apply in_or_app; auto.
    + intros [I|(x & X & ->)]; auto. apply in_app_or in X. destruct X; eauto.
Qed.

(** ** Chains *)

Lemma root_chain : forall e x, chainy fs e -> root e = Some x ->
  bin_root e = false /\ exists l a, rev_chain e = Some (l ++ [a]) /\ a_val a = CStr x.
Proof.
  fix IH 1. intros e x C R. destruct e; simpl in C, R; try discriminate; try contradiction.
  - injection R as ->. split; auto. exists [], (nm x). auto.
  - destruct (IH e x C R) as (H1 & l & at' & H2 & H3). split; auto. simpl. rewrite H2. simpl.
    exists (nm a :: l), at'. auto.
  - destruct (IH e1 x C R) as (H1 & l & at' & H2 & H3). split; auto. simpl. rewrite H2. simpl.
    exists (slice_atom false e2 ++ l), at'. rewrite <- app_assoc. auto.
  - destruct e; simpl in C, R; try discriminate; try contradiction.
    + injection R as ->. split; auto. exists [], (mkAtom (CStr x) true false). auto.
    + destruct (IH e x C R) as (H1 & l & at' & H2 & H3). split; auto. simpl. rewrite H2. simpl.
      exists (mkAtom (CStr a) true false :: l), at'. auto.
    + destruct (IH e1 x C R) as (H1 & l & at' & H2 & H3). split; auto. simpl. rewrite H2. simpl.
      exists (slice_atom true e2 ++ l), at'. rewrite <- app_assoc. auto.
Qed.

(** The chain of what stands before [.a], [[i]] or [(...)], and of the whole. *)
Lemma root_chain_of e x : chainy fs e -> root e = Some x ->
  bin_root e = false /\ exists l a, chain_of e = a :: l /\ a_val a = CStr x.
Proof.
  intros C R. destruct (root_chain e x C R) as (H1 & l & a & H2 & H3). split; auto.
  unfold chain_of. rewrite H2, rev_unit. eauto.
Qed.

Lemma root_attr b a x : chainy fs b -> root b = Some x ->
  bin_root (EAttr b a) = false /\
  exists l a', chain_of (EAttr b a) = a' :: l /\ a_val a' = CStr x /\ l <> [].
Proof.
  intros C R. destruct (root_chain b x C R) as (H1 & l & a' & H2 & H3). split; auto.
  unfold chain_of. simpl. rewrite H2. simpl. rewrite rev_unit. simpl. exists (rev l ++ [nm a]), a'.
  repeat split; auto. intros E. apply app_eq_nil in E. destruct E. discriminate.
Qed.

Lemma root_sub b s x : chainy fs b -> root b = Some x ->
  bin_root (ESub b s) = false /\
  exists l a', chain_of (ESub b s) = a' :: l /\ a_val a' = CStr x /\
    (l = [] -> chain_of (ESub b s) = chain_of b).
Proof.
  intros C R. destruct (root_chain b x C R) as (H1 & l & a' & H2 & H3). split; auto.
  unfold chain_of. simpl. rewrite H2. simpl. rewrite app_assoc, !rev_unit.
  exists (rev (slice_atom false s ++ l)), a'. repeat split; auto. intros E.
  destruct s; simpl in *; auto. apply app_eq_nil in E. destruct E. discriminate.
Qed.

Lemma callee_chainy f : callee fs f -> chainy fs f.
Proof. destruct f; simpl; tauto. Qed.

Lemma root_call f args x : callee fs f -> root f = Some x ->
  bin_root (ECall f args) = false /\
  exists l a', chain_of (ECall f args) = a' :: l /\ a_val a' = CStr x.
Proof.
  intros C R. destruct f; simpl in C, R; try discriminate; try contradiction.
  - injection R as ->. split; auto. exists [], (mkAtom (CStr x) true false). auto.
  - destruct (root_chain f x C R) as (H1 & l & a' & H2 & H3). split; auto.
    unfold chain_of. simpl. rewrite H2. simpl. rewrite rev_unit. simpl. eauto.
  - destruct (root_chain f1 x C R) as (H1 & l & a' & H2 & H3). split; auto.
    unfold chain_of. simpl. rewrite H2. simpl. rewrite app_assoc, rev_unit. eauto.
Qed.

Lemma dead_attrsub (b : bool) st c : dead (if b then st else add_attrsub st c) = dead st.
Proof.
  destruct b; auto. unfold add_attrsub. destruct (cmem _ _); auto.
  destruct c as [|a l]; auto. destruct (a_val a); auto. destruct (_ || _)%bool; auto.
Qed.

(** What [add_attrsub] leaves out is killed. *)
Lemma attrsub_case st a l x : a_val a = CStr x ->
  In (a :: l) (live (add_attrsub st (a :: l))) \/ In (a :: l) (dead st) \/
  exists a', In [a'] (dead st) /\ a_val a' = CStr x.
Proof.
  intros V. unfold add_attrsub. destruct (cmem (a :: l) (dead st)) eqn:M.
  - apply cmem_In in M. auto.
  - rewrite V. destruct (_ || _)%bool eqn:K.
    + apply orb_true_iff in K. rewrite !cmem_In in K. right; right.
      destruct K as [K|K]; [exists a|exists (nm x)]; auto.
    + left. simpl. auto.
Qed.

Lemma attrsub_covers L W B st c x :
  Inv L W B st -> rooted x c -> ~ In x L -> W x \/ B x \/ reported_live x (add_attrsub st c).
Proof.
  intros [I J] (a & l & -> & V) NL.
  destruct (attrsub_case st a l x V) as [H|[H|(a' & H & V')]].
  - right; right. exists (a :: l). split; auto. exists a, l. auto.
  - destruct (J _ x H) as [?|[?|[?|?]]]; auto; [exists a, l; auto|contradiction|].
    right; right. eapply live_mono; [|eassumption]. apply still_add_attrsub.
  - destruct (I _ _ H V'); auto. contradiction.
Qed.

Lemma Inv_attrsub L W B (b : bool) st c : Inv L W B st -> Inv L W B (if b then st else add_attrsub st c).
Proof.
  intros I. eapply Inv_mono; [exact I| | | |]; auto.
  - rewrite dead_attrsub. apply incl_refl.
  - apply still_if, still_add_attrsub.
Qed.

(** ** Evaluation depends on the locals only as far as names are read *)

Lemma read_ext L L' x : (In x L <-> In x L') -> read L x = read L' x.
Proof.
  intros H. unfold read. destruct (existsb (String.eqb x) L) eqn:A, (existsb (String.eqb x) L') eqn:B; auto.
  - apply smem_In in A. apply smem_nIn in B. tauto.
  - apply smem_In in B. apply smem_nIn in A. tauto.
Qed.

Lemma In_pairs {A} (ks vs : list A) e :
  In e (flat_map (fun p => [fst p; snd p]) (combine ks vs)) -> In e ks \/ In e vs.
Proof.
  intros H. apply in_flat_map in H. destruct H as ([k v] & I & [<-|[<-|[]]]); simpl.
  - left. eapply in_combine_l; eassumption.
  - right. eapply in_combine_r; eassumption.
Qed.

Definition agree (L L' l : list string) : Prop := forall x, In x l -> (In x L <-> In x L').
Lemma agree_app L L' a b : agree L L' (a ++ b) <-> agree L L' a /\ agree L L' b.
Proof.
  unfold agree. split.
  - intros H. split; intros x I; apply H, in_or_app; auto.
  - intros [H1 H2] x I. apply in_app_or in I. destruct I; auto.
Qed.
Lemma agree_flat {A} L L' (f : A -> list string) l :
  agree L L' (flat_map f l) <-> forall a, In a l -> agree L L' (f a).
Proof.
  unfold agree. split.
  - intros H a I x X. apply H. apply in_flat_map. eauto.
  - intros H x I. apply in_flat_map in I. destruct I as (a & I & X). eauto.
Qed.

Scheme ev_m := Minimality for ev Sort Prop
  with evs_m := Minimality for evs Sort Prop
  with evsome_m := Minimality for evsome Sort Prop
  with evany_m := Minimality for evany Sort Prop.

Lemma ev_ext L F e tr ok : ev L F e tr ok -> forall L',
  agree L L' (enames e) -> ebinds e = [] -> ev L' F e tr ok.
Proof.
  revert L F e tr ok.
  apply (ev_m
    (fun L F e tr ok => forall L', agree L L' (enames e) -> ebinds e = [] -> ev L' F e tr ok)
    (fun L F es tr ok => forall L', agree L L' (flat_map enames es) -> flat_map ebinds es = [] ->
       evs L' F es tr ok)
    (fun L F es tr ok => forall L', agree L L' (flat_map enames es) -> flat_map ebinds es = [] ->
       evsome L' F es tr ok)
    (fun L F es tr ok => forall L', agree L L' (flat_map enames es) -> flat_map ebinds es = [] ->
       evany L' F es tr ok)); intros; simpl in *; try (constructor; auto; fail).
  - rewrite (read_ext L L'); [constructor|]. apply H. simpl. auto.
  - constructor. apply H0; [rewrite app_nil_r|rewrite app_nil_r]; auto.
  - eapply ev_call_body; try eassumption; auto.
    destruct (existsb (String.eqb g) L') eqn:Q; [|auto].
    apply smem_In in Q. apply smem_nIn in H1. exfalso. apply H1. apply H4; simpl; auto.
  - constructor. apply H0; [rewrite app_nil_r|rewrite app_nil_r]; auto.
  - constructor. apply H0.
    + apply agree_flat. intros e I. apply In_pairs in I. apply agree_app in H1. destruct H1 as [A1 A2].
      destruct I as [I|I]; [eapply (proj1 (agree_flat L L' enames ks) A1)|eapply (proj1 (agree_flat L L' enames vs) A2)]; auto.
    + apply nil_flat_map. intros e I. apply In_pairs in I. apply app_eq_nil in H2. destruct H2 as [B1 B2].
      destruct I as [I|I]; [eapply (proj1 (nil_flat_map ebinds ks) B1)|eapply (proj1 (nil_flat_map ebinds vs) B2)]; auto.
  - discriminate.
  - discriminate.
  - apply app_eq_nil in H2. destruct H2 as [B1 B2]. apply app_eq_nil in B2. destruct B2 as [B2 B3].
    apply app_eq_nil in B2. destruct B2 as [B2 B4]. apply app_eq_nil in B4. destruct B4 as [B4 B5].
    apply agree_app in H1. destruct H1 as [A1 A2]. apply agree_app in A2. destruct A2 as [A2 A3].
    apply agree_app in A2. destruct A2 as [A2 A4]. apply ev_comp. auto.
  - apply app_eq_nil in H4. destruct H4 as [B1 B2]. apply app_eq_nil in B2. destruct B2 as [B2 B3].
    apply app_eq_nil in B2. destruct B2 as [B2 B4]. apply app_eq_nil in B4. destruct B4 as [B4 B5].
    apply agree_app in H3. destruct H3 as [A1 A2]. apply agree_app in A2. destruct A2 as [A2 A3].
    apply agree_app in A2. destruct A2 as [A2 A4]. apply ev_comp_run; auto. simpl. apply H2.
    + intros x I. rewrite !flat_map_app in I. rewrite !in_app_iff.
      assert (G : In x L <-> In x L').
      { rewrite !in_app_iff in I. destruct I as [I|[I|I]]; auto.
        apply A3. clear - I. apply in_flat_map in I. destruct I as (e & I & X).
        apply in_flat_map in I. destruct I as ([t i ifs] & I & Y). apply in_flat_map.
        exists (Gen t i ifs). split; auto. simpl in Y. destruct Y as [<-|Y]; apply in_or_app; auto.
        right. apply in_flat_map. eauto. }
      tauto.
    + rewrite !flat_map_app, B1, B5. simpl. apply nil_flat_map. intros e I. apply in_flat_map in I.
      destruct I as ([t' i' ifs'] & I & Y). rewrite nil_flat_map in B3. apply B3 in I.
      apply app_eq_nil in I. destruct I as [_ I]. apply app_eq_nil in I. destruct I as [I1 I2].
      simpl in Y. destruct Y as [<-|Y]; auto. rewrite nil_flat_map in I2. auto.
  - constructor. apply app_eq_nil in H2. apply agree_app in H1. apply H0; tauto.
  - apply app_eq_nil in H4. apply agree_app in H3. constructor; [apply H0|apply H2]; tauto.
  - apply app_eq_nil in H2. apply agree_app in H1. constructor. apply H0; tauto.
  - apply evsome_skip. apply app_eq_nil in H2. apply agree_app in H1.
    destruct H1 as [A1 A2], H2 as [B1 B2]. apply agree_app in A2. apply app_eq_nil in B2. apply H0.
    + apply agree_app. tauto.
    + destruct B2 as [_ ->]. rewrite B1. auto.
  - apply app_eq_nil in H4. apply agree_app in H3. destruct H3 as [A1 A2], H4 as [B1 B2].
    apply evsome_next; auto.
  - eapply evany_stop; [eassumption|]. apply H1.
    + apply (proj1 (agree_flat L L' enames es)); auto.
    + apply (proj1 (nil_flat_map ebinds es)); auto.
  - eapply evany_cons; [eassumption| |]; auto. apply H1.
    + apply (proj1 (agree_flat L L' enames es)); auto.
    + apply (proj1 (nil_flat_map ebinds es)); auto.
Qed.

(** ** Lists of expressions *)

Lemma all_app {A} (P : A -> Prop) a b : all P (a ++ b) <-> all P a /\ all P b.
Proof.
  rewrite !all_In. split.
  - intros H. split; intros x I; apply H, in_or_app; auto.
  - intros [H1 H2] x I. apply in_app_or in I. destruct I; auto.
Qed.

Lemma Pe_list n : Pe n -> forall L F (N W B : string -> Prop) es st st' tr ok,
  rfold (vexpr n false false) es st = Ok st' -> all (fine_expr fs) es -> FI st F -> gsN N ->
  namesN L N (flat_map enames es) -> Inv L W B st -> evs L F es tr ok ->
  sound L N W B st' tr (ok = true).
Proof.
  intros P L F N W B es. revert W. induction es as [|e es IH]; simpl; intros W st st' tr ok R A Fi G Na I X.
  - injection R as <-. inversion X; subst. split; [apply covers_nil|]. intros _.
    eapply Inv_mono; [exact I| | | |]; auto using incl_refl. unfold orp; auto.
  - steps R. destruct A as [A1 A2]. apply namesN_app in Na. destruct Na as [N1 N2].
    pose proof (vexpr_still _ _ _ _ _ _ E) as S1. pose proof (vexprs_still _ _ _ _ _ _ R) as S2.
    inversion X; subst.
    + assert (C : sound L N W B s tr (false = true)) by (eapply P; eassumption).
      apply (sound_stop _ _ _ _ s); [apply C|apply S2|discriminate].
    + assert (C : sound L N W B s tr0 (true = true)) by (eapply P; eassumption).
      apply (sound_seq _ _ _ _ s).
      * destruct C as [C1 C2]. split; auto.
      * apply S2.
      * eapply IH; try eassumption.
        -- eapply FI_still; eassumption.
        -- apply C. auto.
Qed.

(** Without [:=] the order does not matter. *)
Lemma Pe_set n : Pe n -> forall L F (N W B : string -> Prop) es st st',
  rfold (vexpr n false false) es st = Ok st' -> all (fine_expr fs) es -> flat_map ebinds es = [] ->
  FI st F -> gsN N -> namesN L N (flat_map enames es) -> Inv L W B st ->
  (forall e tr ok, In e es -> ev L F e tr ok -> covers N W B st' tr) /\
  incl (dead st') (dead st) /\ Inv L W B st'.
Proof.
  intros P L F N W B es. induction es as [|e es IH]; simpl; intros st st' R A Be Fi G Na I.
  - injection R as <-. split; [intros e tr ok []|]. split; [apply incl_refl|auto].
  - steps R. destruct A as [A1 A2]. apply namesN_app in Na. destruct Na as [N1 N2].
    apply app_eq_nil in Be. destruct Be as [B1 B2].
    pose proof (vexpr_still _ _ _ _ _ _ E) as S1. pose proof (vexprs_still _ _ _ _ _ _ R) as S2.
    pose proof (nowalrus_dead _ _ _ _ _ E A1 B1) as D1.
    assert (I1 : Inv L W B s).
    { eapply Inv_mono; [exact I|exact D1|apply S1| |]; auto. }
    destruct (IH s st' R A2 B2 (FI_still _ _ _ S1 Fi) G N2 I1) as (H1 & H2 & H3).
    split; [|split; auto; eapply incl_tran; eassumption].
    intros e' tr ok [<-|J] X; eauto. apply (covers_live _ _ _ s); [|apply S2].
    assert (C : sound L N W B s tr (ok = true)) by (eapply P; eassumption). apply C.
Qed.

Lemma covers_evs L F N W B st es tr ok :
  (forall e tr ok, In e es -> ev L F e tr ok -> covers N W B st tr) -> evs L F es tr ok ->
  covers N W B st tr.
Proof.
  revert tr ok. induction es as [|e es IH]; intros tr ok H X; inversion X; subst.
  - apply covers_nil.
  - eapply H; [left; reflexivity|eassumption].
  - apply covers_app; [eapply H; [left; reflexivity|eassumption]|].
    eapply IH; [|eassumption]. intros e0 tr2 ok2 J. apply H. right. auto.
Qed.
Lemma covers_evany L F N W B st es tr ok :
  (forall e tr ok, In e es -> ev L F e tr ok -> covers N W B st tr) -> evany L F es tr ok ->
  covers N W B st tr.
Proof.
  intros H X. induction X.
  - apply covers_nil.
  - eapply H; eassumption.
  - apply covers_app; eauto.
Qed.
Lemma covers_evsome L F N W B st es tr ok :
  (forall e tr ok, In e es -> ev L F e tr ok -> covers N W B st tr) -> evsome L F es tr ok ->
  covers N W B st tr.
Proof.
  intros H X. induction X.
  - eapply H; [left; reflexivity|eassumption].
  - apply IHX. intros e0 tr0 ok0 J. apply H. simpl in *. tauto.
  - apply covers_app; [eapply H; [left; reflexivity|eassumption]|].
    apply IHX. intros e0 tr0 ok0 J. apply H. right. auto.
Qed.

Lemma Inv_wr L W B st tr : Inv L W B st -> Inv L (orp W (wr tr)) B st.
Proof. intros I. eapply Inv_mono; [exact I| | | |]; auto using incl_refl. unfold orp; auto. Qed.

Lemma inv_evs2 L F a b tr ok : evs L F [a; b] tr ok ->
  (ev L F a tr false /\ ok = false) \/
  exists t1 t2, tr = t1 ++ t2 /\ ev L F a t1 true /\ ev L F b t2 ok.
Proof.
  intros X. inversion X as [|? ? ? ? ? Y|? ? ? ? t1 t2 ? Y Z]; subst; auto. right.
  inversion Z as [|? ? ? ? ? Y'|? ? ? ? t3 t4 ? Y' Z']; subst.
  - exists t1, t2. auto.
  - inversion Z'; subst. rewrite app_nil_r. exists t1, t3. auto.
Qed.

(** ** The cases of attributes, subscripts and calls *)

Section Step.
Variable n : nat.
Hypothesis IHe : Pe n.
Hypothesis IHa : Pa n.
Hypothesis IHs : Ps n.

Lemma stmts_sound L F (N W B : string -> Prop) top ss st st' tr out F' :
  rfold (vstmt n false false) ss st = Ok st' -> all (fine_stmt fs gs top) ss -> FI st F -> gsN N ->
  namesN L N (flat_map snames ss) -> (forall x, N x -> ~ In x L) -> Inv L W B st ->
  exs L F ss tr out F' ->
  sound L N W B st' tr (out = Normal) /\ (top = false -> F' = F) /\ (out = Normal -> FI st' F').
Proof.
  intros R A Fi G Na D I X. revert W R Fi I A Na. revert F st tr out F' X.
  induction ss as [|s ss IH]; simpl; intros F st tr out F' X W R Fi I A Na.
  - injection R as <-. inversion X; subst. split; [|auto]. split; [apply covers_nil|]. intros _.
    apply Inv_wr. auto.
  - steps R. destruct A as [A1 A2]. apply namesN_app in Na. destruct Na as [N1 N2].
    pose proof (vstmts_grow _ _ _ _ _ _ R) as S2. inversion X; subst.
    + edestruct IHs as (C1 & C2 & C3); try eassumption. split; [|split; auto; contradiction].
      apply (sound_stop _ _ _ _ s0); [apply C1|apply S2|auto].
    + edestruct IHs as ([C0 C1] & C2 & C3); try eassumption.
      edestruct IH as (D1 & D2 & D3); try eassumption; [apply C3; auto|apply C1; auto|].
      split; [|split; auto].
      * apply (sound_seq _ _ _ _ s0); [split; auto|apply S2|auto].
      * intros T. rewrite D2, C2; auto.
Qed.

(** After [f(...)] has been visited, as a callee. *)
Lemma inline_cases k att st f st' :
  match f with
  | EName g =>
      match fget (funs st) g with
      | None => Ok st
      | Some fn =>
          match fn_kwonly fn with
          | _ :: _ => Err AttributeError
          | [] =>
              rbind (rfold (vstmt n k att) (fn_body fn)
                       (mkV [] (map (fun p => [nm p]) (fn_params fn)) [] (funs st)))
                (fun st' => Ok (with_live st (live st ++ live st')))
          end
      end
  | _ => Ok st
  end = Ok st' ->
  dead st' = dead st /\ incl (live st) (live st') /\ funs st' = funs st /\
  forall g fn, f = EName g -> fget (funs st) g = Some fn -> exists sb,
    rfold (vstmt n k att) (fn_body fn)
      (mkV [] (map (fun p => [nm p]) (fn_params fn)) [] (funs st)) = Ok sb /\
    incl (live sb) (live st').
Proof.
  intros H. destruct f;
    try (injection H as <-; split; [auto|]; split; [apply incl_refl|]; split; [auto|]; discriminate).
  destruct (fget (funs st) x) as [fn|] eqn:Q.
  - destruct (fn_kwonly fn); [|discriminate]. steps H. injection H as <-.
    split; [auto|]. split; [apply incl_appl, incl_refl|]. split; [auto|].
    intros g fn' [= <-] Q'. rewrite Q in Q'. injection Q' as <-. exists s. split; auto.
    simpl. apply incl_appr, incl_refl.
  - injection H as <-. split; [auto|]. split; [apply incl_refl|]. split; [auto|].
    intros g fn [= <-] Q'. congruence.
Qed.

Lemma body_sound F (N : string -> Prop) st fn g sb trb out F' :
  FI st F -> gsN N -> fget F g = Some fn ->
  rfold (vstmt n false false) (fn_body fn)
    (mkV [] (map (fun p => [nm p]) (fn_params fn)) [] (funs st)) = Ok sb ->
  exs (fn_locals fn) F (fn_body fn) trb out F' ->
  forall x, exposed x trb -> N x /\ reported_live x sb.
Proof.
  intros Fi G Q R X x E. destruct (Fi g fn Q) as (H1 & H2 & H3 & H4 & H5).
  destruct (stmts_sound (fn_locals fn) F (fun x => In x gs) (fun _ => False) (fun _ => False) false
              (fn_body fn) (mkV [] (map (fun p => [nm p]) (fn_params fn)) [] (funs st)) sb trb out F')
    as ([C _] & _ & _); auto.
  - intros y. auto.
  - assert (Pr : forall c, In c (map (fun p => [nm p]) (fn_params fn)) ->
               exists p, c = [nm p] /\ In p (fn_locals fn)).
    { intros c I. apply in_map_iff in I. destruct I as (p & <- & I). exists p. split; auto.
      apply in_or_app. auto. }
    split; simpl.
    + intros a y I V. apply Pr in I. destruct I as (p & [= ->] & I). simpl in V. injection V as ->. auto.
    + intros c y I (a & l & -> & V). apply Pr in I. destruct I as (p & [= -> ->] & I).
      simpl in V. injection V as ->. auto.
  - destruct (C x E) as [C1 [[]|[[]|C2]]]. auto.
Qed.

Lemma step_att : Pa (S n).
Proof.
  intros L F N W B st e st' tr ok H Fe Ch Fi G Na I X.
  apply ev_core in X. destruct X as [[-> ->]|(ok' & X & Ho)].
  { split; [split; [apply covers_nil|intros []]|discriminate]. }
  assert (Goal : sound L N W (fun x => B x \/ root e = Some x /\ ~ In x L) st' tr False /\
                 (ok' = true -> Inv L (orp W (wr tr)) B st')).
  2:{ destruct Goal as [G1 G2]. split; auto. }
  clear Ho ok. rename ok' into ok.
  assert (Wk : forall B' : string -> Prop, sound L N W B st' tr (ok = true) ->
             (forall x, B x -> B' x) ->
             sound L N W B' st' tr False /\ (ok = true -> Inv L (orp W (wr tr)) B st')).
  { intros B' [C1 C2] HB. split; auto. split; [|intros []].
    eapply covers_weaken; [| |exact C1]; auto. }
  destruct e; cbn [vexpr] in H; cbn [fine_expr] in Fe; cbn [chainy] in Ch; cbn [core] in X;
    cbn [enames] in Na; try contradiction.
  - destruct X as [-> ->]. injection H as <-. split; [split; [apply covers_nil|intros []]|].
    intros _. apply Inv_wr. auto.
  - destruct X as [-> ->]. injection H as <-. unfold visit_name. split.
    + split; [|intros []]. intros y E. apply exposed_read in E. destruct E as [-> E]. split.
      * destruct (Na x); simpl; auto. contradiction.
      * right. left. right. simpl. auto.
    + intros _. apply Inv_wr. auto.
  - simpl in H. edestruct IHa as [[C1 C2] C3]; try eassumption; try tauto.
    split; [split; [exact C1|tauto]|exact C3].
  - destruct Fe as (F1 & F2 & F3 & F4). rewrite F3 in H. simpl in H. steps H.
    apply namesN_app in Na. destruct Na as [N1 N2].
    pose proof (vexpr_still _ _ _ _ _ _ E) as S1. pose proof (vexpr_still _ _ _ _ _ _ H) as S2.
    apply inv_evs2 in X. destruct X as [[X ->]|(t1 & t2 & -> & X1 & X2)].
    + edestruct IHa as [[C1 C2] C3]; try eassumption.
      split; [|discriminate]. split; [|intros []]. eapply covers_live; [exact C1|apply S2].
    + edestruct IHa as [[C1 C2] C3]; try eassumption.
      edestruct (IHe L F N (orp W (wr t1)) B) as [D1 D2]; try eassumption;
        [eapply FI_still; eassumption|apply C3; auto|].
      split.
      * split; [|intros []]. apply covers_seq; [eapply covers_live; [exact C1|apply S2]|].
        eapply covers_weaken; [| |exact D1]; auto.
      * intros Q. eapply Inv_mono; [apply D2; auto| | | |]; auto using incl_refl.
        intros x. unfold orp. rewrite wr_app. tauto.
  - destruct Fe as (F1 & F2 & F3 & F4). steps H.
    apply app_eq_nil in F4. destruct F4 as [B1 B2].
    apply namesN_app in Na. destruct Na as [N1 N2].
    pose proof (vexprs_still _ _ _ _ _ _ E) as S1. pose proof (vexpr_still _ _ _ _ _ _ E0) as S2.
    destruct (Pe_set n IHe L F N W B args st s E F3 B2 Fi G N2 I) as (U1 & U2 & U3).
    simpl in E0.
    destruct (inline_cases _ _ _ _ _ H) as (D1 & D2 & D3 & D4).
    pose proof (FI_still _ _ _ S1 Fi) as Fi1.
    assert (Cf : forall tr ok, ev L F e tr ok ->
              covers N W (fun x => B x \/ root (ECall e args) = Some x /\ ~ In x L) st' tr).
    { intros tr0 ok0 X0. edestruct IHa as [[C1 C2] C3]; try exact E0; try eassumption.
      { apply callee_chainy. auto. }
      eapply covers_live; [exact C1|auto]. }
    assert (Ca : forall tr ok, evs L F (e :: args) tr ok ->
              covers N W (fun x => B x \/ root (ECall e args) = Some x /\ ~ In x L) st' tr).
    { intros tr0 ok0 X0. eapply covers_evs; [|exact X0]. intros e' tr' ok1 [<-|J] Y; [eauto|].
      eapply covers_live; [|exact D2]. eapply covers_live; [|apply S2].
      eapply covers_weaken; [| |eapply U1; eassumption]; auto. }
    split.
    + split; [|intros []]. destruct X as [X|(g & fn & tr1 & trb & out & F' & -> & X1 & X2 & X3 & X4 & ->)].
      * eauto.
      * destruct (Fi g fn X3) as (_ & Y & _). simpl in Ch. contradiction.
    + intros _. apply Inv_wr. eapply Inv_mono; [exact U3| | | |]; auto.
      * rewrite D1. eapply nowalrus_dead; eassumption.
      * eapply incl_tran; [apply S2|exact D2].
  - apply Wk; auto. eapply Pe_list; try eassumption.
    + simpl. steps H. rewrite E. simpl. rewrite H. reflexivity.
    + simpl. tauto.
    + simpl. rewrite app_nil_r. auto.
  - apply Wk; auto. eapply Pe_list; eassumption.
  - destruct Fe as (F1 & F2 & F3). steps H. apply app_eq_nil in F3. destruct F3 as [B1 B2].
    apply namesN_app in Na. destruct Na as [N1 N2].
    destruct (Pe_set n IHe L F N W B ks st s E F1 B1 Fi G N1 I) as (U1 & U2 & U3).
    pose proof (vexprs_still _ _ _ _ _ _ E) as S1. pose proof (vexprs_still _ _ _ _ _ _ H) as S2.
    destruct (Pe_set n IHe L F N W B vs s st' H F2 B2 (FI_still _ _ _ S1 Fi) G N2 U3) as (V1 & V2 & V3).
    apply Wk; auto. split; [|intros _; apply Inv_wr; auto].
    eapply covers_evs; [|exact X]. intros e tr' ok1 J Y. apply In_pairs in J. destruct J as [J|J].
    + eapply covers_live; [eapply U1; eassumption|apply S2].
    + eapply V1; eassumption.
Qed.
End Step.

(** ** Assignments *)

Lemma names_dead n : forall es st st', rfold (vexpr n false false) es st = Ok st' ->
  all (fine_expr fs) es -> flat_map ebinds es = [] -> incl (dead st') (dead st).
Proof.
  induction es as [|e es IH]; simpl; intros st st' R A B.
  - injection R as <-. apply incl_refl.
  - steps R. destruct A as [A1 A2]. apply app_eq_nil in B. destruct B as [B1 B2].
    eapply incl_tran; [eapply IH; eassumption|]. eapply nowalrus_dead; eassumption.
Qed.

(** What is assigned to starts with a name that is reported, or killed. *)
Lemma visit_base n st b st' x : vexpr n false false st b = Ok st' -> fine_expr fs b -> chainy fs b ->
  root b = Some x ->
  In (chain_of b) (live st') \/ In (chain_of b) (dead st) \/
  exists a, In [a] (dead st) /\ a_val a = CStr x.
Proof.
  intros H Fb C R. destruct n as [|n]; [discriminate|].
  destruct (root_chain_of b x C R) as (Bn & l & a & Ec & V).
  assert (K : forall s0, In (a :: l) (live (add_attrsub s0 (chain_of b))) \/ In (chain_of b) (dead s0) \/
            exists a, In [a] (dead s0) /\ a_val a = CStr x).
  { intros s0. rewrite Ec. apply attrsub_case. auto. }
  destruct b; cbn [vexpr] in H; simpl in C, R; try discriminate; try contradiction.
  - injection H as <-. injection R as ->. unfold visit_name.
    destruct (cmem [nm x] (dead st)) eqn:M.
    + apply cmem_In in M. right; right. exists (nm x). auto.
    + left. simpl. auto.
  - rewrite Bn in H. simpl orb in H. cbv iota in H. apply vexpr_still in H.
    destruct (K st) as [K1|K1]; auto. left. rewrite Ec. apply H. auto.
  - cbn [fine_expr] in Fb. destruct Fb as (_ & _ & Q & _). rewrite Q, Bn in H. simpl orb in H.
    cbv iota in H. steps H. apply vexpr_still in H. apply vexpr_still in E.
    destruct (K st) as [K1|K1]; auto. left. rewrite Ec. apply H, E. auto.
  - cbn [fine_expr] in Fb. destruct Fb as (F1 & F2 & F3 & F4). apply app_eq_nil in F4.
    rewrite Bn in H. simpl orb in H. cbv iota in H. steps H.
    assert (D : incl (dead s) (dead st)) by (eapply names_dead; [eassumption|auto|tauto]).
    apply vexpr_still in E0. apply inline_cases in H. destruct H as (_ & H & _).
    destruct (K s) as [K1|[K1|(a' & K1 & K2)]].
    + left. rewrite Ec. apply H, E0. auto.
    + auto.
    + right; right. exists a'. auto.
Qed.

Lemma target_pattern n : forall t att st st', pattern t -> vtarget n att st t = Ok st' ->
  live st' = live st /\ funs st' = funs st /\
  forall c, In c (dead st') <-> In c (dead st) \/ exists x, In x (tnames t) /\ c = [nm x].
Proof.
  induction n as [|n IH]; intros t att st st' P H; [discriminate|].
  destruct t; cbn [pattern] in P; try (destruct P; fail); cbn [vtarget] in H.
  - injection H as <-. simpl. split; [auto|]. split; [auto|]. intros c. split.
    + intros [<-|I]; eauto.
    + intros [I|(y & [<-|[]] & ->)]; auto.
  - cbn [tnames]. revert st st' H. induction es as [|e es IHes]; simpl; intros st st' H.
    + injection H as <-. split; [auto|]. split; [auto|]. intros c. split; auto.
      intros [I|(x & [] & _)]; auto.
    + destruct P as [P1 P2]. steps H. apply IH in E; auto. apply IHes in H; auto.
      destruct E as (E1 & E3 & E4), H as (H1 & H3 & H4).
      split; [congruence|]. split; [congruence|].
      intros c. rewrite H4, E4. split.
      * intros [[I|(x & X & ->)]|(x & X & ->)]; auto; right; exists x; split; auto; apply in_or_app; auto.
      * intros [I|(x & X & ->)]; auto. apply in_app_or in X. destruct X; eauto.
  - apply IH in H; auto.
Qed.

Lemma inv_stores L F t ts tr ok : stores L F (t :: ts) tr ok ->
  (store L F t tr false /\ ok = false) \/
  exists t1 t2, tr = t1 ++ t2 /\ store L F t t1 true /\ stores L F ts t2 ok.
Proof. intros X. inversion X; subst; eauto 10. Qed.

Lemma store_pattern L F : forall t tr ok, pattern t -> store L F t tr ok ->
  (forall x, ~ exposed x tr) /\ (ok = true -> forall x, In x (tnames t) -> In x L \/ wr tr x).
Proof.
  fix IH 1. intros t tr ok P X.
  destruct t; cbn [pattern] in P; try (destruct P; fail).
  - inversion X; subst.
    + split; [intros y; apply exposed_nil|discriminate].
    + split; [intros y; apply exposed_write|]. intros _ y [<-|[]]. apply wr_write.
  - assert (Y : (tr = [] /\ ok = false) \/ stores L F es tr ok) by (inversion X; subst; auto).
    destruct Y as [[-> ->]|Y]; [split; [intros y; apply exposed_nil|discriminate]|].
    clear X. cbn [tnames]. revert tr ok Y.
    induction es as [|e es IHes]; intros tr ok X.
    + inversion X; subst. split; [intros y; apply exposed_nil|]. intros _ y [].
    + destruct P as [P1 P2]. apply inv_stores in X. destruct X as [[X ->]|(t1 & t2 & -> & X1 & X2)].
      * destruct (IH e tr false P1 X) as [A _]. split; [auto|discriminate].
      * destruct (IH e t1 true P1 X1) as [A1 A2].
        destruct (IHes P2 t2 ok X2) as [B1 B2]. split.
        -- intros x E. apply exposed_app in E. destruct E as [E|[_ E]]; [eapply A1|eapply B1]; exact E.
        -- intros Q x I. rewrite wr_app. simpl in I. apply in_app_or in I. destruct I as [I|I].
           ++ destruct (A2 eq_refl x I); auto.
           ++ destruct (B2 Q x I); auto.
  - assert (Y : (tr = [] /\ ok = false) \/ store L F t tr ok) by (inversion X; subst; auto).
    destruct Y as [[-> ->]|Y]; [split; [intros y; apply exposed_nil|discriminate]|].
    apply (IH t tr ok P Y).
Qed.

Section Assign.
Variable n : nat.
Hypothesis IHle : forall m, m <= n -> Pe m.
Let IHe : Pe n := IHle n (le_n n).

Definition base (t : expr) : option expr :=
  match t with EAttr b _ | ESub b _ => Some b | _ => None end.

Lemma fine_base t b : fine_target fs t -> base t = Some b ->
  fine_expr fs b /\ chainy fs b /\ ebinds b = [] /\ (exists x, root b = Some x) /\
  incl (enames b) (enames t).
Proof.
  intros H E. destruct t; simpl in E; try discriminate; injection E as ->.
  - destruct H as (A & B & C & D). split; [auto|]. split; [auto|]. split; [auto|].
    split; [destruct (root b); [eauto|contradiction]|apply incl_refl].
  - destruct H as (A & B & C & D & E & G). simpl in G. apply app_eq_nil in G.
    split; [auto|]. split; [auto|]. split; [apply G|].
    split; [destruct (root b); [eauto|contradiction]|]. simpl. apply incl_appl, incl_refl.
Qed.

(** Names that are read while storing. *)
Definition uses (ts : list expr) : list string :=
  flat_map (fun t => match base t with Some _ => enames t | None => [] end) ts.

Lemma bases_sound L F (N W B : string -> Prop) : forall ts st st',
  rfold (fun s t => match t with
                    | EAttr b _ | ESub b _ => vexpr n false false s b
                    | _ => Ok s
                    end) ts st = Ok st' ->
  all (fine_target fs) ts -> FI st F -> gsN N -> namesN L N (uses ts) -> Inv L W B st ->
  still st st' /\ incl (dead st') (dead st) /\
  (forall t b tr ok, In t ts -> base t = Some b -> ev L F b tr ok -> covers N W B st' tr) /\
  (forall t b x, In t ts -> base t = Some b -> root b = Some x ->
     In (chain_of b) (live st') \/ In (chain_of b) (dead st) \/
     exists a, In [a] (dead st) /\ a_val a = CStr x).
Proof.
  induction ts as [|t ts IH]; simpl; intros st st' R A Fi G Na I.
  - injection R as <-. split; [apply still_refl|]. split; [apply incl_refl|].
    split; [intros t b tr ok []|intros t b x []].
  - steps R. destruct A as [A1 A2]. apply namesN_app in Na. destruct Na as [N1 N2].
    assert (P : still st s /\ incl (dead s) (dead st) /\
              forall b, base t = Some b -> vexpr n false false st b = Ok s).
    { assert (Q : (base t = None /\ s = st) \/ exists b, base t = Some b /\ vexpr n false false st b = Ok s).
      { destruct t; simpl; eauto; injection E as ->; auto. }
      destruct Q as [[Q ->]|(b & Q & V)].
      - split; [apply still_refl|]. split; [apply incl_refl|]. congruence.
      - destruct (fine_base t b A1 Q) as (Q1 & Q2 & Q3 & _). split; [eapply vexpr_still; eassumption|].
        split; [eapply nowalrus_dead; eassumption|]. congruence. }
    destruct P as (P1 & P2 & P3).
    assert (I1 : Inv L W B s) by (eapply Inv_mono; [exact I|exact P2|apply P1| |]; auto).
    destruct (IH s st' R A2 (FI_still _ _ _ P1 Fi) G N2 I1) as (H1 & H2 & H3 & H4).
    split; [eapply still_trans; eassumption|]. split; [eapply incl_tran; eassumption|]. split.
    + intros t' b tr ok [<-|J] Q X; [|eauto].
      destruct (fine_base t b A1 Q) as (Q1 & Q2 & Q3 & Q4 & Q5).
      apply (covers_live _ _ _ s); [|apply H1].
      assert (C : sound L N W B s tr (ok = true)).
      { eapply IHe; try eassumption; auto. rewrite Q in N1. intros y Y. apply N1. apply Q5. auto. }
      apply C.
    + intros t' b x [<-|J] Q X.
      * destruct (fine_base t b A1 Q) as (Q1 & Q2 & Q3 & Q4 & Q5).
        destruct (visit_base n st b s x (P3 b Q) Q1 Q2 X) as [Y|[Y|Y]]; auto.
        left. apply H1. auto.
      * destruct (H4 t' b x J Q X) as [Y|[Y|(a & Y & Y')]]; auto. right; right. eauto.
Qed.

(** The second pass over the targets, with the stores. [D0] is what was dead before; [ts0] are all
    targets. *)
Definition classed (L : list string) (W : string -> Prop) (D0 : list chain) (ts0 : list expr) st :=
  forall c, In c (dead st) -> In c D0 \/ (exists x, c = [nm x] /\ (In x L \/ W x)) \/
                              exists t b, In t ts0 /\ base t = Some b /\ c = chain_of t.

Lemma targets_sound L F (N B : string -> Prop) D0 ts0 :
  gsN N ->
  (forall t b tr ok s, In t ts0 -> base t = Some b -> ev L F b tr ok -> covers N (fun _ => False) B s tr) ->
  (forall t b x, In t ts0 -> base t = Some b -> rooted x (chain_of t) -> In x L \/ B x) ->
  (forall c x, In c D0 -> rooted x c -> In x L \/ B x) ->
  forall ts W st st' tr ok, rfold (vtarget n false) ts st = Ok st' ->
  incl ts ts0 -> all (fine_target fs) ts -> FI st F -> namesN L N (uses ts) ->
  classed L W D0 ts0 st -> stores L F ts tr ok ->
  covers N W B st' tr /\ (ok = true -> classed L (orp W (wr tr)) D0 ts0 st').
Proof.
  intros G Hb Hr Hd. induction ts as [|t ts IH]; simpl; intros W st st' tr ok R Ic A Fi Na Cl X.
  - injection R as <-. inversion X; subst. split; [apply covers_nil|]. intros _ c J.
    destruct (Cl c J) as [?|[(x & E & [?|?])|?]]; auto; right; left; exists x; unfold orp; auto.
  - steps R. destruct A as [A1 A2]. apply namesN_app in Na. destruct Na as [N1 N2].
    assert (Ht0 : In t ts0) by (apply Ic; simpl; auto).
    assert (St : still st s) by (eapply vtarget_still; eassumption).
    assert (Rs : still s st').
    { revert R. apply still_rfold. intros a u u' _. apply vtarget_still. }
    (* one target *)
    assert (One : forall tr ok, store L F t tr ok ->
              covers N W B s tr /\ (ok = true -> classed L (orp W (wr tr)) D0 ts0 s)).
    { clear X. intros tr1 ok1 X.
      destruct (base t) as [b|] eqn:Q.
      - destruct (fine_base t b A1 Q) as (Q1 & Q2 & Q3 & Q4 & Q5).
        (* the state with the chain killed *)
        assert (Cl' : classed L W D0 ts0 (kill st (chain_of t))).
        { intros c [<-|J]; [right; right; eauto|auto]. }
        destruct n as [|m] eqn:En; [discriminate|].
        destruct t; simpl in Q; try discriminate; injection Q as ->; cbn [vtarget] in E.
        + injection E as <-. split.
          * inversion X; subst; [apply covers_nil|].
            eapply (covers_weaken _ (fun _ => False) _ B); [intros ? []|auto|eapply (Hb (EAttr b a)); [auto|reflexivity|eassumption]].
          * intros _ c J. destruct (Cl' c J) as [?|[(x & ? & [?|?])|?]]; auto; right; left; exists x; unfold orp; auto.
        + destruct A1 as (A11 & A12 & A13 & A14 & A15 & A16). simpl in A16. apply app_eq_nil in A16.
          assert (I1 : Inv L (orp W B) B (kill st (chain_of (ESub b t2)))).
          { split.
            - intros a' x J V. destruct (Cl' _ J) as [J'|[(y & Ey & Hy)|(t' & b' & T1 & T2 & T3)]].
              + destruct (Hd _ x J'); unfold orp; auto. exists a', []; auto.
              + injection Ey as ->. simpl in V. injection V as ->. unfold orp. tauto.
              + destruct (Hr t' b' x T1 T2); unfold orp; auto. rewrite <- T3. exists a', []; auto.
            - intros c x J V. destruct (Cl' _ J) as [J'|[(y & -> & Hy)|(t' & b' & T1 & T2 & ->)]].
              + destruct (Hd _ x J'); auto.
              + destruct V as (a' & l & [= <- <-] & V). simpl in V. injection V as ->. unfold orp. tauto.
              + destruct (Hr t' b' x T1 T2); auto. }
          assert (Sl : forall tr ok, ev L F t2 tr ok -> covers N W B s tr).
          { intros tr2 ok2 Y.
            assert (C : sound L N (orp W B) B s tr2 (ok2 = true)).
            { assert (PeS : Pe m) by (apply IHle; lia). eapply PeS; try eassumption.
              intros y Y'. apply N1. simpl. apply in_or_app. auto. }
            destruct C as [C _]. eapply covers_weaken; [| |exact C]; unfold orp; tauto. }
          split.
          * assert (Y : tr1 = [] \/ evs L F [b; t2] tr1 ok1) by (inversion X; subst; auto).
            destruct Y as [->|Y]; [apply covers_nil|]. apply inv_evs2 in Y.
            assert (Hbb : forall tr ok, ev L F b tr ok -> covers N W B s tr).
            { intros tr2 ok2 Z. eapply (covers_weaken _ (fun _ => False) _ B); [intros ? []|auto|eapply (Hb (ESub b t2)); [auto|reflexivity|eassumption]]. }
            destruct Y as [[Y _]|(t1 & t3 & -> & Y1 & Y2)]; [eauto|]. apply covers_app; eauto.
          * intros _ c J. assert (J' : In c (dead (kill st (chain_of (ESub b t2))))).
            { eapply nowalrus_dead; [exact E|auto|apply A16|auto]. }
            destruct (Cl' c J') as [?|[(x & ? & [?|?])|?]]; auto; right; left; exists x; unfold orp; auto.
      - assert (P : pattern t) by (destruct t; simpl in Q; try discriminate; exact A1).
        destruct (store_pattern L F t tr1 ok1 P X) as [S1 S2].
        destruct (target_pattern n t false st s P E) as (T1 & T2 & T3).
        split.
        + intros x Y. destruct (S1 x Y).
        + intros Ok1 c J. apply T3 in J. destruct J as [J|(x & J & ->)].
          * destruct (Cl c J) as [?|[(x & ? & [?|?])|?]]; auto; right; left; exists x; unfold orp; auto.
          * right; left. exists x. split; auto. unfold orp. destruct (S2 Ok1 x J); auto. }
    apply inv_stores in X. destruct X as [[X ->]|(tr0 & tr' & -> & X1 & X2)].
    + destruct (One tr false X) as [C _]. split; [|discriminate]. eapply covers_live; [exact C|apply Rs].
    + destruct (One tr0 true X1) as [C1 C2].
      destruct (IH (orp W (wr tr0)) s st' tr' ok R) as [D1 D2]; auto.
      { intros y Y. apply Ic. simpl. auto. }
      { eapply FI_still; eassumption. }
      split.
      * apply covers_seq; [eapply covers_live; [exact C1|apply Rs]|auto].
      * intros Q c J. destruct (D2 Q c J) as [?|[(x & E1 & E2)|?]]; auto. right; left. exists x. split; auto.
        unfold orp in *. rewrite wr_app. tauto.
Qed.

Definition names_opt (v : option expr) : list string :=
  match v with Some e => enames e | None => [] end.

Lemma assign_sound L F (N W B : string -> Prop) st ts v st' tr1 ok1 tr2 ok2 :
  vassign (S n) false false st ts v None = Ok st' ->
  all (fine_target fs) ts -> match v with Some e => fine_expr fs e | None => True end ->
  FI st F -> gsN N -> namesN L N (uses ts ++ names_opt v) -> Inv L W B st ->
  match v with Some e => ev L F e tr1 ok1 | None => tr1 = [] /\ ok1 = true end ->
  (if ok1 then stores L F ts tr2 ok2 else tr2 = [] /\ ok2 = false) ->
  sound L N W B st' (tr1 ++ tr2) (ok2 = true).
Proof.
  intros H A Fv Fi G Na I X1 X2. pose proof (vassign_still _ _ _ _ _ _ _ _ H) as St.
  apply namesN_app in Na. destruct Na as [N1 N2].
  cbn [vassign fold_opt] in H. steps H. injection E as <-. injection H as <-.
  rename s2 into s4. rename s0 into s2. rename s1 into s3.
  set (B1 := fun x => B x \/ reported_live x st).
  assert (I0 : Inv L W B1 (with_live st [])).
  { destruct I as [I1 I2]. split; [exact I1|]. intros c x J R.
    destruct (I2 c x J R) as [?|[?|[?|?]]]; unfold B1; auto 6. }
  assert (Fi0 : FI (with_live st []) F) by (eapply FI_funs; [|exact Fi]; auto).
  assert (V : sound L N W B1 s2 tr1 (ok1 = true) /\ still (with_live st []) s2).
  { destruct v as [e|]; simpl in E0.
    - split; [eapply IHe; eassumption|eapply vexpr_still; eassumption].
    - injection E0 as <-. destruct X1 as [-> ->]. split; [|apply still_refl].
      split; [apply covers_nil|]. intros _. apply Inv_wr. auto. }
  destruct V as [[V1 V2] V3].
  assert (L3 : incl (live s3) (live (mkV (live s4 ++ live s3)
      (dead s3 ++ cdiff (cdiff (elt_chains ts v ++ dead s4) (dead s3)) (live s3)) (modified s4) (funs s4))))
    by (simpl; apply incl_appr, incl_refl).
  set (st' := mkV (live s4 ++ live s3) _ _ _) in *.
  assert (B1' : forall x, B1 x -> B x \/ reported_live x st').
  { intros x [?|?]; auto. right. eapply live_mono; [apply St|auto]. }
  destruct ok1.
  2:{ destruct X2 as [-> ->]. rewrite app_nil_r. split; [|discriminate].
      assert (S23 : incl (live s2) (live s3)).
      { assert (Q : still s2 s3); [|apply Q]. revert E1. apply still_rfold. intros t u u' _ R.
        destruct t; try (injection R as <-; apply still_refl); eapply vexpr_still; eassumption. }
      intros x Ex. destruct (V1 x Ex) as [Y1 [Y2|[Y2|Y2]]]; auto.
      split; auto. right; right. eapply live_mono; [|exact Y2]. eapply incl_tran; eassumption. }
  specialize (V2 eq_refl).
  pose proof (FI_still _ _ _ V3 Fi0) as Fi2.
  destruct (bases_sound L F N _ B1 ts s2 s3 E1 A Fi2 G N1 V2) as (H1 & H2 & H3 & H4).
  set (W2 := orp W (wr tr1)) in *.
  assert (I3 : Inv L W2 B1 s3) by (eapply Inv_mono; [exact V2|exact H2|apply H1| |]; auto).
  set (B2 := fun x => W2 x \/ B1 x \/ reported_live x s3).
  assert (Hd : forall c x, In c (dead s3) -> rooted x c -> In x L \/ B2 x).
  { intros c x J R. destruct I3 as [_ I3]. destruct (I3 c x J R) as [?|[?|[?|?]]]; unfold B2; auto. }
  assert (Hr : forall t b x, In t ts -> base t = Some b -> rooted x (chain_of t) -> In x L \/ B2 x).
  { intros t b x J Q R.
    assert (At : fine_target fs t) by (rewrite all_In in A; auto).
    destruct (fine_base t b At Q) as (Q1 & Q2 & Q3 & (y & Q4) & Q5).
    destruct (root_chain_of b y Q2 Q4) as (_ & l & a & Ec & Va).
    assert (y = x) as ->.
    { destruct R as (a' & l' & R1 & R2).
      destruct t; simpl in Q; try discriminate; injection Q as ->.
      - destruct (root_attr b a0 y Q2 Q4) as (_ & l0 & a1 & Ec' & Va' & _). congruence.
      - destruct (root_sub b t2 y Q2 Q4) as (_ & l0 & a1 & Ec' & Va' & _). congruence. }
    destruct (H4 t b x J Q Q4) as [Y|[Y|(a' & Y & Y')]].
    - right. unfold B2. right; right. exists (chain_of b). split; auto. exists a, l. auto.
    - destruct V2 as [_ V2]. destruct (V2 (chain_of b) x Y) as [?|[?|[?|?]]]; unfold B2; auto.
      + exists a, l. auto.
      + right; right; right. eapply live_mono; [apply H1|auto].
    - destruct V2 as [V2 _]. destruct (V2 a' x Y Y'); unfold B2; auto. }
  destruct (targets_sound L F N B2 (dead s3) ts G) with (ts := ts) (W := W2)
    (st := with_live s3 (live st)) (st' := s4) (tr := tr2) (ok := ok2) as [T1 T2]; auto.
  { intros t b tr ok s J Q X x Ex. destruct (H3 t b tr ok J Q X x Ex) as [Y1 Y2]. split; auto. }
  { apply incl_refl. }
  { eapply FI_funs; [|exact Fi2]. simpl. apply H1. }
  { intros c J. auto. }
  assert (Fin : forall x, B2 x -> W2 x \/ B x \/ reported_live x st').
  { intros x [?|[?|?]]; auto. right; right. eapply live_mono; eassumption. }
  split.
  - apply covers_seq.
    + intros x Ex. destruct (V1 x Ex) as [Y1 [Y2|[Y2|Y2]]]; auto.
      split; auto. right; right. eapply live_mono; [|exact Y2]. eapply incl_tran; [apply H1|auto].
    + intros x Ex. destruct (T1 x Ex) as [Y1 [Y2|[Y2|Y2]]]; auto.
      split; auto. right; right. eapply live_mono; [|exact Y2]. simpl. apply incl_appl, incl_refl.
  - intros ->. specialize (T2 eq_refl).
    assert (Wn : forall x, W2 x \/ wr tr2 x -> orp W (wr (tr1 ++ tr2)) x).
    { intros x. unfold W2, orp. rewrite wr_app. tauto. }
    split.
    + intros a x J Va. simpl in J. apply in_app_or in J. destruct J as [J|J].
      * destruct I3 as [I3 _]. destruct (I3 a x J Va); auto.
      * apply In_cdiff in J. destruct J as [J J1]. apply In_cdiff in J. destruct J as [J J2].
        apply in_app_or in J. destruct J as [J|J].
        { exfalso. unfold elt_chains in J. destruct ts as [|[] []]; try destruct J.
          destruct v as [[]|]; try destruct J. apply in_map_iff in J. destruct J as (i & [=] & _). }
        destruct (T2 _ J) as [Y|[(y & [= ->] & Y)|(t & b & Y1 & Y2 & Y3)]]; [contradiction| |].
        { simpl in Va. injection Va as ->. unfold orp in Y. destruct Y as [?|Y]; auto. }
        assert (At : fine_target fs t) by (rewrite all_In in A; auto).
        destruct (fine_base t b At Y2) as (Q1 & Q2 & Q3 & (y & Q4) & Q5).
        destruct t; simpl in Y2; try discriminate; injection Y2 as ->.
        { destruct (root_attr b a0 y Q2 Q4) as (_ & l0 & a1 & Ec' & Va' & Ln). rewrite Ec' in Y3.
          injection Y3 as _ <-. contradiction. }
        destruct (root_sub b t2 y Q2 Q4) as (_ & l0 & a1 & Ec' & Va' & Ln).
        assert (l0 = []) by congruence. assert (y = x) as -> by congruence.
        rewrite (Ln H) in Y3.
        destruct V2 as [V2 _].
        destruct (H4 _ b x Y1 eq_refl Q4) as [Y|[Y|(a' & Y & Y')]].
        { rewrite <- Y3 in Y. contradiction. }
        { rewrite <- Y3 in Y. destruct (V2 a x Y Va); auto. }
        { destruct (V2 a' x Y Y'); auto. }
    + intros c x J R. simpl in J. apply in_app_or in J. destruct J as [J|J].
      * destruct (Hd c x J R) as [?|Y]; auto. destruct (Fin x Y) as [?|[?|?]]; auto.
      * apply In_cdiff in J. destruct J as [J J1]. apply In_cdiff in J. destruct J as [J J2].
        apply in_app_or in J. destruct J as [J|J].
        { unfold elt_chains in J. destruct ts as [|[] []]; try destruct J.
          destruct v as [[]|]; try destruct J. apply in_map_iff in J. destruct J as (i & <- & _).
          destruct R as (a & l & [= <- <-] & Va). simpl in Va. injection Va as ->.
          apply inv_stores in X2. destruct X2 as [[_ X2]|(t1 & t2 & -> & X2 & X3)]; [discriminate|].
          inversion X2; subst. destruct (wr_write x L) as [?|Y]; auto. right; left. apply Wn. right.
          apply wr_app. auto. }
        destruct (T2 _ J) as [Y|[(y & -> & Y)|(t & b & Y1 & Y2 & ->)]]; [contradiction| |].
        { destruct R as (a & l & [= <- <-] & Va). simpl in Va. injection Va as ->.
          destruct Y as [?|Y]; auto. }
        destruct (Hr t b x Y1 Y2 R) as [?|Y]; auto. destruct (Fin x Y) as [?|[?|?]]; auto.
Qed.

Lemma aug_sound L F (N W B : string -> Prop) st t v st' tr ok :
  vassign (S n) false false st [] (Some v) (Some t) = Ok st' ->
  fine_expr fs t -> fine_expr fs v ->
  FI st F -> gsN N -> namesN L N (enames t ++ enames v) -> Inv L W B st ->
  evs L F [t; v] tr ok ->
  sound L N W B st' tr (ok = true).
Proof.
  intros H Ft Fv Fi G Na I X. pose proof (vassign_still _ _ _ _ _ _ _ _ H) as St.
  cbn [vassign fold_opt rfold] in H. steps H. injection E1 as <-. injection E2 as <-.
  injection H as <-. apply rmap_Ok in E. destruct E as (s1 & E3 & E).
  rename s0 into s2. 
  set (B1 := fun x => B x \/ reported_live x st).
  assert (I0 : Inv L W B1 (with_live st [])).
  { destruct I as [I1 I2]. split; [exact I1|]. intros c x J R.
    destruct (I2 c x J R) as [?|[?|[?|?]]]; unfold B1; auto 6. }
  assert (Fi0 : FI (with_live st []) F) by (eapply FI_funs; [|exact Fi]; auto).
  apply namesN_app in Na. destruct Na as [N1 N2].
  pose proof (vexpr_still _ _ _ _ _ _ E3) as S1. pose proof (vexpr_still _ _ _ _ _ _ E0) as S2.
  assert (C : sound L N W B1 s2 tr (ok = true)).
  { apply inv_evs2 in X. destruct X as [[X ->]|(t1 & t2 & -> & X1 & X2)].
    - assert (C : sound L N W B1 s1 tr (false = true)) by (eapply IHe; eassumption).
      apply (sound_stop _ _ _ _ s1); [apply C|rewrite <- E in S2; apply S2|discriminate].
    - assert (C : sound L N W B1 s1 t1 (true = true)) by (eapply IHe; eassumption).
      destruct C as [C1 C2]. apply (sound_seq _ _ _ _ s1).
      + split; auto.
      + rewrite <- E in S2. apply S2.
      + rewrite <- E in *. eapply IHe; try eassumption.
        * eapply FI_funs; [|exact Fi0]. simpl. apply S1.
        * eapply Inv_mono; [exact (C2 eq_refl)| | | |]; simpl; auto using incl_refl. }
  destruct C as [C1 C2].
  set (st' := mkV _ _ _ _) in *.
  assert (B1' : forall x, B1 x -> B x \/ reported_live x st').
  { intros x [?|?]; auto. right. eapply live_mono; [apply St|auto]. }
  assert (L2 : incl (live s2) (live st')) by (simpl; apply incl_appr, incl_refl).
  split.
  - intros x Ex. destruct (C1 x Ex) as [Y1 [Y2|[Y2|Y2]]]; auto.
    split; auto. right; right. eapply live_mono; eassumption.
  - intros Q. specialize (C2 Q).
    assert (D : incl (dead st') (dead s2)).
    { intros c J. simpl in J. apply in_app_or in J. destruct J as [J|J]; auto.
      apply In_cdiff in J. destruct J as [J _]. apply In_cdiff in J. tauto. }
    destruct C2 as [C2 C3]. split.
    + intros a x J V. eauto.
    + intros c x J V. destruct (C3 c x (D _ J) V) as [?|[?|[?|?]]]; auto.
      right; right; right. eapply live_mono; eassumption.
Qed.
End Assign.

Lemma uses_incl ts : incl (uses ts) (flat_map enames ts).
Proof.
  intros x I. unfold uses in I. apply in_flat_map in I. destruct I as (t & I & J).
  apply in_flat_map. exists t. split; auto. destruct (base t); [auto|destruct J].
Qed.

(** ** Expressions *)

Lemma rfold_app {A} (f : vst -> A -> res vst) a b st :
  rfold f (a ++ b) st = rbind (rfold f a st) (rfold f b).
Proof.
  revert st. induction a as [|x a IH]; simpl; intros st; auto.
  destruct (f st x); simpl; auto.
Qed.

Lemma rfold_gens (f : vst -> expr -> res vst) gens : forall st,
  rfold (fun s g => rbind (f s (gen_iter g)) (fun s => rfold f (gen_ifs g) s)) gens st =
  rfold f (flat_map (fun g => gen_iter g :: gen_ifs g) gens) st.
Proof.
  induction gens as [|g gens IH]; simpl; intros st; auto.
  destruct (f st (gen_iter g)) as [s|]; simpl; auto. rewrite rfold_app.
  destruct (rfold f (gen_ifs g) s); simpl; auto.
Qed.

Lemma evany_incl L F es es' tr ok : evany L F es tr ok -> incl es es' -> evany L F es' tr ok.
Proof.
  induction 1; intros Hl.
  - constructor.
  - eapply evany_stop; [apply Hl; eassumption|auto].
  - eapply evany_cons; [apply Hl; eassumption|eassumption|auto].
Qed.
Lemma evsome_any L F es tr ok : evsome L F es tr ok -> evany L F es tr ok.
Proof.
  induction 1.
  - destruct ok; [|eapply evany_stop; [left; reflexivity|auto]].
    replace tr with (tr ++ []) by apply app_nil_r.
    eapply evany_cons; [left; reflexivity|auto|constructor].
  - eapply evany_incl; [eassumption|]. intros y [?|?]; simpl; auto.
  - eapply evany_cons; [left; reflexivity|eassumption|].
    eapply evany_incl; [eassumption|]. intros y ?; simpl in *; auto.
Qed.
Lemma inv_evsome L F es tr ok : evsome L F es tr ok -> forall e rest, es = e :: rest ->
  ev L F e tr ok \/ exists t1 t2, tr = t1 ++ t2 /\ ev L F e t1 true /\ evany L F rest t2 ok.
Proof.
  induction 1; intros e0 rest [= <- <-].
  - auto.
  - destruct (IHevsome e es eq_refl) as [X|(t1 & t2 & -> & X & Y)]; auto.
    right. exists t1, t2. split; [auto|]. split; [auto|].
    eapply evany_incl; [eassumption|]. intros y ?; simpl; auto.
  - right. exists tr, tr'. split; [auto|]. split; [auto|]. apply evsome_any. auto.
Qed.

(** ** Nested statements define no functions *)

Lemma nested_funs n : forall k att st s st', vstmt n k att st s = Ok st' ->
  fine_stmt fs gs false s -> funs st' = funs st.
Proof.
  induction n as [n IHn] using lt_wf_ind. intros k att st s st' H Fs.
  destruct n as [|n]; [discriminate|].
  assert (Ls : forall m ss k att st st', m <= n -> rfold (vstmt m k att) ss st = Ok st' ->
            all (fine_stmt fs gs false) ss -> funs st' = funs st).
  { intros m ss. induction ss as [|u ss IHss]; simpl; intros k0 att0 s0 s0' Lm R A.
    - injection R as <-. auto.
    - apply rbind_Ok in R. destruct R as (s1 & E & R). destruct A as [A1 A2].
      transitivity (funs s1); [eauto|]. eapply IHn; [|exact E|exact A1]. lia. }
  assert (Es : forall m es k att st st', rfold (vexpr m k att) es st = Ok st' -> funs st' = funs st).
  { intros m es k0 att0 s0 s0' R. apply vexprs_still in R. apply R. }
  assert (Br : forall k att st t a b st', vbranch n k att st t a b = Ok st' ->
            all (fine_stmt fs gs false) a -> all (fine_stmt fs gs false) b -> funs st' = funs st).
  { intros k0 att0 s0 t a b s0' R A1 A2. destruct n as [|m]; [discriminate|]. cbn [vbranch] in R.
    steps R. injection R as <-. simpl. apply (Ls m) in E1; auto. apply (Ls m) in E0; auto.
    simpl in E1, E0. rewrite E1, E0. destruct t; simpl in E.
    - apply vexpr_still in E. apply E.
    - injection E as <-. auto. }
  destruct s; cbn [vstmt] in H; cbn [fine_stmt] in Fs; try (injection H as <-; reflexivity);
    try (apply vexpr_still in H; apply H); try (eapply Es; eassumption);
    try (apply vassign_still in H; apply H); try contradiction.
  - destruct fn as [x ps kos ds kds anns decos b]. destruct Fs as (_ & _ & X & _). discriminate.
  - steps H. injection H as <-. simpl. apply Es in E, E0. congruence.
  - steps H. apply vexpr_still in E. rewrite (Br _ _ _ _ _ _ _ H); [apply E|apply Fs|apply Fs].
  - steps H. apply vexpr_still in E. rewrite (Br _ _ _ _ _ _ _ H); [apply E|apply Fs|apply Fs].
  - steps H. apply vexpr_still in E. rewrite (Br _ _ _ _ _ _ _ H); [apply E|apply Fs|apply Fs].
  - steps H. destruct Fs as (_ & _ & Fs). apply (Ls n) in H; auto. rewrite H.
    revert E. apply (rfold_inv _ (fun s => funs s = funs st)); auto.
    intros i u u' _ J R. cbv beta in R. apply rbind_Ok in R. destruct R as (s1 & E & R).
    apply vexpr_still in E. destruct (snd i); simpl in R.
    + apply vexpr_still in R. transitivity (funs s1); [apply R|]. transitivity (funs u); [apply E|auto].
    + injection R as <-. transitivity (funs u); [apply E|auto].
Qed.

(** ** No [break] from a block without one *)

Lemma inv_if L F e a b tr out F' : ex L F (SIf e a b) tr out F' ->
  (ev L F e tr false /\ out = Raise /\ F' = F) \/
  exists t1 t2, tr = t1 ++ t2 /\ ev L F e t1 true /\ (exs L F a t2 out F' \/ exs L F b t2 out F').
Proof. intros X. inversion X; subst; eauto 10. Qed.
Lemma inv_while L F e a b tr out F' : ex L F (SWhile e a b) tr out F' ->
  exists t1 o F1 t2, tr = t1 ++ t2 /\ loop L F (SWhile e a b) t1 o F1 /\ after L F1 b o t2 out F'.
Proof. intros X. inversion X; subst; eauto 10. Qed.
Lemma inv_for L F t i a b tr out F' : ex L F (SFor t i a b) tr out F' ->
  (ev L F i tr false /\ out = Raise /\ F' = F) \/
  exists t0 t1 o F1 t2, tr = t0 ++ t1 ++ t2 /\ ev L F i t0 true /\
    loop L F (SFor t i a b) t1 o F1 /\ after L F1 b o t2 out F'.
Proof. intros X. inversion X; subst; eauto 15. Qed.
Lemma inv_with L F items b tr out F' : ex L F (SWith false items b) tr out F' ->
  (enter L F items tr false /\ out = Raise /\ F' = F) \/
  exists t1 t2, tr = t1 ++ t2 /\ enter L F items t1 true /\ exs L F b t2 out F'.
Proof. intros X. inversion X; subst; eauto 10. Qed.
Lemma inv_after L F b o tr out F' : after L F b o tr out F' ->
  (o = Normal /\ exs L F b tr out F') \/ (o = Break /\ tr = [] /\ out = Normal /\ F' = F) \/
  ((out = Return \/ out = Raise) /\ o = out /\ tr = [] /\ F' = F).
Proof. intros X. inversion X; subst; auto 10. Qed.

Lemma no_break : forall s top L F tr out F', fine_stmt fs gs top s -> breaks s = false ->
  ex L F s tr out F' -> out <> Break.
Proof.
  fix IH 1.
  assert (Ls : forall ss top L F tr out F', all (fine_stmt fs gs top) ss -> existsb breaks ss = false ->
            exs L F ss tr out F' -> out <> Break).
  { intros ss top. induction ss as [|s ss IHss]; intros L F tr out F' A Bs X.
    - inversion X; subst. discriminate.
    - destruct A as [A1 A2]. simpl in Bs. apply orb_false_iff in Bs. destruct Bs as [B1 B2].
      inversion X; subst.
      + eapply IH; eassumption.
      + eapply IHss; eassumption. }
  assert (Af : forall L F b o tr out F', after L F b o tr out F' -> all (fine_stmt fs gs false) b ->
            existsb breaks b = false -> out <> Break).
  { intros L F b o tr out F' X A Bs. apply inv_after in X.
    destruct X as [[_ X]|[(_ & _ & -> & _)|([->| ->] & _)]]; try discriminate.
    eapply Ls; eassumption. }
  intros s top L F tr out F' Fs Bs X. destruct s; cbn [fine_stmt] in Fs; simpl in Bs;
    try discriminate; try contradiction;
    try (inversion X; subst; try destruct ok; discriminate).
  - apply orb_false_iff in Bs. destruct Bs as [B1 B2]. apply inv_if in X.
    destruct X as [(_ & -> & _)|(t1 & t2 & _ & _ & [X|X])]; [discriminate| |].
    + eapply (Ls body false); [apply Fs| |]; eassumption.
    + eapply (Ls orelse false); [apply Fs| |]; eassumption.
  - apply inv_while in X. destruct X as (t1 & o & F1 & t2 & _ & _ & X).
    eapply Af; [exact X|apply Fs|auto].
  - apply inv_for in X. destruct X as [(_ & -> & _)|(t0 & t1 & o & F1 & t2 & _ & _ & _ & X)]; [discriminate|].
    eapply Af; [exact X|apply Fs|auto].
  - destruct Fs as (-> & _ & Fs). apply inv_with in X.
    destruct X as [(_ & -> & _)|(t1 & t2 & _ & _ & X)]; [discriminate|].
    eapply (Ls body false); eassumption.
Qed.

Lemma no_breaks : forall ss top L F tr out F', all (fine_stmt fs gs top) ss ->
  existsb breaks ss = false -> exs L F ss tr out F' -> out <> Break.
Proof.
  intros ss top. induction ss as [|s ss IHss]; intros L F tr out F' A Bs X.
  - inversion X; subst. discriminate.
  - destruct A as [A1 A2]. simpl in Bs. apply orb_false_iff in Bs. destruct Bs as [B1 B2].
    inversion X; subst.
    + eapply no_break; eassumption.
    + eapply IHss; eassumption.
Qed.

(** ** Loops *)

Lemma while_covers L F e a b N W B s (C : list event -> Prop) :
  (forall tr, C tr -> covers N W B s tr) ->
  (forall tr ok, ev L F e tr ok -> C tr) ->
  (forall tr out F', exs L F a tr out F' -> C tr /\ F' = F /\ (out = Break -> existsb breaks a = true)) ->
  forall tr out F', loop L F (SWhile e a b) tr out F' ->
  covers N W B s tr /\ F' = F /\ (out = Break -> existsb breaks a = true).
Proof.
  intros HC He Ha tr out F' X. remember (SWhile e a b) as lp eqn:El. revert He Ha El.
  induction X; intros He Ha [= -> -> ->] || intros He Ha [=].
  - split; [eapply HC, He; eassumption|]. split; [auto|discriminate].
  - split; [eapply HC, He; eassumption|]. split; [auto|discriminate].
  - destruct (Ha _ _ _ H0) as (A1 & -> & A3). destruct (IHX He Ha eq_refl) as (B1 & B2 & B3).
    split; [|auto]. apply covers_app; [eapply HC, He; eassumption|]. apply covers_app; auto.
  - destruct (Ha _ _ _ H0) as (A1 & -> & A3).
    split; [|auto]. apply covers_app; [eapply HC, He; eassumption|]. auto.
Qed.

Lemma for_covers L F t i a b N W B s :
  (forall tr, store L F t tr false -> covers N W B s tr) ->
  (forall tr tr' out F', store L F t tr true -> exs L F a tr' out F' ->
     covers N W B s (tr ++ tr') /\ F' = F /\ (out = Break -> existsb breaks a = true)) ->
  forall tr out F', loop L F (SFor t i a b) tr out F' ->
  covers N W B s tr /\ F' = F /\ (out = Break -> existsb breaks a = true).
Proof.
  intros Ht Ha tr out F' X. remember (SFor t i a b) as lp eqn:El. revert Ht Ha El.
  induction X; intros Ht Ha [= -> -> -> ->] || intros Ht Ha [=].
  - split; [apply covers_nil|]. split; [auto|discriminate].
  - split; [auto|]. split; [auto|discriminate].
  - destruct (Ha _ _ _ _ H H0) as (A1 & -> & A3). destruct (IHX Ht Ha eq_refl) as (B1 & B2 & B3).
    split; [|auto]. rewrite app_assoc. apply covers_app; auto.
  - eauto.
Qed.

(** ** Branches *)

Definition stored L F (target : option expr) (tr : list event) : Prop :=
  match target with Some t => store L F t tr true | None => tr = [] end.

Lemma branch_sound m L F (N W B : string -> Prop) st target body orelse st' :
  Ps m -> vbranch (S m) false false st target body orelse = Ok st' ->
  match target with Some t => pattern t | None => True end ->
  all (fine_stmt fs gs false) body -> all (fine_stmt fs gs false) orelse ->
  FI st F -> gsN N -> namesN L N (flat_map snames body ++ flat_map snames orelse) ->
  (forall x, N x -> ~ In x L) -> Inv L W B st ->
  FI st' F /\ incl (live st) (live st') /\
  (forall trT tr out F', stored L F target trT -> exs L F body tr out F' ->
     F' = F /\ covers N W B st' (trT ++ tr) /\
     (out = Normal -> Inv L (orp W (wr (trT ++ tr))) B st')) /\
  (forall tr out F', exs L F orelse tr out F' ->
     F' = F /\ covers N W B st' tr /\ (out = Normal -> Inv L (orp W (wr tr)) B st')) /\
  (orelse = [] -> Inv L W B st').
Proof.
  intros IHs H Pt A1 A2 Fi G Na Nl I. cbn [vbranch] in H. steps H. injection H as <-.
  rename s into s1'. rename s0 into s2. rename s1 into s3. rename s1' into s1.
  apply namesN_app in Na. destruct Na as [N1 N2].
  set (T := match target with Some t => tnames t | None => [] end).
  assert (K : live s1 = live st /\ funs s1 = funs st /\
            forall c, In c (dead s1) <-> exists x, In x T /\ c = [nm x]).
  { destruct target as [t|]; simpl in E.
    - apply kill_pattern in E; auto. destruct E as (K1 & K2 & K3 & K4). simpl in K4.
      split; [auto|]. split; [auto|]. intros c. rewrite K4. unfold T. split; auto. intros [[]|?]; auto.
    - injection E as <-. simpl. split; [auto|]. split; [auto|]. intros c. split; [intros []|].
      intros (x & [] & _). }
  destruct K as (K1 & K2 & K3).
  set (st' := mkV _ _ _ _) in *.
  assert (F2 : funs s2 = funs st).
  { rewrite <- K2. revert E0. apply (rfold_inv _ (fun s => funs s = funs s1)); auto.
    intros u v w Ju J R. rewrite <- J. eapply nested_funs; [exact R|]. rewrite all_In in A1. auto. }
  assert (F3 : funs s3 = funs st).
  { rewrite <- F2. revert E1. apply (rfold_inv _ (fun s => funs s = funs s2)); auto.
    intros u v w Ju J R. rewrite <- J. eapply nested_funs; [exact R|]. rewrite all_In in A2. auto. }
  assert (Lv : incl (live st) (live st')) by (simpl; rewrite K1; apply incl_appl, incl_refl).
  assert (Lift : forall x, reported_live x s2 \/ reported_live x s3 ->
            In x L \/ W x \/ B x \/ reported_live x st').
  { intros x X.
    assert (Y : exists c, In c (live s2 ++ live s3) /\ rooted x c).
    { destruct X as [(c & J & R)|(c & J & R)]; exists c; split; auto; apply in_or_app; auto. }
    destruct Y as (c & J & R). destruct (cmem c (dead st)) eqn:M.
    - apply cmem_In in M. destruct I as [_ I]. destruct (I c x M R) as [?|[?|[?|?]]]; auto.
      right; right; right. eapply live_mono; eassumption.
    - apply cmem_nIn in M. right; right; right. exists c. split; auto. simpl. apply in_or_app. right.
      apply In_cdiff. auto. }
  assert (Cov : forall s tr, (forall x, reported_live x s -> reported_live x s2 \/ reported_live x s3) ->
            covers N (fun _ => False) (fun _ => False) s tr -> covers N W B st' tr).
  { intros s tr Hs C x Ex. destruct (C x Ex) as [Y1 [[]|[[]|Y2]]]. split; auto.
    destruct (Lift x (Hs x Y2)) as [Y|Y]; auto. destruct (Nl x Y1 Y). }
  (* what is killed in both branches *)
  assert (IvS : forall (V : string -> Prop) s, (forall c, In c (dead s2) -> In c (dead s3) -> In c (dead s)) ->
            (forall x, reported_live x s -> reported_live x s2 \/ reported_live x s3) ->
            Inv L V (fun _ => False) s -> Inv L (orp W V) B st').
  { intros V s Hd Hl [J1 J2]. destruct I as [I1 I2].
    assert (Q : forall c, In c (dead st') -> In c (dead st) \/ In c (dead s)).
    { intros c J. simpl in J. apply in_app_or in J. destruct J as [J|J]; auto.
      apply filter_In in J. destruct J as [J J']. apply cmem_In in J'. auto. }
    unfold orp. split.
    - intros a x J R. apply Q in J. destruct J as [J|J].
      + destruct (I1 a x J R); auto.
      + destruct (J1 a x J R); auto.
    - intros c x J R. apply Q in J. destruct J as [J|J].
      + destruct (I2 c x J R) as [?|[?|[?|?]]]; auto. right; right; right. eapply live_mono; eassumption.
      + destruct (J2 c x J R) as [?|[?|[[]|?]]]; auto. destruct (Lift x (Hl x H)) as [?|[?|[?|?]]]; auto. }
  assert (Fi' : forall s, funs s = funs st -> FI s F) by (intros s Q; eapply FI_funs; eassumption).
  split; [apply Fi'; simpl; auto|]. split; [auto|]. split; [|split].
  - intros trT tr out F' X1 X2.
    assert (TT : (forall x, ~ exposed x trT) /\ forall x, In x T -> In x L \/ wr trT x).
    { unfold stored in X1. destruct target as [t|].
      - destruct (store_pattern L F t trT true Pt X1) as [U1 U2]. split; auto.
      - subst. split; [intros x; apply exposed_nil|]. intros x []. }
    destruct TT as [T1 T2].
    assert (I1 : Inv L (wr trT) (fun _ => False) (with_live s1 [])).
    { split.
      - intros a x J R. simpl in J. apply K3 in J. destruct J as (y & J & [= ->]). simpl in R.
        injection R as ->. auto.
      - intros c x J (a & l & -> & R). simpl in J. apply K3 in J. destruct J as (y & J & [= -> ->]). simpl in R.
        injection R as ->. destruct (T2 _ J); auto. }
    destruct (stmts_sound m IHs L F N (wr trT) (fun _ => False) false body (with_live s1 []) s2 tr out F')
      as ((C0 & C1) & C2 & C3); auto.
    split; [auto|]. split.
    + apply (Cov s2); auto. apply covers_seq.
      * intros x Ex. destruct (T1 x Ex).
      * eapply (covers_weaken _ (wr trT) _ (fun _ => False)); [| |exact C0]; unfold orp; auto.
    + intros Q. apply (IvS _ s2); auto. eapply Inv_mono; [exact (C1 Q)| | | |]; auto using incl_refl.
      intros x. unfold orp. rewrite wr_app. tauto.
  - intros tr out F' X.
    destruct (stmts_sound m IHs L F N (fun _ => False) (fun _ => False) false orelse
                (with_dead (with_live s2 []) []) s3 tr out F') as ((C0 & C1) & C2 & C3); auto.
    { split; simpl; [intros a x []|intros c x []]. }
    split; [auto|]. split.
    + apply (Cov s3); auto.
    + intros Q. apply (IvS _ s3); auto. eapply Inv_mono; [exact (C1 Q)| | | |]; auto using incl_refl.
      intros x. unfold orp. tauto.
  - intros ->. simpl in E1. injection E1 as <-.
    assert (Q : Inv L (orp W (fun _ => False)) B st').
    { apply (IvS _ (with_dead (with_live s2 []) [])); auto.
      split; simpl; [intros a x []|intros c x []]. }
    eapply Inv_mono; [exact Q| | | |]; auto using incl_refl. unfold orp. tauto.
Qed.

Section Steps.
Variable n : nat.
Hypothesis IHle : forall m, m <= n -> Pe m /\ Pa m /\ Ps m.
Let IHe : Pe n := proj1 (IHle n (le_n n)).
Let IHa : Pa n := proj1 (proj2 (IHle n (le_n n))).
Let IHs : Ps n := proj2 (proj2 (IHle n (le_n n))).

Lemma step_expr : Pe (S n).
Proof.
  intros L F N W B st e st' tr ok H Fe Fi G Na I X.
  apply ev_core in X. destruct X as [[-> ->]|(ok' & X & Ho)].
  { split; [apply covers_nil|discriminate]. }
  assert (Goal : sound L N W B st' tr (ok' = true)).
  2:{ destruct Goal as [G1 G2]. split; auto. }
  clear Ho ok. rename ok' into ok.
  destruct e; cbn [vexpr] in H; cbn [fine_expr] in Fe; cbn [core] in X; cbn [enames] in Na.
  - destruct X as [-> ->]. injection H as <-. split; [apply covers_nil|]. intros _. apply Inv_wr. auto.
  - destruct X as [-> ->]. injection H as <-. unfold visit_name.
    destruct (cmem [nm x] (dead st)) eqn:M.
    + apply cmem_In in M. split; [|intros _; apply Inv_wr; auto].
      intros y E. apply exposed_read in E. destruct E as [-> E]. split.
      * destruct (Na x); simpl; auto. contradiction.
      * destruct I as [I _]. destruct (I (nm x) x M eq_refl); auto. contradiction.
    + split.
      * intros y E. apply exposed_read in E. destruct E as [-> E]. split.
        -- destruct (Na x); simpl; auto. contradiction.
        -- right; right. exists [nm x]. split; [simpl; auto|]. exists (nm x), []. auto.
      * intros _. apply Inv_wr. eapply Inv_mono; [exact I| | | |]; simpl; auto using incl_refl.
        apply incl_tl, incl_refl.
  - destruct Fe as [F1 F2]. simpl orb in H.
    set (st1 := if bin_root (EAttr e a) then st else add_attrsub st (chain_of (EAttr e a))) in *.
    assert (S0 : still st st1) by (apply still_if, still_add_attrsub).
    pose proof (vexpr_still _ _ _ _ _ _ H) as S1.
    edestruct IHa as [[C1 C2] C3]; try exact H; try eassumption.
    { eapply FI_still; eassumption. }
    { apply Inv_attrsub. exact I. }
    split; auto. intros x Ex. destruct (C1 x Ex) as [Y1 [Y2|[[Y2|[Y2 Y3]]|Y2]]]; auto.
    destruct (root_attr e a x F2 Y2) as (R1 & l & a' & R2 & R3 & _).
    assert (Q : W x \/ B x \/ reported_live x st1).
    { unfold st1. rewrite R1. eapply attrsub_covers; eauto. rewrite R2. exists a', l. auto. }
    split; auto. destruct Q as [?|[?|?]]; auto. right; right. eapply live_mono; [apply S1|auto].
  - destruct Fe as (F1 & F2 & F3 & F4). rewrite F3 in H. simpl orb in H. steps H.
    apply namesN_app in Na. destruct Na as [N1 N2].
    set (st1 := if bin_root (ESub e1 e2) then st else add_attrsub st (chain_of (ESub e1 e2))) in *.
    assert (S0 : still st st1) by (apply still_if, still_add_attrsub).
    pose proof (vexpr_still _ _ _ _ _ _ E) as S1. pose proof (vexpr_still _ _ _ _ _ _ H) as S2.
    assert (B0 : forall tr ok, ev L F e1 tr ok ->
               sound L N W B s tr (ok = true)).
    { intros tr0 ok0 X0. edestruct IHa as [[C1 C2] C3]; try exact E; try eassumption.
      { eapply FI_still; eassumption. }
      { apply Inv_attrsub. exact I. }
      split; auto. intros x Ex. destruct (C1 x Ex) as [Y1 [Y2|[[Y2|[Y2 Y3]]|Y2]]]; auto.
      destruct (root_sub e1 e2 x F2 Y2) as (R1 & l & a' & R2 & R3 & _).
      assert (Q : W x \/ B x \/ reported_live x st1).
      { unfold st1. rewrite R1. eapply attrsub_covers; eauto. rewrite R2. exists a', l. auto. }
      split; auto. destruct Q as [?|[?|?]]; auto. right; right. eapply live_mono; [apply S1|auto]. }
    apply inv_evs2 in X. destruct X as [[X ->]|(t1 & t2 & -> & X1 & X2)].
    + apply (sound_stop _ _ _ _ s); [eapply B0; eassumption|apply S2|discriminate].
    + destruct (B0 t1 true X1) as [C1 C2]. apply (sound_seq _ _ _ _ s); [split; auto|apply S2|].
      eapply IHe; try eassumption; auto. apply (FI_still st); [apply (still_trans _ st1); auto|auto].
  - destruct Fe as (F1 & F2 & F3 & F4). simpl orb in H. steps H.
    apply app_eq_nil in F4. destruct F4 as [B1 B2].
    apply namesN_app in Na. destruct Na as [N1 N2].
    pose proof (vexprs_still _ _ _ _ _ _ E) as S1. pose proof (vexpr_still _ _ _ _ _ _ E0) as S2.
    destruct (Pe_set n IHe L F N W B args st s E F3 B2 Fi G N2 I) as (U1 & U2 & U3).
    set (st1 := if bin_root (ECall e args) then s else add_attrsub s (chain_of (ECall e args))) in *.
    assert (S0 : still s st1) by (apply still_if, still_add_attrsub).
    destruct (inline_cases n _ _ _ _ _ H) as (D1 & D2 & D3 & D4).
    pose proof (FI_still _ _ _ S1 Fi) as Fi1.
    assert (Cf : forall tr ok, ev L F e tr ok -> covers N W B st' tr).
    { intros tr0 ok0 X0. edestruct IHa as [[C1 C2] C3]; try exact E0; try eassumption.
      { apply callee_chainy. auto. }
      { eapply FI_still; eassumption. }
      { apply Inv_attrsub. exact U3. }
      intros x Ex. destruct (C1 x Ex) as [Y1 [Y2|[[Y2|[Y2 Y3]]|Y2]]]; auto.
      - destruct (root_call e args x F2 Y2) as (R1 & l & a' & R2 & R3).
        assert (Q : W x \/ B x \/ reported_live x st1).
        { unfold st1. rewrite R1. eapply attrsub_covers; eauto. rewrite R2. exists a', l. auto. }
        split; auto. destruct Q as [?|[?|?]]; auto. right; right. eapply live_mono; [|eassumption].
        eapply incl_tran; [apply S2|auto].
      - split; auto. right; right. eapply live_mono; eassumption. }
    assert (Ca : forall tr ok, evs L F (e :: args) tr ok -> covers N W B st' tr).
    { intros tr0 ok0 X0. eapply covers_evs; [|exact X0]. intros e' tr' ok1 [<-|J] Y; [eauto|].
      eapply covers_live; [|exact D2]. eapply covers_live; [|apply S2].
      eapply covers_live; [|apply S0]. eapply U1; eassumption. }
    split.
    + destruct X as [X|(g & fn & tr1 & trb & out & F' & -> & X1 & X2 & X3 & X4 & ->)]; [eauto|].
      apply covers_app; [eauto|].
      assert (Fi2 : FI s0 F).
      { eapply FI_still; [|exact Fi1]. eapply still_trans; eassumption. }
      destruct (Fi2 g fn X3) as (Y & _).
      destruct (D4 g fn eq_refl Y) as (sb & R1 & R2).
      intros x Ex. destruct (body_sound n IHs F N s0 fn g sb trb out F' Fi2 G X3 R1 X4 x Ex) as [Z1 Z2].
      split; auto. right; right. eapply live_mono; eassumption.
    + intros _. apply Inv_wr. eapply Inv_mono; [exact U3| | | |]; auto.
      * rewrite D1. eapply incl_tran; [eapply nowalrus_dead; eassumption|].
        unfold st1. rewrite dead_attrsub. apply incl_refl.
      * eapply incl_tran; [apply S0|]. eapply incl_tran; [apply S2|exact D2].
  - eapply Pe_list; try eassumption.
    + simpl. steps H. rewrite E. simpl. rewrite H. reflexivity.
    + simpl. tauto.
    + simpl. rewrite app_nil_r. auto.
  - eapply Pe_list; eassumption.
  - destruct Fe as (F1 & F2 & F3). steps H. apply app_eq_nil in F3. destruct F3 as [B1 B2].
    apply namesN_app in Na. destruct Na as [N1 N2].
    destruct (Pe_set n IHe L F N W B ks st s E F1 B1 Fi G N1 I) as (U1 & U2 & U3).
    pose proof (vexprs_still _ _ _ _ _ _ E) as S1. pose proof (vexprs_still _ _ _ _ _ _ H) as S2.
    destruct (Pe_set n IHe L F N W B vs s st' H F2 B2 (FI_still _ _ _ S1 Fi) G N2 U3) as (V1 & V2 & V3).
    split; [|intros _; apply Inv_wr; auto].
    eapply covers_evs; [|exact X]. intros e tr' ok1 J Y. apply In_pairs in J. destruct J as [J|J].
    + eapply covers_live; [eapply U1; eassumption|apply S2].
    + eapply V1; eassumption.
  - eapply Pe_list; eassumption.
  - eapply Pe_list; eassumption.
  - destruct Fe as [F1 F2]. destruct X as [X0 X]. destruct es as [|e es]; [contradiction|].
    simpl in H. steps H. destruct F1 as [F1 F3]. simpl in Na. apply namesN_app in Na. destruct Na as [N1 N2].
    pose proof (vexpr_still _ _ _ _ _ _ E) as S1. pose proof (vexprs_still _ _ _ _ _ _ H) as S2.
    assert (D : incl (dead st') (dead s)) by (eapply names_dead; eassumption).
    destruct (inv_evsome _ _ _ _ _ X e es eq_refl) as [X1|(t1 & t2 & -> & X1 & X2)].
    + assert (C : sound L N W B s tr (ok = true)) by (eapply IHe; eassumption).
      destruct C as [C1 C2]. split; [eapply covers_live; [exact C1|apply S2]|].
      intros Y. eapply Inv_mono; [apply C2; auto|auto|apply S2| |]; auto.
    + assert (C : sound L N W B s t1 (true = true)) by (eapply IHe; eassumption).
      destruct C as [C1 C2].
      destruct (Pe_set n IHe L F N (orp W (wr t1)) B es s st' H F3 F2 (FI_still _ _ _ S1 Fi) G N2 (C2 eq_refl))
        as (V1 & V2 & V3).
      apply (sound_seq _ _ _ _ s); [split; auto|apply S2|].
      split; [eapply covers_evany; eassumption|]. intros _. apply Inv_wr. auto.
  - eapply IHe; eassumption.
  - destruct n as [|m] eqn:En; [discriminate|].
    assert (IHm : forall k, k <= m -> Pe k) by (intros k K; apply IHle; lia).
    destruct X as [[X ->]|(tr' & X & -> & ->)].
    + replace tr with (tr ++ []) by apply app_nil_r.
      eapply (assign_sound m IHm L F N W B st [EName x] (Some e) st' tr false [] false); simpl; auto.
    + eapply (assign_sound m IHm L F N W B st [EName x] (Some e) st' tr' true (write L x) true); simpl; auto.
      replace (write L x) with (write L x ++ []) by apply app_nil_r.
      apply stores_cons; constructor.
  - destruct Fe as (F1 & F2 & F3 & F4).
    assert (D : incl (dead st') (dead st)).
    { apply (nowalrus_dead (S n) false st (EComp elts gens) st'); simpl; auto. }
    steps H. injection H as <-.
    destruct X as (t & i & ifs & gens' & Eg & X).
    assert (Pt : all pattern (map gen_target gens)).
    { rewrite all_In. intros a J. apply in_map_iff in J. destruct J as ([t' i' ifs'] & <- & J).
      change (all (fun g => let 'Gen t i ifs := g in
          pattern t /\ fine_expr fs i /\ all (fine_expr fs) ifs) gens) in F2.
      rewrite all_In in F2. apply F2 in J. simpl. tauto. }
    destruct (kill_patterns _ _ _ _ _ Pt E) as (K1 & K2 & K3 & K4). simpl in K1, K2, K3, K4.
    set (T := flat_map tnames (map gen_target gens)) in *.
    set (u := with_dead s (dead st ++ dead s)) in *.
    set (all_es := elts ++ flat_map (fun g => gen_iter g :: gen_ifs g) gens).
    assert (R : rfold (vexpr n false false) all_es u = Ok s1).
    { unfold all_es. rewrite rfold_app, E0. simpl. rewrite <- rfold_gens. exact E1. }
    assert (A : all (fine_expr fs) all_es).
    { apply all_app. split; [exact F1|]. apply all_In. intros e J. apply in_flat_map in J.
      destruct J as ([t' i' ifs'] & J & J').
      change (all (fun g => let 'Gen t i ifs := g in
          pattern t /\ fine_expr fs i /\ all (fine_expr fs) ifs) gens) in F2.
      rewrite all_In in F2. apply F2 in J. destruct J as (_ & J1 & J2). simpl in J'.
      destruct J' as [<-|J']; auto. rewrite all_In in J2. auto. }
    cbn [ebinds] in F3. apply app_eq_nil in F3. destruct F3 as [B1 B2].
    assert (Bn : flat_map ebinds all_es = []).
    { unfold all_es. rewrite flat_map_app, B1. simpl. apply nil_flat_map. intros e J.
      apply in_flat_map in J. destruct J as ([t' i' ifs'] & J & J').
      rewrite nil_flat_map in B2. apply B2 in J. apply app_eq_nil in J. destruct J as [_ J].
      apply app_eq_nil in J. destruct J as [J1 J2]. simpl in J'. destruct J' as [<-|J']; auto.
      rewrite nil_flat_map in J2. auto. }
    assert (Na' : forall T', namesN (T' ++ L) N (flat_map enames all_es)).
    { intros T'. apply namesN_flat. intros e J y Y.
      assert (Q : In y L \/ N y); [|destruct Q; auto; left; apply in_or_app; auto].
      apply Na. apply in_app_or in J. apply in_or_app. destruct J as [J|J].
      - left. apply in_flat_map. eauto.
      - right. apply in_flat_map in J. destruct J as ([t' i' ifs'] & J & J'). apply in_flat_map.
        exists (Gen t' i' ifs'). split; auto. simpl in J'. destruct J' as [<-|J']; apply in_or_app; auto.
        right. apply in_flat_map. eauto. }
    assert (Iu : Inv (T ++ L) W B u).
    { destruct I as [I1 I2].
      assert (Q : forall c, In c (dead u) -> In c (dead st) \/ exists x, In x T /\ c = [nm x]).
      { intros c J. simpl in J. apply in_app_or in J. destruct J as [J|J]; auto.
        apply K4 in J. destruct J as [[]|J]. auto. }
      split.
      - intros a x J V. apply Q in J. destruct J as [J|(y & J & [= ->])].
        + destruct (I1 a x J V); auto. left. apply in_or_app. auto.
        + simpl in V. injection V as ->. left. apply in_or_app. auto.
      - intros c x J V. apply Q in J. destruct J as [J|(y & J & ->)].
        + destruct (I2 c x J V) as [?|[?|[?|?]]]; auto.
          * left. apply in_or_app. auto.
          * right; right; right. eapply live_mono; [|eassumption]. simpl. rewrite K1. apply incl_refl.
        + destruct V as (a & l & [= <- <-] & V). simpl in V. injection V as ->. left. apply in_or_app. auto. }
    assert (Fu : FI u F) by (eapply FI_funs; [|exact Fi]; simpl; auto).
    destruct (Pe_set n IHe (T ++ L) F N W B all_es u s1 R A Bn Fu G (Na' T) Iu) as (V1 & V2 & V3).
    assert (Ci : forall tr ok, ev L F i tr ok -> covers N W B s1 tr).
    { intros tr0 ok0 Y. apply (V1 i tr0 ok0).
      - unfold all_es. apply in_or_app. right. rewrite Eg. simpl. auto.
      - apply (ev_ext L); auto.
        + assert (F5 : forall x, In x (enames i) -> ~ In x T) by (rewrite Eg in F4; exact F4).
          intros x J. apply F5 in J. rewrite in_app_iff. tauto.
        + rewrite Eg in B2. simpl in B2. apply app_eq_nil in B2. destruct B2 as [B2 _].
          apply app_eq_nil in B2. destruct B2 as [_ B2]. apply app_eq_nil in B2. tauto. }
    split.
    + apply (covers_live _ _ _ s1); [|simpl; apply incl_refl].
      destruct X as [[X ->]|(tr1 & tr2 & -> & X1 & X2)]; [eauto|].
      apply covers_app; [eauto|]. eapply covers_evany; [|exact X2].
      intros e tr0 ok0 J. apply V1. unfold all_es. rewrite Eg. simpl. 
      rewrite !in_app_iff in *. simpl. rewrite in_app_iff. tauto.
    + intros _. apply Inv_wr. eapply Inv_mono; [exact I|exact D| | |]; auto.
      simpl. rewrite <- K1. apply vexprs_still in R. destruct R as [[R _] _]. exact R.
  - assert (T : tr = []).
    { clear H Na. rename defaults into ds. revert tr X. induction ds as [|d ds IHd]; intros tr X.
      - inversion X; auto.
      - destruct Fe as [Fd Fe]. destruct d; try destruct Fd.
        assert (C : forall tr ok, ev L F (EConst c) tr ok -> tr = []).
        { intros tr0 ok0 Y. apply ev_core in Y. destruct Y as [[? _]|(? & [? _] & _)]; auto. }
        inversion X as [|? ? ? ? ? Y|? ? ? ? t1 t2 ? Y Z]; subst; [eapply C; eassumption|].
        rewrite (C _ _ Y). rewrite (IHd Fe t2 Z). auto. }
    subst tr.
    assert (A : forall ds s s', all (fun d => match d with EConst _ => True | _ => False end) ds ->
        rfold (vexpr n true false) ds s = Ok s' -> s' = s).
    { intros ds'. induction ds' as [|d ds' IHd]; simpl; intros s s' A R.
      - injection R as <-. auto.
      - destruct A as [A1 A2]. destruct d; try destruct A1. steps R.
        destruct n as [|n']; [discriminate|]. injection E as <-. auto. }
    apply A in H; auto. subst. split; [apply covers_nil|]. intros _. apply Inv_wr. auto.
Qed.

Lemma inv_enter L F e t items tr ok : enter L F ((e, t) :: items) tr ok ->
  (ev L F e tr false /\ ok = false) \/
  exists t1 t2 t3, tr = t1 ++ t2 ++ t3 /\ ev L F e t1 true /\
    ((exists t', t = Some t' /\ store L F t' t2 false /\ t3 = [] /\ ok = false) \/
     (stored L F t t2 /\ enter L F items t3 ok)).
Proof.
  intros X. inversion X; subst; auto; right.
  - exists tr0, [], tr'. split; [auto|]. split; [auto|]. right. split; [reflexivity|auto].
  - exists tr0, tr', []. rewrite app_nil_r. split; [auto|]. split; [auto|]. left. eauto.
  - exists tr0, tr', tr2. split; [auto|]. split; [auto|]. right. split; auto.
Qed.

Lemma items_sound L F (N B : string -> Prop) : forall items W st st' tr ok,
  rfold (fun s i => rbind (vexpr n false false s (fst i)) (fun s =>
                      fold_opt (vexpr n true false) s (snd i))) items st = Ok st' ->
  all (fun i => fine_expr fs (fst i) /\ match snd i with Some t => pattern t | None => True end) items ->
  FI st F -> gsN N ->
  namesN L N (flat_map (fun i => enames (fst i) ++ match snd i with Some t => enames t | None => [] end) items) ->
  Inv L W B st -> enter L F items tr ok ->
  sound L N W B st' tr (ok = true) /\ still st st'.
Proof.
  induction items as [|[e t] items IH]; simpl; intros W st st' tr ok R A Fi G Na I X.
  - injection R as <-. inversion X; subst. split; [|apply still_refl].
    split; [apply covers_nil|]. intros _. apply Inv_wr. auto.
  - apply rbind_Ok in R. destruct R as (s2 & E & R). destruct A as [[A1 A2] A3]. simpl in A1, A2.
    apply namesN_app in Na. destruct Na as [N1 N3]. apply namesN_app in N1. destruct N1 as [N1 N2].
    apply rbind_Ok in E. destruct E as (s1 & E & E').
    pose proof (vexpr_still _ _ _ _ _ _ E) as S1.
    assert (K : live s2 = live s1 /\ funs s2 = funs s1 /\
              forall c, In c (dead s2) <-> In c (dead s1) \/
                exists x, In x (match t with Some t => tnames t | None => [] end) /\ c = [nm x]).
    { destruct t as [t|]; simpl in E'.
      - apply kill_pattern in E'; auto. tauto.
      - injection E' as <-. split; [auto|]. split; [auto|]. intros c. split; auto.
        intros [?|(x & [] & _)]; auto. }
    destruct K as (K1 & K2 & K3).
    assert (S2 : still s1 s2).
    { destruct t as [t|]; simpl in E'; [eapply vexpr_still; eassumption|].
      injection E' as <-. apply still_refl. }
    assert (S3 : still s2 st').
    { revert R. apply still_rfold. intros i u u' _ Q. apply rbind_Ok in Q. destruct Q as (u1 & Q1 & Q2).
      apply vexpr_still in Q1. eapply still_trans; [exact Q1|]. destruct (snd i); simpl in Q2.
      - eapply vexpr_still; eassumption.
      - injection Q2 as <-. apply still_refl. }
    split; [|eapply still_trans; [eassumption|eapply still_trans; eassumption]].
    assert (C : forall tr ok, ev L F e tr ok -> sound L N W B s1 tr (ok = true)).
    { intros tr0 ok0 Y. eapply IHe; eassumption. }
    apply inv_enter in X. destruct X as [[X ->]|(t1 & t2 & t3 & -> & X1 & X)].
    + apply (sound_stop _ _ _ _ s1); [apply (C _ _ X)| |discriminate].
      eapply incl_tran; [apply S2|apply S3].
    + destruct (C _ _ X1) as [C1 C2]. apply (sound_seq _ _ _ _ s1); [split; auto| |].
      { eapply incl_tran; [apply S2|apply S3]. }
      destruct X as [(t' & -> & X & -> & ->)|[X2 X3]].
      * destruct (store_pattern L F t' t2 false A2 X) as [U1 U2]. rewrite app_nil_r.
        split; [|discriminate]. intros x Ex. destruct (U1 x Ex).
      * assert (U : (forall x, ~ exposed x t2) /\
                  forall x, In x (match t with Some t => tnames t | None => [] end) -> In x L \/ wr t2 x).
        { unfold stored in X2. destruct t as [t|].
          - destruct (store_pattern L F t t2 true A2 X2) as [U1 U2]. auto.
          - subst. split; [intros x; apply exposed_nil|]. intros x []. }
        destruct U as [U1 U2].
        apply (sound_seq _ _ _ _ s2).
        -- split; [intros x Ex; destruct (U1 x Ex)|]. intros _.
           destruct (C2 eq_refl) as [I1 I2]. split.
           ++ intros a x J V. apply K3 in J. destruct J as [J|(y & J & [= ->])].
              ** destruct (I1 a x J V); unfold orp in *; auto.
              ** simpl in V. injection V as ->. destruct (U2 x J); unfold orp; auto.
           ++ intros c x J V. apply K3 in J. destruct J as [J|(y & J & ->)].
              ** destruct (I2 c x J V) as [?|[?|[?|?]]]; unfold orp in *; auto.
                 right; right; right. eapply live_mono; [|eassumption]. rewrite K1. apply incl_refl.
              ** destruct V as (a & l & [= <- <-] & V). simpl in V. injection V as ->.
                 destruct (U2 x J); unfold orp; auto.
        -- apply S3.
        -- apply (IH _ s2); auto.
           ++ eapply FI_still; [exact S2|]. eapply FI_still; eassumption.
           ++ destruct (C2 eq_refl) as [I1 I2]. split.
              ** intros a x J V. apply K3 in J. destruct J as [J|(y & J & [= ->])].
                 --- destruct (I1 a x J V); unfold orp in *; auto.
                 --- simpl in V. injection V as ->. destruct (U2 x J); unfold orp; auto.
              ** intros c x J V. apply K3 in J. destruct J as [J|(y & J & ->)].
                 --- destruct (I2 c x J V) as [?|[?|[?|?]]]; unfold orp in *; auto.
                     right; right; right. eapply live_mono; [|eassumption]. rewrite K1. apply incl_refl.
                 --- destruct V as (a & l & [= <- <-] & V). simpl in V. injection V as ->.
                     destruct (U2 x J); unfold orp; auto.
Qed.

Lemma inert_silent L : forall b F tr out F', all inert b -> exs L F b tr out F' ->
  forall x, ~ In (Read x) tr.
Proof.
  assert (Cc : forall F c tr ok, ev L F (EConst c) tr ok -> tr = []).
  { intros F c tr ok Y. apply ev_core in Y. destruct Y as [[? _]|(? & [? _] & _)]; auto. }
  assert (Wr : forall x y, ~ In (Read x) (write L y)).
  { intros x y J. unfold write in J. destruct (existsb _ L); [destruct J|]. destruct J as [[=]|[]]. }
  assert (One : forall s F tr out F', inert s -> ex L F s tr out F' -> forall x, ~ In (Read x) tr).
  { intros s F tr out F' A X x. destruct s; simpl in A; try contradiction.
    - inversion X; subst. auto.
    - destruct e; try contradiction. inversion X; subst.
      + match goal with Q : ev _ _ (EConst _) _ _ |- _ => apply Cc in Q; subst end. auto.
      + match goal with Q : ev _ _ (EConst _) _ _ |- _ => apply Cc in Q; subst end. auto.
    - destruct ts as [|[] []]; try contradiction. destruct e; try contradiction.
      inversion X; subst;
        match goal with Q : ev _ _ (EConst _) _ _ |- _ => apply Cc in Q; subst end; auto.
      simpl. match goal with Q : stores _ _ _ _ _ |- _ => apply inv_stores in Q;
        destruct Q as [[Q ->]|(u1 & u2 & -> & Q & Q')]; inversion Q; subst end; auto.
      match goal with Q : stores _ _ [] _ _ |- _ => inversion Q; subst end.
      rewrite app_nil_r. auto.
    - destruct fn as [y ps kos ds kds anns decos b]. destruct ds, kds, anns, decos; try contradiction.
      inversion X; subst; simpl in *;
        match goal with Q : evs _ _ [] _ _ |- _ => inversion Q; subst end. simpl. auto. }
  intros b. induction b as [|s b IH]; intros F tr out F' A X x J.
  - inversion X; subst. destruct J.
  - destruct A as [A1 A2]. inversion X; subst.
    + eapply One; eassumption.
    + apply in_app_or in J. destruct J as [J|J]; [eapply One|eapply IH]; eassumption.
Qed.

Lemma step_stmt : Ps (S n).
Proof.
  intros L F N W B st top s st' tr out F' H Fs Fi G Na Nl I X.
  assert (IHls : forall m, m <= n -> Pe m) by (intros m Lm; apply IHle; auto).
  assert (E1 : forall e st' tr ok, vexpr n false false st e = Ok st' -> fine_expr fs e ->
            namesN L N (enames e) -> ev L F e tr ok -> sound L N W B st' tr (ok = true)).
  { intros. eapply IHe; eassumption. }
  assert (El : forall es st' tr ok, rfold (vexpr n false false) es st = Ok st' -> all (fine_expr fs) es ->
            namesN L N (flat_map enames es) -> evs L F es tr ok -> sound L N W B st' tr (ok = true)).
  { intros. eapply Pe_list; eassumption. }
  assert (Z : forall tr (P Q : Prop), (P -> Q) -> sound L N W B st' tr Q -> sound L N W B st' tr P).
  { intros tr0 P Q PQ [C1 C2]. split; auto. }
  assert (As : forall ts v tr1 ok1 tr2 ok2, vassign n false false st ts v None = Ok st' ->
            all (fine_target fs) ts -> match v with Some e => fine_expr fs e | None => True end ->
            namesN L N (uses ts ++ names_opt v) ->
            match v with Some e => ev L F e tr1 ok1 | None => tr1 = [] /\ ok1 = true end ->
            (if ok1 then stores L F ts tr2 ok2 else tr2 = [] /\ ok2 = false) ->
            sound L N W B st' (tr1 ++ tr2) (ok2 = true) /\ FI st' F).
  { intros ts v tr1 ok1 tr2 ok2 R. intros. split.
    - destruct n as [|m] eqn:En; [discriminate|].
      eapply (assign_sound m); try eassumption. intros k Lk. apply IHle. lia.
    - eapply FI_still; [eapply vassign_still; eassumption|auto]. }
  assert (Un : forall ts l, namesN L N (flat_map enames ts ++ l) -> namesN L N (uses ts ++ l)).
  { intros ts l Q x J. apply Q. apply in_app_or in J. apply in_or_app. destruct J; auto. left.
    apply uses_incl. auto. }
  destruct s; cbn [vstmt] in H; cbn [fine_stmt] in Fs; cbn [snames] in Na; try contradiction.
  - injection H as <-. inversion X; subst. split; [|auto]. split; [apply covers_nil|]. intros _. apply Inv_wr. auto.
  - injection H as <-. inversion X; subst. split; [|split; auto]. split; [apply covers_nil|]. discriminate.
  - injection H as <-. inversion X; subst. split; [|split; auto]. split; [apply covers_nil|]. discriminate.
  - pose proof (vexpr_still _ _ _ _ _ _ H) as St. inversion X; subst.
    + split; [|split; auto; intros _; eapply FI_still; eassumption]. eapply Z; [|eapply E1; eassumption]; auto.
    + split; [|split; auto; discriminate]. eapply Z; [|eapply E1; eassumption]; discriminate.
  - pose proof (vexprs_still _ _ _ _ _ _ H) as St. inversion X; subst.
    split; [|split; auto; destruct ok; discriminate].
    eapply Z; [|eapply El; eassumption]. destruct ok; discriminate.
  - pose proof (vexprs_still _ _ _ _ _ _ H) as St. inversion X; subst.
    split; [|split; auto; discriminate].
    eapply Z; [|eapply El; eassumption]. discriminate.
  - destruct Fs as [F1 F2].
    assert (Y : exists tr1 (ok1 : bool) tr2 (ok2 : bool), tr = tr1 ++ tr2 /\ out = (if ok2 then Normal else Raise) /\ F' = F /\
              ev L F e tr1 ok1 /\ (if ok1 : bool then stores L F ts tr2 ok2 else tr2 = [] /\ ok2 = false)).
    { inversion X; subst.
      - exists tr, false, [], false. rewrite app_nil_r. auto 6.
      - exists tr0, true, tr', ok. auto 6. }
    destruct Y as (tr1 & ok1 & tr2 & ok2 & -> & -> & -> & Y1 & Y2).
    destruct (As ts (Some e) tr1 ok1 tr2 ok2 H) as [C1 C2]; auto.
    split; [|auto]. eapply Z; [|exact C1]. destruct ok2; [auto|discriminate].
  - destruct ann; try contradiction. destruct e as [e|]; try contradiction. destruct Fs as [F1 F2].
    assert (Cc : forall tr ok, ev L F (EConst c) tr ok -> tr = []).
    { intros tr0 ok0 Y. apply ev_core in Y. destruct Y as [[? _]|(? & [? _] & _)]; auto. }
    assert (Y : exists tr1 (ok1 : bool) tr2 (ok2 : bool), tr = tr1 ++ tr2 /\ (out = Normal -> ok2 = true) /\ F' = F /\
              ev L F e tr1 ok1 /\ (if ok1 : bool then stores L F [t] tr2 ok2 else tr2 = [] /\ ok2 = false)).
    { inversion X; subst.
      - exists tr, false, [], false. rewrite app_nil_r. split; [auto|]. split; [discriminate|]. auto.
      - assert (tr2 = []) as ->.
        { match goal with Q : evs _ _ _ tr2 _, Q' : _ = [] \/ _ |- _ => destruct Q' as [->| ->]; inversion Q; subst end.
          - auto.
          - eauto.
          - match goal with Q : evs _ _ [] _ _ |- _ => inversion Q; subst end. rewrite app_nil_r. eauto. }
        exists tr0, true, tr', true. rewrite app_nil_r. split; [auto|]. split; [auto|]. split; [auto|].
        split; [auto|]. replace tr' with (tr' ++ []) by apply app_nil_r. apply stores_cons; auto. constructor.
      - exists tr0, true, tr', false. split; [auto|]. split; [discriminate|]. split; [auto|].
        split; [auto|]. apply stores_stop. auto. }
    destruct Y as (tr1 & ok1 & tr2 & ok2 & -> & Q & -> & Y1 & Y2).
    destruct (As [t] (Some e) tr1 ok1 tr2 ok2 H) as [C1 C2]; simpl; auto.
    { apply (Un [t]). simpl. rewrite app_nil_r. exact Na. }
    split; [|auto]. eapply Z; [|exact C1]. auto.
  - destruct Fs as [F1 F2]. destruct n as [|m] eqn:En; [discriminate|].
    assert (C : forall tr ok, evs L F [t; e] tr ok -> sound L N W B st' tr (ok = true)).
    { intros tr0 ok0 Y. eapply (aug_sound m); try eassumption. intros k Lk. apply IHls. lia. }
    assert (Fi' : FI st' F) by (eapply FI_still; [eapply vassign_still; eassumption|auto]).
    inversion X; subst.
    + split; [|auto]. eapply Z; [|eapply C; eassumption]. discriminate.
    + split; [|auto]. match goal with Q : evs _ _ _ tr0 true |- _ => destruct (C tr0 true Q) as [C1 C2] end.
      assert (Nx : forall x, ~ exposed x (match t with EName x => write L x | _ => [] end)).
      { intros x. destruct t; try apply exposed_nil. apply exposed_write. }
      split.
      * apply covers_app; auto. intros x Ex. destruct (Nx x Ex).
      * intros _. eapply Inv_mono; [apply C2; auto| | | |]; auto using incl_refl.
        intros x. unfold orp. rewrite wr_app. tauto.
  - assert (Wx : forall ys x, ~ exposed x (flat_map (write L) ys)).
    { intros ys x Ex. apply exposed_in in Ex. apply in_flat_map in Ex. destruct Ex as (y & _ & J).
      unfold write in J. destruct (existsb _ L); [destruct J|]. destruct J as [[=]|[]]. }
    assert (Sx : forall ys, stores L F (map EName ys) (flat_map (write L) ys) true).
    { induction ys as [|y ys IH]; simpl; [constructor|]. apply stores_cons; auto. constructor. }
    inversion X; subst.
    + split; [|split; auto; discriminate]. split; [|discriminate]. intros x Ex. destruct (Wx _ _ Ex).
    + destruct (As (map EName xs) None [] true (flat_map (write L) xs) true H) as [C1 C2]; auto.
      { apply all_In. intros t J. apply in_map_iff in J. destruct J as (y & <- & _). exact Logic.I. }
      { intros x J. simpl in J. rewrite app_nil_r in J. unfold uses in J. apply in_flat_map in J.
        destruct J as (t & J & J'). apply in_map_iff in J. destruct J as (y & <- & _). destruct J'. }
      split; [|auto]. eapply Z; [|exact C1]. auto.
  - injection H as <-. inversion X; subst.
    assert (Y : flat_map (fun t => match t with EAttr b _ => [b] | ESub b s => [b; s] | _ => [] end) ts = []).
    { apply nil_flat_map. intros t J. rewrite all_In in Fs. apply Fs in J. destruct t; auto; destruct J. }
    rewrite Y in *. match goal with Q : evs _ _ [] _ _ |- _ => inversion Q; subst end.
    split; [|auto]. split; [apply covers_nil|]. intros _. apply Inv_wr. auto.
  - destruct fn as [x ps kos ds kds anns decos b].
    destruct Fs as (U1 & U2 & -> & U3 & U4 & U5 & -> & -> & U6 & U7).
    steps H. injection H as <-. rewrite flat_map_app in U6. apply app_eq_nil in U6. destruct U6 as [B1 B2].
    rewrite !flat_map_app in Na. simpl in Na. apply namesN_app in Na. destruct Na as [N1 N2].
    rewrite app_nil_r in N2.
    destruct (Pe_set n IHe L F N W B ds st s E U4 B2 Fi G N2 I) as (V1 & V2 & V3).
    pose proof (vexprs_still _ _ _ _ _ _ E) as S1. pose proof (vexprs_still _ _ _ _ _ _ E0) as S2.
    destruct (Pe_set n IHe L F N W B decos s s0 E0 U5 B1 (FI_still _ _ _ S1 Fi) G N1 V3) as (V4 & V5 & V6).
    set (u := with_funs _ _).
    assert (C : forall tr ok, evs L F (decos ++ ds ++ [] ++ []) tr ok -> covers N W B u tr).
    { intros tr0 ok0 Y. simpl in Y. rewrite app_nil_r in Y. eapply covers_evs; [|exact Y].
      intros e tr1 ok1 J Ye. apply in_app_or in J. apply (covers_live _ _ _ s0); [|apply incl_refl].
      destruct J as [J|J]; [eapply V4; eassumption|].
      eapply covers_live; [eapply V1; eassumption|apply S2]. }
    inversion X; subst.
    + split; [|split; discriminate]. split; [eapply C; eassumption|discriminate].
    + split; [|split; [discriminate|]].
      * split.
        -- apply covers_app; [eapply C; eassumption|]. intros y Ey. destruct (exposed_write _ _ _ Ey).
        -- intros _. destruct V6 as [V6 V7]. unfold orp. split.
           ++ intros a y J R. simpl in J. destruct J as [[= <-]|J].
              ** simpl in R. injection R as ->. destruct (wr_write y L); auto. right; right. apply wr_app. auto.
              ** destruct (V6 a y J R); auto.
           ++ intros c y J R. simpl in J. destruct J as [<-|J].
              ** destruct R as (a & l & [= <- <-] & R). simpl in R. injection R as ->.
                 destruct (wr_write y L); auto. right; left; right. apply wr_app. auto.
              ** destruct (V7 c y J R) as [?|[?|[?|?]]]; auto.
      * intros _ f fn Q. simpl in Q. simpl. destruct (String.eqb f x) eqn:Ef.
        -- apply String.eqb_eq in Ef. subst. injection Q as <-. split; [auto|]. split; [auto|].
           split; [exact U7|]. auto.
        -- assert (FI s0 F) by (eapply FI_still; [exact S2|eapply FI_still; eassumption]). apply H; auto.
  - destruct Fs as (U1 & U2 & -> & U3 & U4).
    steps H. injection H as <-. rewrite flat_map_app in U3. apply app_eq_nil in U3. destruct U3 as [B1 B2].
    rewrite !flat_map_app in Na. simpl in Na. apply namesN_app in Na. destruct Na as [Na _].
    apply namesN_app in Na. destruct Na as [N1 N2]. rewrite app_nil_r in N2.
    destruct (Pe_set n IHe L F N W B bases st s E U1 B2 Fi G N2 I) as (V1 & V2 & V3).
    pose proof (vexprs_still _ _ _ _ _ _ E) as S1. pose proof (vexprs_still _ _ _ _ _ _ E0) as S2.
    destruct (Pe_set n IHe L F N W B decos s s0 E0 U2 B1 (FI_still _ _ _ S1 Fi) G N1 V3) as (V4 & V5 & V6).
    assert (C : forall tr ok, evs L F (decos ++ bases ++ []) tr ok -> covers N W B (kill s0 [nm name]) tr).
    { intros tr0 ok0 Y. rewrite app_nil_r in Y. eapply covers_evs; [|exact Y].
      intros e tr1 ok1 J Ye. apply in_app_or in J. apply (covers_live _ _ _ s0); [|apply incl_refl].
      destruct J as [J|J]; [eapply V4; eassumption|].
      eapply covers_live; [eapply V1; eassumption|apply S2]. }
    assert (Nr : forall trb out F', exs L F body trb out F' -> exposed_reads [] trb = []).
    { intros trb o F1 Y. pose proof (inert_silent _ _ _ _ _ _ U4 Y) as Q. clear - Q.
      generalize (@nil string). induction trb as [|[y|y] trb IH]; simpl; intros l; auto.
      - destruct (Q y). simpl. auto.
      - apply IH. intros z J. apply (Q z). simpl. auto. }
    inversion X; subst.
    + split; [|split; auto; discriminate]. split; [eapply C; eassumption|discriminate].
    + erewrite Nr by eassumption. simpl. split; [|split; auto].
      * split.
        -- apply covers_app; [eapply C; eassumption|]. intros y Ey. destruct (exposed_write _ _ _ Ey).
        -- intros _. destruct V6 as [V6 V7]. unfold orp. split.
           ++ intros a y J R. simpl in J. destruct J as [[= <-]|J].
              ** simpl in R. injection R as ->. destruct (wr_write y L); auto. right; right. apply wr_app. auto.
              ** destruct (V6 a y J R); auto.
           ++ intros c y J R. simpl in J. destruct J as [<-|J].
              ** destruct R as (a & l & [= <- <-] & R). simpl in R. injection R as ->.
                 destruct (wr_write y L); auto. right; left; right. apply wr_app. auto.
              ** destruct (V7 c y J R) as [?|[?|[?|?]]]; auto.
      * intros _. eapply FI_funs; [|eapply FI_still; [exact S2|eapply FI_still; eassumption]]. auto.
    + erewrite Nr by eassumption. rewrite app_nil_r. split; [|split; auto; discriminate].
      split; [eapply C; eassumption|discriminate].
  - destruct Fs as (F1 & F2 & F3). apply namesN_app in Na. destruct Na as [N1 N2].
    apply rbind_Ok in H. destruct H as (s1 & E & H).
    pose proof (vexpr_still _ _ _ _ _ _ E) as S1. pose proof (vbranch_grow _ _ _ _ _ _ _ _ H) as S2.
    apply inv_if in X. destruct X as [(X & -> & ->)|(t1 & t2 & -> & X1 & X2)].
    + split; [|split; auto; discriminate]. apply (sound_stop _ _ _ _ s1); [|apply S2|discriminate].
      eapply E1; eassumption.
    + destruct (E1 _ _ _ _ E F1 N1 X1) as [C1 C2]. destruct n as [|m] eqn:En; [discriminate|].
      assert (IHm : Ps m) by (apply IHle; lia).
      destruct (branch_sound m L F N (orp W (wr t1)) B s1 None body orelse st' IHm H Logic.I F2 F3
                  (FI_still _ _ _ S1 Fi) G N2 Nl (C2 eq_refl)) as (D1 & D2 & D3 & D4 & D5).
      assert (Y : F' = F /\ sound L N (orp W (wr t1)) B st' t2 (out = Normal)).
      { destruct X2 as [X2|X2].
        - destruct (D3 [] t2 out F' eq_refl X2) as (Y1 & Y2 & Y3). split; auto. split; auto.
        - destruct (D4 t2 out F' X2) as (Y1 & Y2 & Y3). split; auto. split; auto. }
      destruct Y as [-> Y]. split; [|auto].
      apply (sound_seq _ _ _ _ s1); [split; auto|apply S2|exact Y].
  - destruct Fs as (F1 & F2 & F3 & F4). apply namesN_app in Na. destruct Na as [N1 N2].
    apply rbind_Ok in H. destruct H as (s1 & E & H).
    pose proof (vexpr_still _ _ _ _ _ _ E) as S1. pose proof (vbranch_grow _ _ _ _ _ _ _ _ H) as S2.
    destruct n as [|m] eqn:En; [discriminate|].
    assert (IHm : Ps m) by (apply IHle; lia).
    apply inv_while in X. destruct X as (t1 & o & Fl & t2 & -> & X1 & X2).
    assert (Y : (ev L F test t1 false /\ o = Raise /\ Fl = F) \/
              exists u1 u2, t1 = u1 ++ u2 /\ ev L F test u1 true /\
                ((u2 = [] /\ o = Normal /\ Fl = F) \/
                 (exists u3 u4 o' F1, u2 = u3 ++ u4 /\ exs L F body u3 o' F1 /\
                    loop L F1 (SWhile test body orelse) u4 o Fl) \/
                 (exs L F body u2 o Fl))).
    { inversion X1; subst; auto; right.
      - exists t1, []. rewrite app_nil_r. auto 6.
      - eexists _, _. split; [reflexivity|]. split; [eassumption|]. right; left. eauto 10.
      - eexists _, _. split; [reflexivity|]. split; [eassumption|]. auto. }
    destruct Y as [(Y & -> & ->)|(u1 & u2 & -> & Y1 & Y2)].
    + apply inv_after in X2. destruct X2 as [[X2 _]|[[X2 _]|(_ & <- & -> & ->)]]; try discriminate.
      rewrite app_nil_r. split; [|split; auto; discriminate].
      apply (sound_stop _ _ _ _ s1); [|apply S2|discriminate]. eapply E1; eassumption.
    + destruct (E1 _ _ _ _ E F1 N1 Y1) as [C1 C2].
      destruct (branch_sound m L F N (orp W (wr u1)) B s1 None body orelse st' IHm H Logic.I F2 F3
                  (FI_still _ _ _ S1 Fi) G N2 Nl (C2 eq_refl)) as (D1 & D2 & D3 & D4 & D5).
      assert (Bd : forall tr out F', exs L F body tr out F' ->
                covers N (orp W (wr u1)) B st' tr /\ F' = F /\ (out = Break -> existsb breaks body = true)).
      { intros tr0 o0 F0 Z0. destruct (D3 [] tr0 o0 F0 eq_refl Z0) as (Q1 & Q2 & _).
        split; [auto|]. split; [auto|]. intros Q. destruct (existsb breaks body) eqn:Bb; auto.
        destruct (no_breaks body false L F tr0 o0 F0 F2 Bb Z0 Q). }
      assert (Te : forall tr ok, ev L F test tr ok -> covers N (orp W (wr u1)) B st' tr).
      { intros tr0 ok0 Z0. destruct (E1 _ _ _ _ E F1 N1 Z0) as [C0 _].
        eapply covers_live; [|exact D2]. eapply covers_weaken; [| |exact C0]; unfold orp; auto. }
      assert (Lp : covers N (orp W (wr u1)) B st' u2 /\ Fl = F /\ (o = Break -> existsb breaks body = true)).
      { destruct Y2 as [(-> & -> & ->)|[(u3 & u4 & o' & Fm & -> & Y2 & Y3)|Y2]].
        - split; [apply covers_nil|]. split; [auto|discriminate].
        - destruct (Bd _ _ _ Y2) as (Q1 & -> & _).
          destruct (while_covers L F test body orelse N (orp W (wr u1)) B st'
                      (covers N (orp W (wr u1)) B st') (fun _ q => q) Te Bd _ _ _ Y3) as (Q2 & Q3 & Q4).
          split; [apply covers_app; auto|auto].
        - auto. }
      destruct Lp as (Lc & -> & Lb).
      assert (Fin : F' = F /\ sound L N (orp W (wr u1)) B st' (u2 ++ t2) (out = Normal)).
      { apply inv_after in X2. destruct X2 as [[-> X2]|[(-> & -> & -> & ->)|(X2 & -> & -> & ->)]].
        - destruct (D4 t2 out F' X2) as (Q1 & Q2 & Q3). split; auto. split; [apply covers_app; auto|].
          intros Q. eapply Inv_mono; [exact (Q3 Q)| | | |]; auto using incl_refl.
          intros x. unfold orp. rewrite wr_app. tauto.
        - split; auto. rewrite app_nil_r. split; auto. intros _. apply Inv_wr. apply D5.
          destruct F4 as [F4|F4]; auto. rewrite (Lb eq_refl) in F4. discriminate.
        - split; auto. rewrite app_nil_r. split; auto. intros ->. destruct X2; discriminate. }
      destruct Fin as [-> Fin]. split; [|auto]. rewrite <- app_assoc.
      apply (sound_seq _ _ _ _ s1); [split; auto|apply D2|exact Fin].
  - destruct Fs as (F0 & F1 & F2 & F3 & F4). apply namesN_app in Na. destruct Na as [_ Na].
    apply namesN_app in Na. destruct Na as [N1 N2].
    apply rbind_Ok in H. destruct H as (s1 & E & H).
    pose proof (vexpr_still _ _ _ _ _ _ E) as S1. pose proof (vbranch_grow _ _ _ _ _ _ _ _ H) as S2.
    destruct n as [|m] eqn:En; [discriminate|].
    assert (IHm : Ps m) by (apply IHle; lia).
    apply inv_for in X. destruct X as [(X & -> & ->)|(u1 & u2 & o & Fl & t2 & -> & Y1 & X1 & X2)].
    + split; [|split; auto; discriminate]. apply (sound_stop _ _ _ _ s1); [|apply S2|discriminate].
      eapply E1; eassumption.
    + destruct (E1 _ _ _ _ E F1 N1 Y1) as [C1 C2].
      destruct (branch_sound m L F N (orp W (wr u1)) B s1 (Some target) body orelse st' IHm H F0 F2 F3
                  (FI_still _ _ _ S1 Fi) G N2 Nl (C2 eq_refl)) as (D1 & D2 & D3 & D4 & D5).
      assert (Lp : covers N (orp W (wr u1)) B st' u2 /\ Fl = F /\ (o = Break -> existsb breaks body = true)).
      { eapply for_covers; [| |exact X1].
        - intros tr0 Z0. destruct (store_pattern L F target tr0 false F0 Z0) as [Q _].
          intros x Ex. destruct (Q x Ex).
        - intros tr0 tr' o0 Fm Z0 Z1. destruct (D3 tr0 tr' o0 Fm Z0 Z1) as (Q1 & Q2 & _).
          split; [auto|]. split; [auto|]. intros Q. destruct (existsb breaks body) eqn:Bb; auto.
          destruct (no_breaks body false L F tr' o0 Fm F2 Bb Z1 Q). }
      destruct Lp as (Lc & -> & Lb).
      assert (Fin : F' = F /\ sound L N (orp W (wr u1)) B st' (u2 ++ t2) (out = Normal)).
      { apply inv_after in X2. destruct X2 as [[-> X2]|[(-> & -> & -> & ->)|(X2 & -> & -> & ->)]].
        - destruct (D4 t2 out F' X2) as (Q1 & Q2 & Q3). split; auto. split; [apply covers_app; auto|].
          intros Q. eapply Inv_mono; [exact (Q3 Q)| | | |]; auto using incl_refl.
          intros x. unfold orp. rewrite wr_app. tauto.
        - split; auto. rewrite app_nil_r. split; auto. intros _. apply Inv_wr. apply D5.
          destruct F4 as [F4|F4]; auto. rewrite (Lb eq_refl) in F4. discriminate.
        - split; auto. rewrite app_nil_r. split; auto. intros ->. destruct X2; discriminate. }
      destruct Fin as [-> Fin]. split; [|auto].
      apply (sound_seq _ _ _ _ s1); [split; auto|apply D2|exact Fin].
  - destruct Fs as (-> & F1 & F2). apply namesN_app in Na. destruct Na as [N1 N2].
    apply rbind_Ok in H. destruct H as (s1 & E & H).
    pose proof (vstmts_grow _ _ _ _ _ _ H) as S2.
    assert (Fu : funs st' = funs s1).
    { revert H. apply (rfold_inv _ (fun s => funs s = funs s1)); auto.
      intros u v w Ju J R. rewrite <- J. eapply nested_funs; [exact R|].
      change (all (fine_stmt fs gs false) body) in F2. rewrite all_In in F2. auto. }
    apply inv_with in X. destruct X as [(X & -> & ->)|(t1 & t2 & -> & X1 & X2)].
    + destruct (items_sound L F N B items W st s1 tr false E F1 Fi G N1 I X) as [C1 C2].
      split; [|split; auto; discriminate]. apply (sound_stop _ _ _ _ s1); [apply C1|apply S2|discriminate].
    + destruct (items_sound L F N B items W st s1 t1 true E F1 Fi G N1 I X1) as [[C1 C2] C3].
      destruct (stmts_sound n IHs L F N (orp W (wr t1)) B false body s1 st' t2 out F' H F2
                  (FI_still _ _ _ C3 Fi) G N2 Nl (C2 eq_refl) X2) as (D1 & D2 & D3).
      rewrite (D2 eq_refl) in *. split; [|auto].
      apply (sound_seq _ _ _ _ s1); [split; auto|apply S2|exact D1].
Qed.
End Steps.

Lemma all_sound n : Pe n /\ Pa n /\ Ps n.
Proof.
  induction n as [n IH] using lt_wf_ind. destruct n as [|n].
  - split; [|split]; intros L F N W B st; intros; discriminate.
  - assert (IHle : forall m, m <= n -> Pe m /\ Pa m /\ Ps m) by (intros m Lm; apply IH; lia).
    split; [apply step_expr; auto|]. split; [|apply step_stmt; auto].
    apply step_att; apply IHle; auto.
Qed.
End Sound.

Theorem analyze_sound n prog st tr out :
  analyze n prog = Ok st -> fine prog -> runs prog tr out ->
  (forall x, exposed x tr -> reported_live x st) /\
  (out = Normal -> forall x, reported_dead x st -> In (Write x) tr).
Proof.
  intros H (fs & gs & A) (F & X). unfold analyze in H. apply rmap_Ok in H. destruct H as (s & H & <-).
  destruct (all_sound fs gs n) as (_ & _ & P).
  destruct (stmts_sound fs gs n P [] [] (fun _ => True) (fun _ => False) (fun _ => False) true prog
              (mkV [] [] [] []) s tr out F) as ((C1 & C2) & _); auto.
  - intros f fn Q. discriminate.
  - intros x _. exact Logic.I.
  - intros x _. right. exact Logic.I.
  - split; simpl; [intros a x []|intros c x []].
  - split.
    + intros x Ex. destruct (C1 x Ex) as [_ [[]|[[]|Q]]]. exact Q.
    + intros Q x D. destruct (C2 Q) as [I1 _]. destruct (I1 (nm x) x D eq_refl) as [[]|[[]|Y]]. exact Y.
Qed.
