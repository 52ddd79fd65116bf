(** C62: what a called function reads is live in the cell that calls it.
    C63: a cell waits for a name iff it, or a function that it runs, reads a name not known.
    C64: reactivity is passed on along calls.
    C65: reading through calls counts as use. *)
From Coq Require Import List Arith Bool Lia.
From Verif Require Import Base Loops ChainModel ChainSpec ChainProofs.
From Verif Require ArgsModel.
Import ListNotations.

(** A cell with [f()] and [y]; f reads x and calls g; g reads z and calls f, and reads name 9,
    which is not defined. Name 7 is a builtin. *)
Definition plain_ref (i : nat) : ref := {| root := Some i; killed := false; found := [(i, false, false)] |}.
Definition lost_ref : ref := {| root := Some 9; killed := false; found := [] |}.
Definition fun_f : fn :=
  {| params := [8]; refs := [plain_ref 3; plain_ref 4; {| root := Some 8; killed := false; found := [] |}] |}.
Definition fun_g : fn := {| params := []; refs := [plain_ref 5; plain_ref 6; lost_ref] |}.
Definition sample : world :=
  {| defs := [(1, fun_f); (4, fun_g); (6, fun_f)];
     called := fun i => (i =? 1) || (i =? 4) || (i =? 6);
     next_called := fun _ => false; is_anonymous := fun _ => false; is_lhs_ref := fun _ => false;
     is_blocking := fun _ => false; sym_cascading := fun _ => false; deep_reactive := fun _ => false;
     is_mutating := fun _ => false; missing := fun _ => false; here := fun _ => false;
     cell_of := fun r => 10 + id r; builtin := fun x => x =? 7; mode := false |}.
(** The call is marked reactive if [hot]. *)
Definition sample_cell (hot : bool) : list cell_ref :=
  [({| root := Some 1; killed := false; found := [(1, hot, false)] |}, 0); (plain_ref 2, 1)].

Lemma sample_locals hot : locals_current sample (sample_cell hot).
Proof.
  split.
  - intros b i (n & [E|[E|[]]]) K; inversion E; subst; discriminate.
  - intros f b i (n & k & _ & F & B) K. exfalso.
    assert (Q : forall g, In g [fun_f; fun_g] -> In b (refs g) -> killed b = false).
    { intros g [<-|[<-|[]]] I; cbn in I; repeat (destruct I as [<-|I]; [reflexivity|]); destruct I. }
    assert (In f [fun_f; fun_g]).
    { apply dget_In in F. cbn in F. repeat (destruct F as [F|F]; [inversion F; subst; cbn; auto|]).
      destruct F. }
    rewrite (Q f) in K; auto. discriminate.
Qed.

(** The search ends, however the functions call each other, and the result does not depend on how
    many steps are allowed beyond the end. *)
Theorem C62_total : forall w uns upd used l, exists n r, forall fuel, n <= fuel ->
  references fuel w uns upd used l = Ok r.
Proof.
  intros w uns upd used l. unfold references. fold st0.
  set (s0 := fold_left (own_ref w uns upd used) l st0).
  destruct (chase_total w upd s0 _ _ [] s0 (inv_start w upd s0) (le_n _) (le_n _)) as (n & r & H).
  exists n. eexists. intros fuel L. rewrite (H fuel L). reflexivity.
Qed.
Print Assumptions C62_total.

Example C62_total_ok : exists r, references 20 sample false true (fun _ => false) (sample_cell false) = Ok r.
Proof. eexists. vm_compute. reflexivity. Qed.

(** Every named, safe symbol read by the cell or by a function that runs is live; and only those
    read are. *)
Theorem C62_partial : forall fuel w uns upd used l lv cs un us, locals_current w l ->
  references fuel w uns upd used l = Ok (lv, cs, un, us) ->
  (forall i, reads w l i -> safe w i -> is_anonymous w i = false -> exists r, In r lv /\ id r = i) /\
  (forall r, In r lv -> reads w l (id r)).
Proof.
  intros fuel w uns upd used l lv cs un us LC E. unfold references in E. fold st0 in E.
  set (s0 := fold_left (own_ref w uns upd used) l st0) in *.
  apply rmap_Ok in E. destruct E as ((seen & s) & E & Q). cbn in Q. inversion Q; subst lv cs un us. clear Q.
  destruct (chase_seen _ _ _ _ _ _ E) as (I & S). clear E.
  destruct (own_refs_spec w uns upd used l st0) as (_ & L & _). fold s0 in L.
  split.
  - intros i [(b & (n & B) & K & T)|(f & b & (n & k & R & F & B) & K & T)] SF NA;
      apply through_in in T; destruct T as (r & T & <-);
      assert (D : dead r = false) by (apply resolved_in in T; destruct T; congruence).
    + exists r. split; auto. apply (i_live _ _ _ _ _ I). left. apply L. right. exists b, n.
      refine (conj B (conj T (conj _ (conj D (or_intror (safe_ok w r SF)))))). intros C. congruence.
    + destruct (runs_reached w uns upd used l LC n k R) as (c & RC & <-). fold s0 in RC.
      exists (pass_on w c r). split; auto. apply (i_live _ _ _ _ _ I). right. exists (c, n), f.
      refine (conj _ (conj F _)); [apply S; split; auto; cbn; congruence|].
      exists b, r. refine (conj B (conj T (conj _ (conj NA (conj D (conj _ eq_refl)))))).
      * intros C. congruence.
      * apply safe_ok. exact SF.
  - intros r H. apply (i_live _ _ _ _ _ I) in H. destruct H as [H|(x & f & X & F & (b & y & H1 & H2 & H3 & H4 & H5 & H6 & ->))].
    + apply L in H. destruct H as [[]|(b & n & H1 & H2 & H3 & H4 & _)]. left. exists b.
      refine (conj (ex_intro _ n H1) (conj _ _)).
      * apply resolved_in in H2. destruct H2. congruence.
      * apply through_in. eauto.
    + right. exists f, b. apply S in X. destruct X as (X & _).
      refine (conj _ (conj _ _)).
      * exists (snd x), (id (fst x)). refine (conj _ (conj F H1)).
        apply (reached_runs w uns upd used l). exact X.
      * apply resolved_in in H2. destruct H2. congruence.
      * apply through_in. exists y. auto.
Qed.
Print Assumptions C62_partial.

Example C62_partial_ok : locals_current sample (sample_cell false) /\
  (exists cs un us, references 20 sample false true (fun _ => false) (sample_cell false) =
     Ok (map (fun i => {| id := i; reac := false; casc := false; dead := false |}) [1; 2; 3; 4; 5; 6; 3; 4],
         cs, un, us)) /\
  reads sample (sample_cell false) 5 /\ safe sample 5.
Proof.
  refine (conj (sample_locals false) (conj _ (conj _ eq_refl))).
  - do 3 eexists. vm_compute. reflexivity.
  - right. exists fun_g, (plain_ref 5). refine (conj _ (conj eq_refl (or_introl eq_refl))).
    exists 0, 4. refine (conj _ (conj eq_refl (or_introl eq_refl))).
    apply (runs_body _ _ _ 1 fun_f (plain_ref 4)); cbn; auto.
    apply (runs_cell _ _ _ {| root := Some 1; killed := false; found := [(1, false, false)] |}); cbn; auto.
Qed.

(** With in-order flow, if the cell that ran does not lie between this cell's first parent and this
    cell, then even what is not there yet is live in this cell; without in-order flow, nothing that
    is not there is. *)
Theorem C62_span_partial : forall fuel w in_order p current parents upd used l lv cs un us,
  references fuel w (allow_unsafe in_order (Some p) current parents) upd used l = Ok (lv, cs, un, us) ->
  (in_order = true -> p <= current \/ (forall q, In q (p :: parents) -> current < q) ->
   forall b i, in_cell l b -> killed b = false -> In i (through b) -> exists r, In r lv /\ id r = i) /\
  (in_order = false \/ (exists q, In q (p :: parents) /\ q <= current < p) ->
   forall r, In r lv -> next_called w (id r) = false -> missing w (id r) = false).
Proof.
  intros fuel w in_order p current parents upd used l lv cs un us E.
  set (uns := allow_unsafe in_order (Some p) current parents) in *.
  assert (MIN : forall ps a, current <? fold_left Nat.min ps a = true <->
                (forall q, In q (a :: ps) -> current < q)).
  { induction ps as [|x ps IH]; intros a; cbn [fold_left].
    - rewrite Nat.ltb_lt. split; [intros H q [<-|[]]; auto | intros H; apply H; now left].
    - rewrite IH. split; intros H q.
      + intros [<-|[<-|I]].
        * specialize (H (Nat.min a x) (or_introl eq_refl)). lia.
        * specialize (H (Nat.min a x) (or_introl eq_refl)). lia.
        * apply H. now right.
      + intros [<-|I]; [|apply H; right; now right].
        pose proof (H a (or_introl eq_refl)). pose proof (H x (or_intror (or_introl eq_refl))). lia. }
  unfold references in E. fold st0 in E.
  set (s0 := fold_left (own_ref w uns upd used) l st0) in *.
  apply rmap_Ok in E. destruct E as ((seen & s) & E & Q). cbn in Q. inversion Q; subst lv cs un us. clear Q.
  destruct (chase_seen _ _ _ _ _ _ E) as (I & S). clear E.
  destruct (own_refs_spec w uns upd used l st0) as (_ & L & _). fold s0 in L.
  split.
  - intros IO H b i (n & B) K T.
    assert (UT : uns = true).
    { unfold uns, allow_unsafe. rewrite IO. destruct (p <=? current) eqn:PC; auto.
      apply MIN. destruct H as [H|H]; auto. apply Nat.leb_gt in PC. lia. }
    apply through_in in T. destruct T as (r & T & <-).
    exists r. split; auto. apply (i_live _ _ _ _ _ I). left. apply L. right. exists b, n.
    refine (conj B (conj T (conj _ (conj _ (or_introl UT))))).
    + intros C. congruence.
    + apply resolved_in in T. destruct T. congruence.
  - intros H r R NC.
    assert (UF : uns = false).
    { unfold uns, allow_unsafe. destruct H as [->|(q & J & H1 & H2)]; auto. destruct in_order; auto.
      destruct (p <=? current) eqn:PC; [apply Nat.leb_le in PC; lia|].
      destruct (current <? fold_left Nat.min parents p) eqn:M; auto.
      apply MIN with (q := q) in M; auto. lia. }
    assert (US : is_unsafe w r = false).
    { apply (i_live _ _ _ _ _ I) in R. destruct R as [R|(x & f & _ & _ & (b & y & _ & _ & _ & _ & _ & U & ->))]; auto.
      apply L in R. destruct R as [[]|(b & n & _ & _ & _ & _ & [R|R])]; auto. congruence. }
    unfold is_unsafe in US. now rewrite NC in US.
Qed.
Print Assumptions C62_span_partial.

Example C62_span_partial_ok : allow_unsafe true (Some 4) 1 [3; 2] = true /\
  allow_unsafe true (Some 4) 2 [3; 2] = false /\ allow_unsafe true (Some 4) 4 [3; 2] = true.
Proof. repeat split. Qed.

(** A function under a local name that was defined when another cell ran: what it reads is lost.
    Here f defines g and calls it; g reads 5; the cell calls f. *)
Theorem C62_local_refuted : exists w l i, reads w l i /\ safe w i /\ is_anonymous w i = false /\
  forall fuel uns upd used lv cs un us, references fuel w uns upd used l = Ok (lv, cs, un, us) ->
    ~ exists r, In r lv /\ id r = i.
Proof.
  set (lg := {| root := Some 4; killed := true; found := [(4, false, false)] |}).
  set (ff := {| params := []; refs := [lg] |}).
  set (w := {| defs := [(1, ff); (4, {| params := []; refs := [plain_ref 5] |})];
     called := fun i => (i =? 1) || (i =? 4);
     next_called := fun _ => false; is_anonymous := fun _ => false; is_lhs_ref := fun _ => false;
     is_blocking := fun _ => false; sym_cascading := fun _ => false; deep_reactive := fun _ => false;
     is_mutating := fun _ => false; missing := fun _ => false; here := fun _ => false;
     cell_of := fun r => 10 + id r; builtin := fun x => x =? 7; mode := false |}).
  exists w, [(plain_ref 1, 0)], 5. refine (conj _ (conj eq_refl (conj eq_refl _))).
  - right. exists {| params := []; refs := [plain_ref 5] |}, (plain_ref 5).
    refine (conj _ (conj eq_refl (or_introl eq_refl))).
    exists 0, 4. refine (conj _ (conj eq_refl (or_introl eq_refl))).
    apply (runs_body _ _ _ 1 ff lg); cbn; auto.
    apply (runs_cell _ _ _ (plain_ref 1)); cbn; auto.
  - intros fuel uns upd used lv cs un us E (r & I & D).
    assert (LV : lv = [{| id := 1; reac := false; casc := false; dead := false |}]).
    { unfold references in E. cbn in E. destruct uns, upd, (used 1); cbn in E;
        (destruct fuel as [|[|[|fuel]]]; cbn in E; try discriminate; inversion E; reflexivity). }
    subst lv. destruct I as [<-|[]]. discriminate.
Qed.
Print Assumptions C62_local_refuted.

(** The cells whose code is type checked together with this one: those of the functions that run. *)
Theorem C62_cells_partial : forall fuel w uns upd used l lv cs un us, locals_current w l ->
  references fuel w uns upd used l = Ok (lv, cs, un, us) ->
  (forall m, In m cs -> exists r n f, runs w l n (id r) /\ dget (defs w) (id r) = Some f /\ cell_of w r = m) /\
  (forall b i f, in_cell l b \/ (exists g, in_body w l g b) -> killed b = false -> In i (through b) ->
     called w i = true -> dget (defs w) i = Some f -> exists r, id r = i /\ In (cell_of w r) cs).
Proof.
  intros fuel w uns upd used l lv cs un us LC E. unfold references in E. fold st0 in E.
  set (s0 := fold_left (own_ref w uns upd used) l st0) in *.
  apply rmap_Ok in E. destruct E as ((seen & s) & E & Q). cbn in Q. inversion Q; subst lv cs un us. clear Q.
  destruct (chase_seen _ _ _ _ _ _ E) as (I & S). clear E. unfold live_cells. split.
  - intros m H. apply in_map_iff in H. destruct H as (x & <- & H). apply filter_In in H.
    destruct H as (H & _). apply S in H. destruct H as (R & D).
    destruct (dget (defs w) (id (fst x))) as [f|] eqn:F; [|congruence].
    exists (fst x), (snd x), f. refine (conj _ (conj F eq_refl)). apply (reached_runs w uns upd used l). exact R.
  - intros b i f H K T C F. apply through_in in T. destruct T as (r & T & <-).
    assert (D : dead r = false) by (apply resolved_in in T; destruct T; congruence).
    assert (G : forall x, reached w (work s0) x -> id (fst x) = id r -> dead (fst x) = false ->
                exists r', id r' = id r /\
                In (cell_of w r') (map (fun x => cell_of w (fst x)) (filter (fun x => is_live (fst x)) seen))).
    { intros x R X1 X2. exists (fst x). split; auto. apply in_map_iff. exists x. split; auto.
      apply filter_In. split; [apply S; split; auto; congruence|]. unfold is_live. now rewrite X2. }
    destruct H as [(n & B)|(g & n & k & R & FG & B)].
    + apply (G (r, n)); auto. apply re_start, start_in. exists b.
      refine (conj B (conj T (conj _ C))). intros X. cbn in *. congruence.
    + destruct (runs_reached w uns upd used l LC n k R) as (c & RC & <-). fold s0 in RC.
      apply (G (pass_on w c r, n)); auto. apply (reached_step w uns upd used l LC c n g b); auto.
Qed.
Print Assumptions C62_cells_partial.

Example C62_cells_partial_ok : exists lv un us,
  references 20 sample false true (fun _ => false) (sample_cell false) = Ok (lv, [16; 14; 11], un, us).
Proof. do 3 eexists. vm_compute. reflexivity. Qed.

(** The names that the cell waits for: those, not local, that resolve to nothing, and are neither
    builtins nor parameters. *)
Theorem C63_partial : forall fuel w uns upd used l lv cs un us, locals_current w l ->
  references fuel w uns upd used l = Ok (lv, cs, un, us) ->
  forall b, In b un <->
    killed b = false /\ found b = [] /\
    ((in_cell l b /\ forall x, root b = Some x -> builtin w x = false) \/
     (exists f, in_body w l f b /\ forall x, root b = Some x -> builtin w x = false /\ ~ In x (params f))).
Proof.
  intros fuel w uns upd used l lv cs un us LC E. unfold references in E. fold st0 in E.
  set (s0 := fold_left (own_ref w uns upd used) l st0) in *.
  apply rmap_Ok in E. destruct E as ((seen & s) & E & Q). cbn in Q. inversion Q; subst lv cs un us. clear Q.
  destruct (chase_seen _ _ _ _ _ _ E) as (I & S). clear E.
  destruct (own_refs_spec w uns upd used l st0) as (_ & _ & U & _). fold s0 in U.
  intros b. rewrite (i_unres _ _ _ _ _ I), U.
  assert (BA : base w b = false <-> forall x, root b = Some x -> builtin w x = false).
  { unfold base. destruct (root b); split; auto; try congruence. }
  assert (UN : forall p, killed b = false ->
             (unk w b p = false <-> forall x, root b = Some x -> builtin w x = false /\ ~ In x p)).
  { intros p K. unfold unk. destruct (root b) as [x|]; [|split; auto; intros _ x E; discriminate].
    rewrite K. cbn. rewrite orb_false_iff. split.
    - intros [A B] y Y. inversion Y; subst. split; auto. intros J. apply memb_In in J. congruence.
    - intros H. destruct (H x eq_refl) as (A & B). split; auto. now apply memb_nIn. }
  split.
  - intros [[[]|((n & H1) & H2 & H3 & H4)]|(x & f & X & F & H1 & H2 & H3 & H4)].
    + refine (conj H2 (conj H3 (or_introl (conj (ex_intro _ n H1) _)))). now apply BA.
    + refine (conj H2 (conj H3 (or_intror (ex_intro _ f (conj _ _))))).
      * exists (snd x), (id (fst x)). refine (conj _ (conj F H1)).
        apply S in X. apply (reached_runs w uns upd used l). apply X.
      * now apply UN.
  - intros (K & FO & [((n & H1) & H2)|(f & (n & k & R & F & B) & H)]).
    + left. right. refine (conj (ex_intro _ n H1) (conj K (conj FO _))). now apply BA.
    + right. destruct (runs_reached w uns upd used l LC n k R) as (c & RC & <-). fold s0 in RC.
      exists (c, n), f. refine (conj _ (conj F (conj B (conj K (conj FO _))))).
      * apply S. split; auto. cbn. congruence.
      * now apply UN.
Qed.
Print Assumptions C63_partial.

Example C63_partial_ok : exists lv cs us,
  references 20 sample false true (fun _ => false) (sample_cell false) = Ok (lv, cs, [lost_ref], us).
Proof. do 3 eexists. vm_compute. reflexivity. Qed.

(** Positional-only parameters are not among the parameters that are excepted: a cell that calls
    [def f(p, /): return p] waits for p. *)
Theorem C63_posonly_refuted : exists w l (d : ArgsModel.fundef) f p b, locals_current w l /\
  In p (ArgsModel.d_pos d) /\ params f = ArgsModel.definition_args d /\
  in_body w l f b /\ root b = Some p /\
  forall fuel uns upd used lv cs un us, references fuel w uns upd used l = Ok (lv, cs, un, us) ->
    In b un.
Proof.
  set (d := {| ArgsModel.d_pos := [3]; ArgsModel.d_args := []; ArgsModel.d_kwonly := [];
               ArgsModel.d_vararg := None; ArgsModel.d_kwarg := None; ArgsModel.d_defaults := [] |}).
  set (b := {| root := Some 3; killed := false; found := [] |}).
  set (f := {| params := ArgsModel.definition_args d; refs := [b] |}).
  set (w := {| defs := [(1, f)];
     called := fun i => i =? 1;
     next_called := fun _ => false; is_anonymous := fun _ => false; is_lhs_ref := fun _ => false;
     is_blocking := fun _ => false; sym_cascading := fun _ => false; deep_reactive := fun _ => false;
     is_mutating := fun _ => false; missing := fun _ => false; here := fun _ => false;
     cell_of := fun r => 10 + id r; builtin := fun x => x =? 7; mode := false |}).
  assert (LC : locals_current w [(plain_ref 1, 0)]).
  { split.
    - intros b' i (n & [E|[]]) K; inversion E; subst; discriminate.
    - intros f' b' i (n & k & _ & F & B) K. apply dget_In in F. destruct F as [F|[]].
      inversion F; subst. destruct B as [<-|[]]. discriminate. }
  assert (IB : in_body w [(plain_ref 1, 0)] f b).
  { exists 0, 1. refine (conj _ (conj eq_refl (or_introl eq_refl))).
    apply (runs_cell _ _ _ (plain_ref 1)); cbn; auto. }
  exists w, [(plain_ref 1, 0)], d, f, 3, b.
  refine (conj LC (conj (or_introl eq_refl) (conj eq_refl (conj IB (conj eq_refl _))))).
  intros fuel uns upd used lv cs un us E. apply (C63_partial _ _ _ _ _ _ _ _ _ _ LC E).
  refine (conj eq_refl (conj eq_refl (or_intror (ex_intro _ f (conj IB _))))).
  intros x H. inversion H; subst. split; [reflexivity | intros []].
Qed.
Print Assumptions C63_posonly_refuted.

(** What a function that is called reactively reads, directly or through further calls that are not
    blocked, is read reactively; and a symbol that is read reactively is marked so where it is
    read, or read by a function called reactively. The same for cascading reactivity. *)
Theorem C64_partial : forall fuel w uns upd used l lv cs un us, locals_current w l ->
  references fuel w uns upd used l = Ok (lv, cs, un, us) ->
  (forall i f b j, hot w l i -> dget (defs w) i = Some f -> In b (refs f) -> killed b = false ->
     In j (through b) -> safe w j -> is_anonymous w j = false ->
     exists r, In r lv /\ id r = j /\ reac r = true) /\
  (forall i f b j, cascades w l i -> dget (defs w) i = Some f -> In b (refs f) -> killed b = false ->
     In j (through b) -> safe w j -> is_anonymous w j = false ->
     exists r, In r lv /\ id r = j /\ casc r = true) /\
  (forall r, In r lv -> reac r = true ->
     (exists b c, (in_cell l b \/ exists f, in_body w l f b) /\ In (id r, true, c) (found b)) \/
     (exists i f b, hot w l i /\ dget (defs w) i = Some f /\ In b (refs f) /\ In (id r) (through b))) /\
  (forall r, In r lv -> casc r = true ->
     (exists b a, (in_cell l b \/ exists f, in_body w l f b) /\ In (id r, a, true) (found b)) \/
     (exists i f b, cascades w l i /\ dget (defs w) i = Some f /\ In b (refs f) /\ In (id r) (through b))).
Proof.
  intros fuel w uns upd used l lv cs un us LC E. unfold references in E. fold st0 in E.
  set (s0 := fold_left (own_ref w uns upd used) l st0) in *.
  apply rmap_Ok in E. destruct E as ((seen & s) & E & Q). cbn in Q. inversion Q; subst lv cs un us. clear Q.
  destruct (chase_seen _ _ _ _ _ _ E) as (I & S). clear E.
  destruct (own_refs_spec w uns upd used l st0) as (_ & L & _). fold s0 in L.
  assert (G : forall c n f b j, reached w (work s0) (c, n) -> dget (defs w) (id c) = Some f -> In b (refs f) ->
                killed b = false -> In j (through b) -> safe w j -> is_anonymous w j = false ->
                exists r, In (pass_on w c r) (live s) /\ id r = j).
  { intros c n f b j R F B K T SF NA. apply through_in in T. destruct T as (r & T & <-).
    assert (D : dead r = false) by (apply resolved_in in T; destruct T; congruence).
    exists r. split; auto. apply (i_live _ _ _ _ _ I). right. exists (c, n), f.
    refine (conj _ (conj F _)); [apply S; split; auto; cbn; congruence|].
    exists b, r. refine (conj B (conj T (conj _ (conj NA (conj D (conj _ eq_refl)))))).
    - intros C. congruence.
    - apply safe_ok. exact SF. }
  refine (conj _ (conj _ (conj _ _))).
  - intros i f b j H F B K T SF NA.
    destruct (hot_reached w uns upd used l LC i H) as (c & n & R & <- & Q). fold s0 in R.
    destruct (G c n f b j R F B K T SF NA) as (r & J & <-). exists (pass_on w c r).
    refine (conj J (conj eq_refl _)). cbn. rewrite Q. apply orb_true_r.
  - intros i f b j H F B K T SF NA.
    destruct (casc_reached w uns upd used l LC i H) as (c & n & R & <- & Q). fold s0 in R.
    destruct (G c n f b j R F B K T SF NA) as (r & J & <-). exists (pass_on w c r).
    refine (conj J (conj eq_refl _)). cbn. rewrite Q. apply orb_true_r.
  - intros r H Q. apply (i_live _ _ _ _ _ I) in H.
    destruct H as [H|(x & f & X & F & (b & y & H1 & H2 & H3 & H4 & H5 & H6 & ->))].
    + apply L in H. destruct H as [[]|(b & n & H1 & H2 & _)]. left. exists b, (casc r).
      split; [left; exists n; auto|]. apply resolved_in in H2. rewrite Q in H2. tauto.
    + apply S in X. destruct X as (X & _). cbn in Q |- *.
      destruct (is_reactive w (fst x)) eqn:RX.
      * right. exists (id (fst x)), f, b. refine (conj _ (conj F (conj H1 _))).
        -- apply (reached_hot w uns upd used l); auto.
        -- apply through_in. exists y. auto.
      * rewrite orb_false_r in Q. left. exists b, (casc y). split.
        -- right. exists f, (snd x), (id (fst x)). refine (conj _ (conj F H1)).
           apply (reached_runs w uns upd used l). exact X.
        -- apply resolved_in in H2. rewrite Q in H2. tauto.
  - intros r H Q. apply (i_live _ _ _ _ _ I) in H.
    destruct H as [H|(x & f & X & F & (b & y & H1 & H2 & H3 & H4 & H5 & H6 & ->))].
    + apply L in H. destruct H as [[]|(b & n & H1 & H2 & _)]. left. exists b, (reac r).
      split; [left; exists n; auto|]. apply resolved_in in H2. rewrite Q in H2. tauto.
    + apply S in X. destruct X as (X & _). cbn in Q |- *.
      destruct (is_cascading_reactive w (fst x)) eqn:RX.
      * right. exists (id (fst x)), f, b. refine (conj _ (conj F (conj H1 _))).
        -- apply (reached_casc w uns upd used l); auto.
        -- apply through_in. exists y. auto.
      * rewrite orb_false_r in Q. left. exists b, (reac y). split.
        -- right. exists f, (snd x), (id (fst x)). refine (conj _ (conj F H1)).
           apply (reached_runs w uns upd used l). exact X.
        -- apply resolved_in in H2. rewrite Q in H2. tauto.
Qed.
Print Assumptions C64_partial.

Example C64_partial_ok : hot sample (sample_cell true) 4 /\
  exists lv cs un us, references 20 sample false true (fun _ => false) (sample_cell true) = Ok (lv, cs, un, us) /\
    In {| id := 5; reac := true; casc := false; dead := false |} lv.
Proof.
  split.
  - apply (h_chain _ _ 1 fun_f (plain_ref 4)); cbn; auto.
    apply (h_cell _ _ {| root := Some 1; killed := false; found := [(1, true, false)] |} 1 true false);
      cbn; auto; [exists 0; now left | left; auto].
  - do 4 eexists. split; [vm_compute; reflexivity | cbn; auto 10].
Qed.

(** Uses are recorded, if asked for, for what each reference ends at: those in the cell, at their
    statement, if no symbol on the way was recorded by the tracer already; and those in functions
    that run, at the statement that runs them. *)
Theorem C65_partial : forall fuel w uns upd used l lv cs un us, locals_current w l ->
  references fuel w uns upd used l = Ok (lv, cs, un, us) ->
  forall i n, In (i, n) us <-> upd = true /\
    ((exists b, In (b, n) l /\ killed b = false /\ ends b i /\ forall j, In j (through b) -> used j = false) \/
     (exists k f b, runs w l n k /\ dget (defs w) k = Some f /\ In b (refs f) /\ killed b = false /\
        ends b i)).
Proof.
  intros fuel w uns upd used l lv cs un us LC E. unfold references in E. fold st0 in E.
  set (s0 := fold_left (own_ref w uns upd used) l st0) in *.
  apply rmap_Ok in E. destruct E as ((seen & s) & E & Q). cbn in Q. inversion Q; subst lv cs un us. clear Q.
  destruct (chase_seen _ _ _ _ _ _ E) as (I & S). clear E.
  destruct (own_refs_spec w uns upd used l st0) as (_ & _ & _ & U). fold s0 in U.
  intros i n. rewrite (i_uses _ _ _ _ _ I), U. cbn [fst snd]. split.
  - intros [[[]|(-> & b & H)]|(x & f & X & F & (-> & b & H1 & H2 & H3 & H4))]; split; auto.
    + left. exists b. exact H.
    + right. cbn in *. subst n. exists (id (fst x)), f, b. refine (conj _ (conj F (conj H1 (conj H2 H3)))).
      apply S in X. apply (reached_runs w uns true used l). apply X.
  - intros (-> & [(b & H)|(k & f & b & R & F & B & K & EN)]).
    + left. right. split; auto. exists b. exact H.
    + right. destruct (runs_reached w uns true used l LC n k R) as (c & RC & <-). fold s0 in RC.
      exists (c, n), f. refine (conj _ (conj F (conj eq_refl _))).
      * apply S. split; auto. cbn. congruence.
      * exists b. auto.
Qed.
Print Assumptions C65_partial.

Example C65_partial_ok : exists lv cs un us,
  references 20 sample false true (fun i => i =? 2) (sample_cell false) = Ok (lv, cs, un, us) /\
  In (5, 0) us /\ ~ In (2, 1) us.
Proof.
  do 4 eexists. split; [vm_compute; reflexivity|]. cbn. intuition discriminate.
Qed.
