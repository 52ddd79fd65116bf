(** Proofs about uninstrumented copies of functions. *)
Require Import List Bool Arith Lia.
Import ListNotations.
Require Import Verif.Base Verif.StripModel Verif.StripSpec.

(** ** Heaps that grow *)

Definition ext (h h' : heap) : Prop :=
  nobj h <= nobj h' /\ nns h <= nns h' /\ ncell h <= ncell h' /\
  (forall o, o < nobj h -> dget (fns h') o = dget (fns h) o) /\
  (forall s, s < nns h -> dget (nss h') s = dget (nss h) s) /\
  (forall c, c < ncell h -> dget (cts h') c = dget (cts h) c).

Lemma ext_refl h : ext h h.
Proof. repeat split; auto. Qed.
Lemma ext_trans a b c : ext a b -> ext b c -> ext a c.
Proof.
  intros (A1 & A2 & A3 & A4 & A5 & A6) (B1 & B2 & B3 & B4 & B5 & B6).
  split; [lia|]. split; [lia|]. split; [lia|]. split; [|split].
  - intros o L. rewrite B4 by lia. now apply A4.
  - intros o L. rewrite B5 by lia. now apply A5.
  - intros o L. rewrite B6 by lia. now apply A6.
Qed.

Lemma ns_of_ext h h' s : ext h h' -> s < nns h -> ns_of h' s = ns_of h s.
Proof. intros (_ & _ & _ & _ & E & _) L. unfold ns_of. now rewrite E. Qed.

Lemma sound_glob h s x v : sound h -> dget (ns_of h s) x = Some v -> v < nobj h.
Proof.
  intros (_ & S & _). unfold ns_of. destruct (dget (nss h) s) as [d|] eqn:E; [|discriminate].
  intros G. now apply (S s d x v E).
Qed.

Lemma view_ext h h' : sound h -> ext h h' -> forall n o, o < nobj h -> view n h' o = view n h o.
Proof.
  intros S X. induction n as [|n IH]; intros o L; [reflexivity|]. cbn [view].
  pose proof X as (_ & _ & _ & E1 & E2 & E3). rewrite E1 by exact L.
  destruct (dget (fns h) o) as [f|] eqn:F; [|reflexivity].
  destruct (proj1 S o f F) as (_ & Ln & Lc). f_equal.
  - apply map_ext_in. intros x _. rewrite (ns_of_ext h h' (ns f) X Ln).
    destruct (dget (ns_of h (ns f)) x) as [g|] eqn:G; [|reflexivity]. cbn.
    now rewrite (IH g (sound_glob _ _ _ _ S G)).
  - apply map_ext_in. intros (x, c) I. cbn. rewrite (E3 c (Lc x c I)).
    destruct (dget (cts h) c) as [g|] eqn:G; [|reflexivity]. cbn.
    destruct S as (_ & _ & S). now rewrite (IH g (proj2 (S c g G))).
Qed.

Lemma refers_ext h h' o g : sound h -> ext h h' -> o < nobj h -> refers h' o g ->
  refers h o g /\ g < nobj h.
Proof.
  intros S X L (f & F & R). pose proof X as (_ & _ & _ & E1 & E2 & E3). rewrite E1 in F by exact L.
  destruct (proj1 S o f F) as (_ & Ln & Lc). destruct R as [(x & I & G)|(x & c & I & G)].
  - rewrite (ns_of_ext h h' _ X Ln) in G. split; [|exact (sound_glob _ _ _ _ S G)].
    exists f. split; [exact F|]. left. now exists x.
  - rewrite (E3 c (Lc x c I)) in G. split.
    + exists f. split; [exact F|]. right. now exists x, c.
    + destruct S as (_ & _ & S). exact (proj2 (S c g G)).
Qed.

Lemma clean_ext h h' o : sound h -> ext h h' -> o < nobj h -> clean h o -> clean h' o.
Proof.
  intros S X L C. assert (R : forall g, reaches h' o g -> reaches h o g /\ g < nobj h).
  { intros g. induction 1 as [|g g' H IH Hr]; [split; [constructor|exact L]|].
    destruct IH as (IH & Lg). destruct (refers_ext h h' g g' S X Lg Hr) as (R & L').
    split; [eapply reaches_step; eauto|exact L']. }
  intros g f H F. destruct (R g H) as (H' & Lg). destruct X as (_ & _ & _ & E1 & _).
  rewrite E1 in F by exact Lg. exact (C g f H' F).
Qed.

Lemma reaches_first h o g : reaches h o g -> g = o \/ exists g1, refers h o g1 /\ reaches h g1 g.
Proof.
  induction 1 as [|g g' H IH R]; [now left|]. right. destruct IH as [-> |(g1 & R1 & H1)].
  - exists g'. split; [exact R|constructor].
  - exists g1. split; [exact R1|]. eapply reaches_step; eauto.
Qed.

(** ** The parts of [make] *)

Section Rec.
Variable rec : heap -> list nat -> nat -> option (outcome * heap * list nat).

(** What is shown of the function, for the recursive calls. *)
Definition good (f : heap -> list nat -> nat -> option (outcome * heap * list nat)) : Prop :=
  forall h seen o r h' seen', sound h -> o < nobj h -> f h seen o = Some (r, h', seen') ->
    ext h h' /\ sound h' /\ incl seen seen' /\
    match r with
    | Made o' => nobj h <= o' /\ o' < nobj h' /\
        (exists f', dget (fns h') o' = Some f' /\ instr f' = false) /\
        forall n, view n h' o' = view n h' o
    | _ => True
    end.

Definition over_ok (h : heap) (globals : dict nat) (over : list (nat * nat)) : Prop :=
  forall x g', In (x, g') over -> g' < nobj h /\
    exists g, dget globals x = Some g /\ forall n, view n h g' = view n h g.

Lemma names_good : good rec -> forall globals, forall names acc h seen r h' seen',
  (forall x g, dget globals x = Some g -> g < nobj h) -> sound h -> over_ok h globals acc ->
  names_loop rec globals names acc h seen = Some (r, h', seen') ->
  ext h h' /\ sound h' /\ incl seen seen' /\
  match r with Some over => over_ok h' globals over | None => True end.
Proof.
  intros Gd globals names. induction names as [|x names IH]; intros acc h seen r h' seen' Lg S O H.
  - injection H as <- <- <-. split; [apply ext_refl|]. split; [exact S|]. split; [apply incl_refl|exact O].
  - cbn [names_loop] in H. destruct (dget globals x) as [g|] eqn:G; [|eauto].
    destruct (rec h seen g) as [((q, h1), s1)|] eqn:R; [|discriminate].
    destruct (Gd h seen g q h1 s1 S (Lg x g G) R) as (X & S1 & I1 & Q).
    assert (Lg1 : forall x g, dget globals x = Some g -> g < nobj h1).
    { intros y k K. specialize (Lg y k K). destruct X. lia. }
    assert (O1 : over_ok h1 globals acc).
    { intros y k I. destruct (O y k I) as (L & g0 & G0 & V). split; [destruct X; lia|].
      exists g0. split; [exact G0|]. intros n.
      rewrite !(view_ext h h1 S X) by (auto; eapply Lg; eauto). apply V. }
    destruct q as [| |g'].
    + injection H as <- <- <-. auto.
    + destruct (IH acc h1 s1 r h' seen' Lg1 S1 O1 H) as (X2 & S2 & I2 & Q2).
      split; [eapply ext_trans; eauto|]. split; [exact S2|]. split; [eapply incl_tran; eauto|exact Q2].
    + destruct Q as (L1 & L2 & _ & V).
      assert (O2 : over_ok h1 globals (acc ++ [(x, g')])).
      { intros y k I. apply in_app_or in I. destruct I as [I|[I|[]]]; [now apply O1|].
        injection I as <- <-. split; [exact L2|]. now exists g. }
      destruct (IH _ h1 s1 r h' seen' Lg1 S1 O2 H) as (X2 & S2 & I2 & Q2).
      split; [eapply ext_trans; eauto|]. split; [exact S2|]. split; [eapply incl_tran; eauto|exact Q2].
Qed.

Lemma fold_dset over : forall (d : dict nat) x v,
  dget (fold_left (fun d p => dset d (fst p) (snd p)) over d) x = Some v ->
  In (x, v) over \/ dget d x = Some v /\ forall w, ~ In (x, w) over.
Proof.
  induction over as [|(y, w) over IH]; intros d x v H; [right; split; [exact H|intros w []]|].
  cbn [fold_left] in H. apply IH in H. destruct H as [H|(H & N)]; [left; now right|].
  cbn [fst snd] in H. rewrite dget_dset in H. destruct (x =? y) eqn:E.
  - apply Nat.eqb_eq in E. subst. injection H as ->. left. now left.
  - apply Nat.eqb_neq in E. right. split; [exact H|]. intros u [I|I]; [congruence|now apply (N u)].
Qed.
Lemma fold_dset_None over : forall (d : dict nat) x,
  dget (fold_left (fun d p => dset d (fst p) (snd p)) over d) x = None -> dget d x = None.
Proof.
  induction over as [|(y, w) over IH]; intros d x H; [exact H|].
  cbn [fold_left] in H. apply IH in H. cbn [fst snd] in H. rewrite dget_dset in H.
  destruct (x =? y); [discriminate|exact H].
Qed.

Lemma new_ns_ok h f over h1 s : sound h -> ns f < nns h ->
  (forall x g, In (x, g) over -> g < nobj h) -> new_ns h f over = (h1, s) ->
  ext h h1 /\ sound h1 /\ nobj h1 = nobj h /\ ncell h1 = ncell h /\ cts h1 = cts h /\ s < nns h1 /\
  (forall x v, dget (ns_of h1 s) x = Some v ->
     In (x, v) over \/ dget (ns_of h (ns f)) x = Some v /\ forall w, ~ In (x, w) over) /\
  (forall x, dget (ns_of h1 s) x = None -> dget (ns_of h (ns f)) x = None).
Proof.
  intros S L O H. unfold new_ns in H. destruct over as [|p over].
  - injection H as <- <-. split; [apply ext_refl|]. do 5 (split; [auto|]). split; [|auto].
    intros x v G. right. split; [exact G|intros w []].
  - remember (fold_left _ _ _) as d eqn:Ed in H. cbn zeta in H. injection H as <- <-.
    assert (Ns : forall s0, ns_of (mkH (fns h) (dset (nss h) (nns h) d) (cts h) (nobj h) (Datatypes.S (nns h)) (ncell h)) s0 =
       if s0 =? nns h then d else ns_of h s0).
    { intros s0. unfold ns_of. cbn [nss]. rewrite dget_dset. now destruct (s0 =? nns h). }
    assert (Dd : forall x v, dget d x = Some v -> In (x, v) (p :: over) \/
       dget (ns_of h (ns f)) x = Some v /\ forall w, ~ In (x, w) (p :: over)).
    { intros x v G. rewrite Ed in G. now apply fold_dset in G. }
    split; [|split; [|do 4 (split; [cbn; auto|])]].
    + repeat split; cbn; auto. intros s0 L0. rewrite dget_dset_other; [reflexivity|lia].
    + destruct S as (S1 & S2 & S3). split; [|split]; cbn; [| |exact S3].
      * intros o g G. destruct (S1 o g G) as (A & B & C). split; [exact A|]. split; [lia|exact C].
      * intros s0 d0 x v G. rewrite dget_dset in G. destruct (s0 =? nns h) eqn:E.
        -- apply Nat.eqb_eq in E. injection G as <-. split; [lia|]. intros G.
           destruct (Dd x v G) as [I|(G' & _)]; [now apply (O x)|].
           exact (sound_glob h (ns f) x v (conj S1 (conj S2 S3)) G').
        -- destruct (S2 s0 d0 x v G). split; [lia|auto].
    + split.
      * intros x v G. rewrite Ns, Nat.eqb_refl in G. now apply Dd.
      * intros x G. rewrite Ns, Nat.eqb_refl, Ed in G. now apply fold_dset_None in G.
Qed.

Lemma new_cells_ok kw : forall h h1 cs, sound h -> (forall x v, In (x, v) kw -> v < nobj h) ->
  new_cells h kw = (h1, cs) ->
  ext h h1 /\ sound h1 /\ nobj h1 = nobj h /\ nns h1 = nns h /\ fns h1 = fns h /\ nss h1 = nss h /\
  (forall x c, In (x, c) cs -> c < ncell h1) /\
  map (fun p => (fst p, dget (cts h1) (snd p))) cs = map (fun p => (fst p, Some (snd p))) kw.
Proof.
  induction kw as [|(x, v) kw IH]; intros h h1 cs S L H.
  - injection H as <- <-. split; [apply ext_refl|]. do 5 (split; [auto|]). split; [intros x c []|reflexivity].
  - cbn [new_cells] in H. set (h0 := mkH _ _ _ _ _ _) in H.
    assert (S0 : sound h0).
    { destruct S as (S1 & S2 & S3). split; [|split]; cbn; auto.
      - intros o g G. destruct (S1 o g G) as (A & B & C). split; [exact A|]. split; [exact B|].
        intros y c I. specialize (C y c I). lia.
      - intros c w G. rewrite dget_dset in G. destruct (c =? ncell h) eqn:E.
        + apply Nat.eqb_eq in E. injection G as <-. split; [lia|]. apply (L x). now left.
        + destruct (S3 c w G). split; [lia|auto]. }
    assert (X0 : ext h h0).
    { repeat split; cbn; auto. intros c Lc. rewrite dget_dset_other; [reflexivity|lia]. }
    destruct (new_cells h0 kw) as (h2, cs2) eqn:E. injection H as <- <-.
    destruct (IH h0 h2 cs2 S0 (fun y w I => L y w (or_intror I)) E) as (X & S2 & N1 & N2 & N3 & N4 & C & M).
    split; [eapply ext_trans; eauto|]. split; [exact S2|]. do 4 (split; [assumption|]).
    assert (Lx : ncell h < ncell h2). { destruct X as (_ & _ & X & _). cbn in X. lia. }
    split.
    + intros y c [I|I]; [injection I as _ <-; exact Lx|now apply (C y)].
    + cbn [map fst snd]. rewrite M. f_equal. f_equal. destruct X as (_ & _ & _ & _ & _ & X).
      rewrite X by (cbn; lia). cbn. apply dget_dset_same.
Qed.

Lemma contents_map h cs kw : contents h cs = Some kw ->
  map (fun p => (fst p, dget (cts h) (snd p))) cs = map (fun p => (fst p, Some (snd p))) kw.
Proof.
  revert kw. induction cs as [|(x, c) cs IH]; intros kw H; [now injection H as <-|].
  cbn [contents] in H. destruct (dget (cts h) c) as [v|] eqn:G; [|discriminate].
  destruct (contents h cs) as [r|] eqn:E; [|discriminate]. injection H as <-. cbn. rewrite G.
  now rewrite (IH r eq_refl).
Qed.
Lemma contents_lt h cs kw : sound h -> contents h cs = Some kw -> forall x v, In (x, v) kw -> v < nobj h.
Proof.
  intros S. revert kw. induction cs as [|(x, c) cs IH]; intros kw H; [injection H as <-; intros ? ? []|].
  cbn [contents] in H. destruct (dget (cts h) c) as [v|] eqn:G; [|discriminate].
  destruct (contents h cs) as [r|] eqn:E; [|discriminate]. injection H as <-.
  intros y w [I|I]; [|now apply (IH r eq_refl y)]. injection I as _ <-. destruct S as (_ & _ & S).
  exact (proj2 (S c v G)).
Qed.

(** What is made, in full. *)
Lemma make_inv h seen o runs r h' seen' : make rec h seen o runs = Some (r, h', seen') ->
  (r = Raised /\ h' = h /\ seen' = seen /\
   forall f, dget (fns h) o = Some f -> contents h (cells f) = None) \/
  exists f kw q hn, dget (fns h) o = Some f /\ contents h (cells f) = Some kw /\
    names_loop rec (ns_of h (ns f)) (co f) [] h seen = Some (q, hn, seen') /\
    match q with
    | None => r = Raised /\ h' = hn
    | Some over =>
        exists h1 s, new_ns hn f over = (h1, s) /\
        (runs = false /\ r = Nothing /\ h' = h1 \/
         runs = true /\ exists h2 cs, new_cells h1 kw = (h2, cs) /\ r = Made (nobj h2) /\
           h' = mkH (dset (fns h2) (nobj h2) (mkFn false (code f) s (co f) cs)) (nss h2) (cts h2)
                  (S (nobj h2)) (nns h2) (ncell h2))
    end.
Proof.
  unfold make. destruct (dget (fns h) o) as [f|] eqn:F; [|intros [= <- <- <-]; left; repeat split; discriminate].
  destruct (contents h (cells f)) as [kw|] eqn:K; [|intros [= <- <- <-]; left; repeat split; intros f' [= <-]; exact K].
  destruct (names_loop rec (ns_of h (ns f)) (co f) [] h seen) as [((q, hn), sn)|] eqn:N; [|discriminate].
  intros H. right. exists f, kw, q, hn. split; [reflexivity|]. split; [exact K|].
  destruct q as [over|]; [|injection H as <- <- <-; split; [exact N|auto]].
  destruct (new_ns hn f over) as (h1, s) eqn:E. destruct runs.
  - destruct (new_cells h1 kw) as (h2, cs) eqn:C. injection H as <- <- <-.
    split; [exact N|]. exists h1, s. split; [reflexivity|]. right. split; [reflexivity|].
    exists h2, cs. auto.
  - injection H as <- <- <-. split; [exact N|]. exists h1, s. split; [reflexivity|]. now left.
Qed.

Lemma add_fn_ok h f : sound h -> ns f < nns h -> (forall x c, In (x, c) (cells f) -> c < ncell h) ->
  let h' := mkH (dset (fns h) (nobj h) f) (nss h) (cts h) (S (nobj h)) (nns h) (ncell h) in
  ext h h' /\ sound h' /\ dget (fns h') (nobj h) = Some f.
Proof.
  intros (S1 & S2 & S3) L C h'. split; [|split].
  - repeat split; cbn; auto. intros o Lo. rewrite dget_dset_other; [reflexivity|lia].
  - split; [|split]; cbn.
    + intros o g G. rewrite dget_dset in G. destruct (o =? nobj h) eqn:E.
      * apply Nat.eqb_eq in E. injection G as <-. split; [lia|]. now split.
      * destruct (S1 o g G) as (A & B). split; [lia|exact B].
    + intros s d x v G. destruct (S2 s d x v G) as (A & B). split; [exact A|]. intros K. specialize (B K). lia.
    + intros c v G. destruct (S3 c v G). lia.
  - cbn. apply dget_dset_same.
Qed.

Lemma make_good runs : good rec -> good (fun h seen o => make rec h seen o runs).
Proof.
  intros Gd h seen o r h' seen' S Lo H. apply make_inv in H.
  destruct H as [(-> & -> & -> & _)|(f & kw & q & hn & F & K & N & H)].
  { split; [apply ext_refl|]. split; [exact S|]. split; [apply incl_refl|exact I]. }
  destruct (proj1 S o f F) as (_ & Ln & Lc).
  destruct (names_good Gd (ns_of h (ns f)) (co f) [] h seen q hn seen'
              (fun x g G => sound_glob _ _ _ _ S G) S) as (Xn & Sn & In1 & O); [intros x g []|exact N|].
  destruct q as [over|].
  2:{ destruct H as (-> & ->). auto. }
  destruct H as (h1 & s & E & H).
  assert (Ln' : ns f < nns hn) by (destruct Xn as (_ & Xl & _); lia).
  destruct (new_ns_ok hn f over h1 s Sn Ln' (fun x g I => proj1 (O x g I)) E)
    as (X1 & S1 & No & Nc & Ct & Ls & G1 & G2).
  destruct H as [(_ & -> & ->)|(_ & h2 & cs & C & -> & ->)].
  { split; [eapply ext_trans; eauto|]. auto. }
  assert (Xn1 : ext h h1) by (eapply ext_trans; eauto).
  assert (Lkw : forall x v, In (x, v) kw -> v < nobj h1).
  { intros x v I. pose proof (contents_lt h _ _ S K x v I). destruct Xn1; lia. }
  destruct (new_cells_ok kw h1 h2 cs S1 Lkw C) as (X2 & S2 & N1 & N2 & N3 & N4 & Lcs & M).
  assert (Xn2 : ext h h2) by (eapply ext_trans; eauto).
  destruct (add_fn_ok h2 (mkFn false (code f) s (co f) cs) S2) as (X3 & S3 & F3); [cbn; lia|exact Lcs|].
  cbn zeta in X3, S3, F3. set (h3 := mkH _ _ _ _ _ _) in *.
  assert (X : ext h h3) by (eapply ext_trans; eauto).
  split; [exact X|]. split; [exact S3|]. split; [exact In1|].
  split; [destruct Xn2; lia|]. split; [cbn; lia|]. split; [eexists; split; [exact F3|reflexivity]|].
  assert (Fo : dget (fns h3) o = Some f).
  { destruct X as (_ & _ & _ & X & _). now rewrite X. }
  intros [|n]; [reflexivity|]. cbn [view]. rewrite F3, Fo. cbn [code co cells ns]. f_equal.
  - apply map_ext_in. intros x _. f_equal.
    assert (Es : ns_of h3 s = ns_of h1 s).
    { apply ns_of_ext; [|exact Ls]. eapply ext_trans; eauto. }
    assert (Ef : ns_of h3 (ns f) = ns_of h (ns f)) by (now apply ns_of_ext).
    assert (Ef' : ns_of hn (ns f) = ns_of h (ns f)) by (now apply ns_of_ext).
    rewrite Es, Ef. destruct (dget (ns_of h1 s) x) as [v|] eqn:Gv.
    + destruct (G1 x v Gv) as [I|(G & _)].
      * destruct (O x v I) as (Lv & g & G & V). rewrite G. cbn. f_equal.
        assert (X13 : ext hn h3) by exact (ext_trans _ _ _ X1 (ext_trans _ _ _ X2 X3)).
        rewrite !(view_ext hn h3 Sn X13); auto.
        pose proof (sound_glob _ _ _ _ S G). destruct Xn; lia.
      * rewrite Ef' in G. rewrite G. reflexivity.
    + specialize (G2 x Gv). rewrite Ef' in G2. rewrite G2. reflexivity.
  - assert (Em : map (fun p => (fst p, dget (cts h3) (snd p))) cs =
                 map (fun p => (fst p, dget (cts h3) (snd p))) (cells f)).
    { transitivity (map (fun p => (fst p, Some (snd p))) kw).
      - rewrite <- M. reflexivity.
      - rewrite <- (contents_map h (cells f) kw K). apply map_ext_in. intros (x, c) I. cbn [fst snd].
        destruct X as (_ & _ & _ & _ & _ & X). now rewrite (X c (Lc x c I)). }
    transitivity (map (fun q => (fst q, option_map (view n h3) (snd q)))
                    (map (fun p => (fst p, dget (cts h3) (snd p))) cs)).
    { now rewrite map_map. }
    rewrite Em. now rewrite map_map.
Qed.
End Rec.

Section Whole.
Variable src : nat -> source.

Lemma alts_good rec : good rec -> forall l, good (fun h seen o => try_alts rec o l h seen).
Proof.
  intros Gd. induction l as [|b l IH]; intros h seen o r h' seen' S L H; cbn [try_alts] in H.
  - injection H as <- <- <-. split; [apply ext_refl|]. split; [exact S|]. split; [apply incl_refl|exact I].
  - destruct (make rec h seen o b) as [((q, h1), s1)|] eqn:E; [|discriminate].
    destruct (make_good rec b Gd h seen o q h1 s1 S L E) as (X & S1 & I1 & Q).
    destruct q; try (injection H as <- <- <-; auto; fail).
    assert (L1 : o < nobj h1) by (destruct X; lia).
    destruct (IH h1 s1 o r h' seen' S1 L1 H) as (X2 & S2 & I2 & Q2).
    split; [eapply ext_trans; eauto|]. split; [exact S2|]. split; [eapply incl_tran; eauto|].
    destruct r as [| |o']; auto. destruct Q2 as (A & B). split; [destruct X; lia|exact B].
Qed.

Lemma uninstrument_good n : good (uninstrument src n).
Proof.
  induction n as [|n IH]; intros h seen o r h' seen' S L H; [discriminate|]. cbn [uninstrument] in H.
  destruct (memb o seen).
  { injection H as <- <- <-. split; [apply ext_refl|]. split; [exact S|]. split; [apply incl_refl|exact I]. }
  set (first := match deco (src o) with None => _ | Some runs => _ end) in H.
  destruct first as [((q, h1), s1)|] eqn:E; [|discriminate].
  assert (P : ext h h1 /\ sound h1 /\ incl (o :: seen) s1 /\
    match q with
    | Made o' => nobj h <= o' /\ o' < nobj h1 /\
        (exists f', dget (fns h1) o' = Some f' /\ instr f' = false) /\
        forall n, view n h1 o' = view n h1 o
    | _ => True
    end).
  { unfold first in E. destruct (deco (src o)) as [b|].
    - exact (make_good _ b IH h (o :: seen) o q h1 s1 S L E).
    - injection E as <- <- <-. split; [apply ext_refl|]. split; [exact S|]. split; [apply incl_refl|exact I]. }
  destruct P as (X & S1 & I1 & Q).
  assert (I1' : incl seen s1) by (intros y J; apply I1; now right).
  assert (L1 : o < nobj h1) by (destruct X; lia).
  assert (A : try_alts (uninstrument src n) o (alts (src o)) h1 s1 = Some (r, h', seen') ->
    ext h h' /\ sound h' /\ incl seen seen' /\
    match r with
    | Made o' => nobj h <= o' /\ o' < nobj h' /\
        (exists f', dget (fns h') o' = Some f' /\ instr f' = false) /\
        forall n, view n h' o' = view n h' o
    | _ => True
    end).
  { intros T. destruct (alts_good _ IH _ h1 s1 o r h' seen' S1 L1 T) as (X2 & S2 & I2 & Q2).
    split; [eapply ext_trans; eauto|]. split; [exact S2|]. split; [eapply incl_tran; eauto|].
    destruct r as [| |o']; auto. destruct Q2 as (B & C). split; [destruct X; lia|exact C]. }
  destruct q as [| |o']; [now apply A|now apply A|]. injection H as <- <- <-. auto.
Qed.
End Whole.

(** ** The recursion ends *)

Section Ends.
Variables (src : nat -> source) (h0 : heap).
Hypothesis S0 : sound h0.

Definition left (seen : list nat) : nat := unvisited (seq 0 (nobj h0)) seen.

Definition ends (n : nat) : Prop := forall h seen o, ext h0 h -> sound h -> o < nobj h0 ->
  left seen < n -> uninstrument src n h seen o <> None.

Lemma names_end n : ends n -> forall globals, (forall x g, dget globals x = Some g -> g < nobj h0) ->
  forall names acc h seen, ext h0 h -> sound h -> left seen < n ->
  names_loop (uninstrument src n) globals names acc h seen <> None.
Proof.
  intros E globals Lg. induction names as [|x names IH]; intros acc h seen X S L; [discriminate|].
  cbn [names_loop]. destruct (dget globals x) as [g|] eqn:G; [|now apply IH].
  destruct (uninstrument src n h seen g) as [((q, h1), s1)|] eqn:U; [|destruct (E h seen g X S (Lg x g G) L U)].
  assert (Lh : g < nobj h) by (specialize (Lg x g G); destruct X; lia).
  destruct (uninstrument_good src n h seen g q h1 s1 S Lh U) as (X1 & S1 & I1 & _).
  assert (L1 : left s1 < n) by (pose proof (unvisited_mono (seq 0 (nobj h0)) _ _ I1); unfold left in *; lia).
  pose proof (ext_trans _ _ _ X X1). destruct q; [discriminate|now apply IH|now apply IH].
Qed.

Lemma make_end n : ends n -> forall h seen o runs, ext h0 h -> sound h -> o < nobj h0 -> left seen < n ->
  make (uninstrument src n) h seen o runs <> None.
Proof.
  intros E h seen o runs X S L Lf. unfold make.
  destruct (dget (fns h) o) as [f|] eqn:F; [|discriminate].
  destruct (contents h (cells f)) as [kw|]; [|discriminate].
  assert (Lg : forall x g, dget (ns_of h (ns f)) x = Some g -> g < nobj h0).
  { pose proof X as (_ & _ & _ & X1 & _). rewrite X1 in F by exact L.
    destruct (proj1 S0 o f F) as (_ & Ln & _). rewrite (ns_of_ext h0 h _ X Ln).
    intros x g G. exact (sound_glob _ _ _ _ S0 G). }
  pose proof (names_end n E _ Lg (co f) [] h seen X S Lf) as N.
  destruct (names_loop (uninstrument src n) (ns_of h (ns f)) (co f) [] h seen) as [(([over|], hn), sn)|];
    [|discriminate|now destruct N].
  destruct (new_ns hn f over) as (h1, s). destruct runs; [|discriminate].
  destruct (new_cells h1 kw). discriminate.
Qed.

Lemma alts_end n : ends n -> forall l h seen o, ext h0 h -> sound h -> o < nobj h0 -> left seen < n ->
  try_alts (uninstrument src n) o l h seen <> None.
Proof.
  intros E. induction l as [|b l IH]; intros h seen o X S L Lf; [discriminate|]. cbn [try_alts].
  destruct (make (uninstrument src n) h seen o b) as [((q, h1), s1)|] eqn:M;
    [|destruct (make_end n E h seen o b X S L Lf M)].
  assert (Lh : o < nobj h) by (destruct X; lia).
  destruct (make_good _ b (uninstrument_good src n) h seen o q h1 s1 S Lh M) as (X1 & S1 & I1 & _).
  destruct q; try discriminate. apply IH; auto; [eapply ext_trans; eauto|].
  pose proof (unvisited_mono (seq 0 (nobj h0)) _ _ I1). unfold left in *. lia.
Qed.

Lemma uninstrument_ends n : ends n.
Proof.
  induction n as [|n IH]; intros h seen o X S L Lf; [lia|]. cbn [uninstrument].
  destruct (memb o seen) eqn:M; [discriminate|]. apply memb_nIn in M.
  assert (L1 : left (o :: seen) < n).
  { assert (left (o :: seen) < left seen); [|lia]. unfold left. apply (unvisited_lt (fun _ => []) _ _ _ o); [|apply in_seq; lia|exact M|now left].
    intros y I. now right. }
  assert (Lh : o < nobj h) by (destruct X; lia).
  destruct (deco (src o)) as [b|].
  - destruct (make (uninstrument src n) h (o :: seen) o b) as [((q, h1), s1)|] eqn:Mk;
      [|destruct (make_end n IH h (o :: seen) o b X S L L1 Mk)].
    destruct (make_good _ b (uninstrument_good src n) h (o :: seen) o q h1 s1 S Lh Mk) as (X1 & S1 & I1 & _).
    assert (left s1 < n).
    { pose proof (unvisited_mono (seq 0 (nobj h0)) _ _ I1). unfold left in *. lia. }
    destruct q; try discriminate; apply alts_end; auto; eapply ext_trans; eauto.
  - now apply alts_end.
Qed.
End Ends.

(** ** Functions that use each other without sharing *)

Section Clean.
Variables (src : nat -> source) (h0 : heap).
Hypothesis S0 : sound h0.

Definition tidy (n : nat) : Prop := forall h seen o S r h' seen', ext h0 h -> sound h -> o < nobj h0 ->
  grows h0 src o S -> (forall s, In s S -> ~ In s seen) ->
  uninstrument src n h seen o = Some (r, h', seen') ->
  (forall x, In x seen' -> In x seen \/ In x S \/ unknown src x) /\
  match S with [] => unknown src o /\ clean h0 o /\ r = Nothing | _ => exists o', r = Made o' /\ clean h' o' end.

Lemma known_in o S : grows h0 src o S -> forall s, In s S -> ~ unknown src s.
Proof.
  revert o S.
  assert (W : forall o, works src o -> ~ unknown src o).
  { intros o [D|(_ & l & A)] (D' & A'); congruence. }
  fix IH 3. intros o S G. destruct G as [o U C|o f Ss Wo F Ce A N]; [intros s []|].
  intros s [<- |I]; [now apply W|]. clear N F Wo Ce. revert s I.
  generalize dependent Ss. generalize (globals h0 f). fix go 3. intros os Ss A. destruct A as [|o' os S' Ss G A].
  - intros s [].
  - cbn. intros s I. apply in_app_or in I. destruct I as [I|I]; [exact (IH o' S' G s I)|exact (go os Ss A s I)].
Qed.

Lemma names_tidy n : tidy n -> forall d, (forall x g, dget d x = Some g -> g < nobj h0) ->
  forall names Ss acc h seen r h' seen', ext h0 h -> sound h ->
  all_grow h0 src (flat_map (fun x => match dget d x with Some g => [g] | None => [] end) names) Ss ->
  NoDup (concat Ss) -> (forall s, In s (concat Ss) -> ~ In s seen) ->
  (forall x g', In (x, g') acc -> g' < nobj h /\ clean h g') ->
  names_loop (uninstrument src n) d names acc h seen = Some (r, h', seen') ->
  (forall x, In x seen' -> In x seen \/ In x (concat Ss) \/ unknown src x) /\
  exists over, r = Some over /\ incl acc over /\
    (forall x g', In (x, g') over -> g' < nobj h' /\ clean h' g') /\
    (forall x g, In x names -> dget d x = Some g -> clean h0 g \/ exists g', In (x, g') over).
Proof.
  intros T d Lg. induction names as [|x names IH]; intros Ss acc h seen r h' seen' X S A N Ds O H.
  - injection H as <- <- <-. split; [now left|]. exists acc. split; [reflexivity|].
    split; [apply incl_refl|]. split; [exact O|]. intros x g [].
  - cbn [names_loop flat_map] in *. destruct (dget d x) as [g|] eqn:G.
    2:{ destruct (IH Ss acc h seen r h' seen' X S A N Ds O H) as (P1 & over & -> & P2 & P3 & P4).
        split; [exact P1|]. exists over. split; [reflexivity|]. split; [exact P2|]. split; [exact P3|].
        intros y k [<- |I] K; [congruence|eauto]. }
    cbn [app] in A. inversion A as [|? ? S1 Ss' G1 A']; subst. cbn [concat] in N, Ds.
    destruct (uninstrument src n h seen g) as [((q, h1), s1)|] eqn:U; [|discriminate].
    assert (Lh : g < nobj h) by (specialize (Lg x g G); destruct X; lia).
    destruct (uninstrument_good src n h seen g q h1 s1 S Lh U) as (X1 & Sd1 & I1 & Q).
    destruct (T h seen g S1 q h1 s1 X S (Lg x g G) G1 (fun s I => Ds s (in_or_app _ _ _ (or_introl I))) U)
      as (P1 & P2).
    assert (X' : ext h0 h1) by (eapply ext_trans; eauto).
    assert (N' : NoDup (concat Ss')) by (clear -N; induction S1 as [|a S1 IHS]; [exact N|]; cbn in N; apply NoDup_cons_iff in N; apply IHS, N).
    assert (Ds' : forall s, In s (concat Ss') -> ~ In s s1).
    { intros s I J. destruct (P1 s J) as [K|[K|K]].
      - apply (Ds s); [apply in_or_app; now right|exact K].
      - clear -N I K. induction S1 as [|a S1 IHS]; [destruct K|]. cbn in N. apply NoDup_cons_iff in N.
        destruct N as (N1 & N2). destruct K as [-> |K]; [apply N1, in_or_app; now right|now apply IHS].
      - revert K. clear -A' I. revert A'. generalize (flat_map (fun x => match dget d x with Some g => [g] | None => [] end) names).
        induction Ss' as [|S' Ss' IHs]; [destruct I|]. intros l A'. inversion A' as [|? ? ? ? G2 A2]; subst.
        cbn in I. apply in_app_or in I. destruct I as [I|I]; [exact (known_in _ _ G2 s I)|eauto]. }
    assert (O1 : forall x g', In (x, g') acc -> g' < nobj h1 /\ clean h1 g').
    { intros y k I. destruct (O y k I) as (L & C). split; [destruct X1; lia|].
      exact (clean_ext h h1 k S X1 L C). }
    assert (Fin : forall acc', (forall x g', In (x, g') acc' -> g' < nobj h1 /\ clean h1 g') -> incl acc acc' ->
        (clean h0 g \/ exists g', In (x, g') acc') ->
        names_loop (uninstrument src n) d names acc' h1 s1 = Some (r, h', seen') ->
        (forall x, In x seen' -> In x seen \/ In x (S1 ++ concat Ss') \/ unknown src x) /\
        exists over, r = Some over /\ incl acc over /\
          (forall x g', In (x, g') over -> g' < nobj h' /\ clean h' g') /\
          (forall x' g, In x' (x :: names) -> dget d x' = Some g -> clean h0 g \/ exists g', In (x', g') over)).
    { intros acc' Oa Ia Ca Ha.
      destruct (IH Ss' acc' h1 s1 r h' seen' X' Sd1 A' N' Ds' Oa Ha) as (R1 & over & -> & R2 & R3 & R4).
      split.
      - intros y I. destruct (R1 y I) as [J|[J|J]]; [|right; left; apply in_or_app; now right|auto].
        destruct (P1 y J) as [K|[K|K]]; [auto|right; left; apply in_or_app; now left|auto].
      - exists over. split; [reflexivity|]. split; [eapply incl_tran; eauto|]. split; [exact R3|].
        intros y k [<- |I] K; [|eauto]. rewrite G in K. injection K as <-.
        destruct Ca as [Ca|(g' & Ca)]; [now left|right; exists g'; now apply R2]. }
    destruct S1 as [|a S1].
    + destruct P2 as (_ & Cg & ->). apply (Fin acc O1 (incl_refl _)); [now left|exact H].
    + destruct P2 as (g' & -> & Cg). apply (Fin (acc ++ [(x, g')])).
      * intros y k I. apply in_app_or in I. destruct I as [I|[I|[]]]; [now apply (O1 y)|].
        injection I as <- <-. destruct Q as (_ & L2 & _). auto.
      * intros y I. apply in_or_app. now left.
      * right. exists g'. apply in_or_app. right. now left.
      * exact H.
Qed.

Lemma make_tidy n h seen o f Ss r h' seen' : tidy n -> ext h0 h -> sound h -> o < nobj h0 ->
  dget (fns h0) o = Some f -> cells f = [] -> all_grow h0 src (globals h0 f) Ss ->
  NoDup (o :: concat Ss) -> (forall s, In s (concat Ss) -> ~ In s seen) ->
  make (uninstrument src n) h seen o true = Some (r, h', seen') ->
  (forall x, In x seen' -> In x seen \/ In x (concat Ss) \/ unknown src x) /\
  exists o', r = Made o' /\ clean h' o'.
Proof.
  intros T X S L F Ce A N Ds H. apply NoDup_cons_iff in N. destruct N as (_ & N).
  assert (Lh : o < nobj h) by (destruct X; lia).
  pose proof X as (_ & _ & _ & X1 & _). assert (F' : dget (fns h) o = Some f) by (now rewrite X1).
  destruct (proj1 S0 o f F) as (_ & Ln & _).
  destruct (make_good _ true (uninstrument_good src n) h seen o r h' seen' S Lh H) as (_ & _ & _ & Q).
  apply make_inv in H. destruct H as [(_ & _ & _ & Z)|(f1 & kw & q & hn & F1 & K & Nl & H)].
  { specialize (Z f F'). rewrite Ce in Z. discriminate. }
  rewrite F' in F1. injection F1 as <-. rewrite Ce in K. injection K as <-.
  rewrite (ns_of_ext h0 h _ X Ln) in Nl.
  destruct (names_tidy n T (ns_of h0 (ns f)) (fun x g G => sound_glob _ _ _ _ S0 G) (co f) Ss [] h seen
     q hn seen' X S A N Ds) as (P1 & over & -> & _ & P3 & P4); [intros x g []|exact Nl|].
  split; [exact P1|]. destruct H as (h1 & s & E & [(R & _)|(_ & h2 & cs & C & -> & ->)]); [discriminate|].
  exists (nobj h2). split; [reflexivity|]. injection C as <- <-.
  assert (Nn : ns f < nns h) by (destruct X as (_ & X & _); lia).
  destruct (names_good _ (uninstrument_good src n) (ns_of h (ns f)) (co f) [] h seen (Some over) hn seen'
              (fun x g G => sound_glob _ _ _ _ S G) S) as (Xn & Sn & _ & _);
    [intros x g []|rewrite (ns_of_ext h0 h _ X Ln); exact Nl|].
  assert (Nn' : ns f < nns hn) by (destruct Xn as (_ & Xl & _); lia).
  destruct (new_ns_ok hn f over h1 s Sn Nn' (fun x g I => proj1 (P3 x g I)) E)
    as (Y1 & S1 & No & Nc & Ct & Ls & G1 & G2).
  destruct (add_fn_ok h1 (mkFn false (code f) s (co f) []) S1) as (X3 & S3 & F3); [exact Ls|intros x c []|].
  cbn zeta in X3, S3, F3. set (h3 := mkH _ _ _ _ _ _) in *.
  pose proof (ext_trans _ _ _ Y1 X3) as Xn3.
  assert (X03 : ext h0 h3) by exact (ext_trans _ _ _ X (ext_trans _ _ _ Xn Xn3)).
  intros g fg R Fg. apply reaches_first in R. destruct R as [-> |(g1 & (f1 & Ff & R) & Rg)].
  { rewrite F3 in Fg. injection Fg as <-. reflexivity. }
  rewrite F3 in Ff. injection Ff as <-. cbn [co cells ns] in R.
  destruct R as [(x & I & G)|(x & c & [] & _)].
  rewrite (ns_of_ext h1 h3 s X3 Ls) in G.
  assert (Cg : clean h3 g1).
  { destruct (G1 x g1 G) as [J|(J & No')].
    - destruct (P3 x g1 J) as (Lk & Ck). exact (clean_ext hn h3 g1 Sn Xn3 Lk Ck).
    - rewrite (ns_of_ext h hn _ Xn Nn), (ns_of_ext h0 h _ X Ln) in J.
      destruct (P4 x g1 I J) as [Ck|(g' & Bad)]; [|destruct (No' _ Bad)].
      exact (clean_ext h0 h3 g1 S0 X03 (sound_glob _ _ _ _ S0 J) Ck). }
  exact (Cg g fg Rg Fg).
Qed.

Lemma uninstrument_tidy n : tidy n.
Proof.
  induction n as [|n IH]; intros h seen o S r h' seen' X Sd L G Ds H; [discriminate|].
  cbn [uninstrument] in H. destruct (memb o seen) eqn:M.
  { injection H as <- <- <-. split; [now left|]. apply memb_In in M.
    destruct G as [o U C|o f Ss W F Ce A N]; [auto|]. destruct (Ds o); [now left|exact M]. }
  destruct G as [o U C|o f Ss W F Ce A N].
  - destruct U as (U1 & U2). rewrite U1, U2 in H. cbn [try_alts] in H. injection H as <- <- <-.
    split; [|split; [now split|auto]]. intros x [<- |I]; [right; right; now split|now left].
  - assert (Ds' : forall s, In s (concat Ss) -> ~ In s (o :: seen)).
    { intros s I [<- |J]; [apply NoDup_cons_iff in N; now apply N|]. apply (Ds s); [now right|exact J]. }
    assert (Mk : forall r h' seen', make (uninstrument src n) h (o :: seen) o true = Some (r, h', seen') ->
       (forall x, In x seen' -> In x seen \/ In x (o :: concat Ss) \/ unknown src x) /\
       exists o', r = Made o' /\ clean h' o').
    { intros r1 h1 s1 M1. destruct (make_tidy n h (o :: seen) o f Ss r1 h1 s1 IH X Sd L F Ce A N Ds' M1) as (P1 & P2).
      split; [|exact P2]. intros x I. destruct (P1 x I) as [[<- |J]|[J|J]]; auto; [right; left; now left|].
      right. left. now right. }
    destruct W as [D|(D & l & Al)]; rewrite D in H.
    + destruct (make (uninstrument src n) h (o :: seen) o true) as [((q, h1), s1)|] eqn:E; [|discriminate].
      destruct (Mk q h1 s1 eq_refl) as (P1 & o' & -> & P2). injection H as <- <- <-. split; [exact P1|].
      now exists o'.
    + rewrite Al in H. cbn [try_alts] in H.
      destruct (make (uninstrument src n) h (o :: seen) o true) as [((q, h1), s1)|] eqn:E; [|discriminate].
      destruct (Mk q h1 s1 eq_refl) as (P1 & o' & -> & P2). injection H as <- <- <-. split; [exact P1|].
      now exists o'.
Qed.
End Clean.

(** ** Functions whose globals have no source *)

Lemma names_unknown src n d : forall names h seen r h' seen',
  (forall x g, In x names -> dget d x = Some g -> unknown src g) ->
  names_loop (uninstrument src n) d names [] h seen = Some (r, h', seen') -> r = Some [] /\ h' = h.
Proof.
  induction names as [|x names IH]; intros h seen r h' seen' U H.
  - injection H as <- <- <-. auto.
  - cbn [names_loop] in H. destruct (dget d x) as [g|] eqn:G; [|eapply IH; eauto; intros; eapply U; eauto; now right].
    destruct (uninstrument src n h seen g) as [((q, h1), s1)|] eqn:E; [|discriminate].
    assert (q = Nothing /\ h1 = h) as (-> & ->).
    { destruct n as [|n]; [discriminate|]. cbn [uninstrument] in E.
      destruct (memb g seen); [injection E as <- <- <-; auto|].
      destruct (U x g (or_introl eq_refl) G) as (U1 & U2). rewrite U1, U2 in E. cbn in E.
      injection E as <- <- <-. auto. }
    eapply IH; eauto. intros; eapply U; eauto; now right.
Qed.

Definition made_plain (f : fn) (h h' : heap) (o' : nat) : Prop :=
  o' = nobj h /\ fns h' = dset (fns h) o' (mkFn false (code f) (ns f) (co f) []) /\ nss h' = nss h.

Lemma make_plain src n h seen o f b r h' seen' : dget (fns h) o = Some f -> cells f = [] ->
  (forall x g, In x (co f) -> dget (ns_of h (ns f)) x = Some g -> unknown src g) ->
  make (uninstrument src n) h seen o b = Some (r, h', seen') ->
  r = Nothing /\ h' = h \/ exists o', r = Made o' /\ made_plain f h h' o'.
Proof.
  intros F C U H. apply make_inv in H. destruct H as [(_ & _ & _ & Z)|(f1 & kw & q & hn & F1 & K & N & H)].
  { specialize (Z f F). rewrite C in Z. discriminate. }
  rewrite F in F1. injection F1 as <-. rewrite C in K. injection K as <-.
  destruct (names_unknown src n _ _ _ _ _ _ _ U N) as (-> & ->).
  destruct H as (h1 & s & E & H). injection E as <- <-.
  destruct H as [(_ & -> & ->)|(_ & h2 & cs & E & -> & ->)]; [now left|]. injection E as <- <-.
  right. exists (nobj h). repeat split.
Qed.

Lemma uninstrument_plain src n h seen o f o' h' seen' : dget (fns h) o = Some f -> cells f = [] ->
  (forall x g, In x (co f) -> dget (ns_of h (ns f)) x = Some g -> unknown src g) ->
  uninstrument src n h seen o = Some (Made o', h', seen') -> made_plain f h h' o'.
Proof.
  intros F C U H. destruct n as [|n]; [discriminate|]. cbn [uninstrument] in H.
  destruct (memb o seen); [discriminate|].
  assert (A : forall l s, try_alts (uninstrument src n) o l h s = Some (Made o', h', seen') -> made_plain f h h' o').
  { induction l as [|b l IH]; intros s T; cbn [try_alts] in T; [discriminate|].
    destruct (make (uninstrument src n) h s o b) as [((q, h1), s1)|] eqn:M; [|discriminate].
    destruct (make_plain src n h s o f b q h1 s1 F C U M) as [(-> & ->)|(k & -> & P)]; [eauto|].
    injection T as <- <- <-. exact P. }
  destruct (deco (src o)) as [b|]; [|eauto].
  destruct (make (uninstrument src n) h (o :: seen) o b) as [((q, h1), s1)|] eqn:M; [|discriminate].
  destruct (make_plain src n h _ o f b q h1 s1 F C U M) as [(-> & ->)|(k & -> & P)]; [eauto|].
  injection H as <- <- <-. exact P.
Qed.

Lemma apply_fns cs : forall h, fns (fold_left apply cs h) = fns h.
Proof. induction cs as [|c cs IH]; intros h; [reflexivity|]. cbn. rewrite IH. now destruct c. Qed.
