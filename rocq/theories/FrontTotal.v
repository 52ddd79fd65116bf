(** The whole computation: decomposition, and totality. *)
Require Import List ZArith Bool Arith Lia Permutation.
Import ListNotations.
Require Import Verif.Base Verif.Loops Verif.TimestampModel Verif.TimestampProofs
  Verif.SessionModel Verif.SliceModel Verif.SliceProofs Verif.PosModel Verif.PosSpec
  Verif.PosProofs Verif.FrontModel Verif.FrontSpec Verif.FrontDag Verif.FrontLinks
  Verif.FrontMain Verif.FrontLatest Verif.FrontReady Verif.FrontPipe.
Local Open Scope nat_scope.

Lemma ips_spec e : forall l acc ips,
  rfold (fun acc i => rmap (fun c => acc ++ [(i, f_pos c)]) (fcell_of e i)) l acc = Ok ips ->
  map fst ips = map fst acc ++ l.
Proof.
  induction l as [|i l IH]; simpl; intros acc ips E.
  - injection E as <-. now rewrite app_nil_r.
  - apply rbind_Ok in E. destruct E as (t & E1 & E2). apply rmap_Ok in E1.
    destruct E1 as (c & _ & <-). rewrite (IH _ _ E2), map_app. simpl.
    now rewrite <- app_assoc.
Qed.

Record Stages (e : fenv) (tc : list nat) (last : option nat) (tagged : list nat)
    (flags : dict bool) (p : report) (lp : option pos) (checked : list nat) (r1 r : fres)
    (d : dict (list nat)) : Prop := {
  st_last : match last with
            | None => lp = None
            | Some l => exists c, cell_is e l c /\ lp = Some (f_pos c)
            end;
  st_checked : Permutation checked tc;
  st_inv : CInv e lp flags checked r1;
  st_check : rfold (check_one e lp) checked (mkR [] [] [] [] flags [] []) = Ok r1;
  st_dag : dag_waiters e checked r1 = Ok r;
  st_forced : match lp with
              | None => p_forced p = match last with None => [] | Some _ => supd [] tagged end
              | Some q => forced_reactive e q k_max_reactive (r_ready r)
                   match last with None => [] | Some _ => supd [] tagged end = Ok (p_forced p)
              end;
  st_cascading : match lp with
                 | None => p_cascading p = []
                 | Some q => forced_reactive e q k_max_cascading (r_ready r) [] = Ok (p_cascading p)
                 end;
  st_initial : initial_links e r last = Ok d;
  st_links : compute_links (r_waiting r) d = Ok (p_waiter_links p, p_ready_makers p);
  st_parents : parents_and_children e checked = Ok (p_parents p, p_children p);
  st_waiting : p_waiting p = r_waiting r;
  st_ready : p_ready p = r_ready r;
  st_new : p_new_ready p = r_new_ready r;
  st_typecheck : p_typecheck p = r_typecheck r;
  st_flags : p_flags p = r_flags r
}.

Lemma compute_stages e tc last tagged flags p :
  compute e tc last tagged flags = Ok p ->
  exists lp checked r1 r d, Stages e tc last tagged flags p lp checked r1 r d.
Proof.
  unfold compute. intros E.
  apply rbind_Ok in E. destruct E as (lp & E1 & E).
  apply rbind_Ok in E. destruct E as (ips & E2 & E). cbv zeta in E.
  apply rbind_Ok in E. destruct E as (r1 & E3 & E).
  apply rbind_Ok in E. destruct E as (r & E4 & E).
  apply rbind_Ok in E. destruct E as (fo & E5 & E).
  apply rbind_Ok in E. destruct E as (ca & E6 & E).
  apply rbind_Ok in E. destruct E as (d & E7 & E).
  apply rbind_Ok in E. destruct E as ([l1 l2] & E8 & E).
  apply rbind_Ok in E. destruct E as ([ps ch] & E9 & E). injection E as <-.
  exists lp, (map fst (sort_by (fun a b => pos_leb (snd a) (snd b)) ips)), r1, r, d.
  split; simpl; auto.
  - destruct last as [l|]; [|congruence]. apply rmap_Ok in E1. destruct E1 as (c & C & <-).
    apply fcell_of_Ok in C. eauto.
  - pose proof (ips_spec _ _ _ _ E2) as M. simpl in M. rewrite <- M.
    apply Permutation_map, sort_by_perm.
  - now apply check_all.
  - destruct lp; auto. injection E5 as <-. auto.
  - destruct lp; auto. injection E6 as <-. auto.
Qed.

(** ** Totality *)

Section Total.
Variable e : fenv.
Hypothesis Reg : registered e.

Lemma fcell_total i : (exists c, cell_is e i c) -> exists c, fcell_of e i = Ok c.
Proof. intros (c & C). apply fcell_of_Ok in C. eauto. Qed.

Lemma dparents_total i c x : cell_is e i c -> exists d, dparents e x c = Ok d.
Proof.
  intros C. unfold dparents. destruct (e_in_order e); [|eauto].
  destruct (rfilter _ (f_par c x)) as [d|er] eqn:E; [eauto|].
  apply rfilter_Err in E. destruct E as ([j s] & H & E). exfalso.
  destruct (Reg i c x j s C H) as (p & Cp). apply fcell_of_Ok in Cp. simpl in E.
  rewrite Cp in E. discriminate.
Qed.

Lemma dparents_known i c x d j s : cell_is e i c -> dparents e x c = Ok d -> In (j, s) d ->
  exists p, cell_is e j p.
Proof.
  intros C D H. apply (dparents_In _ _ _ _ D) in H. destruct H as [H _]. eapply Reg; eauto.
Qed.

Lemma latest_total i c : cell_is e i c -> exists lt, latest_parents e c = Ok lt.
Proof.
  intros C. unfold latest_parents. destruct (e_in_order e) eqn:O; [|eauto].
  match goal with |- exists lt, rmap Some (rfold ?f ?l ?s) = _ =>
    destruct (rfold_total f l s) as (m & E) end.
  - intros x t _. destruct (dparents_total i c x C) as (d & D). rewrite D. simpl.
    apply rfold_total. intros [j s] u H.
    destruct (fcell_total j) as (p & P); [eapply dparents_known; eauto|].
    simpl. rewrite P. simpl. eauto.
  - rewrite E. simpl. eauto.
Qed.

Lemma shadowed_total p syms : forall l, (forall j s, In (j, s) l -> exists q, cell_is e j q) ->
  exists b, shadowed e p syms l = Ok b.
Proof.
  induction l as [|[j s] l IH]; simpl; intros H; [eauto|].
  destruct (fcell_total j) as (q & Q); [eapply H; eauto|]. rewrite Q. simpl.
  destruct IH as (b & B); [intros; eapply H; eauto|].
  destruct (pos_leb _ _); [eauto|]. destruct (_ || _)%bool; eauto.
Qed.

Lemma shadowed_par_total p syms : forall l,
  (forall j s, In (j, s) l -> exists q, cell_is e j q) ->
  exists b, shadowed_par e p syms l = Ok b.
Proof.
  induction l as [|[j s] l IH]; simpl; intros H; [eauto|].
  destruct IH as (b & B); [intros; eapply H; eauto|].
  destruct (_ && _)%bool; [eauto|].
  destruct (fcell_total j) as (q & Q); [eapply H; eauto|]. rewrite Q. simpl.
  destruct (pos_leb _ _); [eauto|]. destruct (_ || _)%bool; eauto.
Qed.

Lemma ready_loop_total i c x latest d : cell_is e i c -> In x (e_ctxs e) ->
  latest_parents e c = Ok latest -> dparents e x c = Ok d ->
  forall l r, incl l d -> exists rn, ready_loop e x c latest d l r = Ok rn.
Proof.
  intros C Hx L D. induction l as [|[j raw] l IH]; simpl; intros r IN; [eauto|].
  assert (Hj : In (j, raw) d) by (apply IN; left; auto).
  assert (IN' : incl l d) by (intros y Hy; apply IN; right; auto).
  assert (K : exists p, cell_is e j p) by (eapply dparents_known; eauto).
  destruct (fcell_total j K) as (p & P). rewrite P. simpl.
  destruct (_ && _ && _)%bool; [eauto|].
  destruct (not_latest_total e i c C latest j (sdiff raw (f_removed c)) L K) as (nl & NL).
  { intros s Hs. apply (usable e i c C x j raw s); auto.
    now apply (dparents_par e x i c d). }
  rewrite NL. simpl. destruct nl; [auto|]. destruct (parent_changed _ _ _ _); [|auto].
  destruct (shadowed_total p (sdiff raw (f_removed c)) d) as (b & B).
  { intros j' s' H'. eapply dparents_known; eauto. }
  destruct (_ && _)%bool.
  - rewrite B. simpl. destruct b; auto. destruct (_ && _)%bool; eauto.
  - simpl. destruct (_ && _)%bool; eauto.
Qed.

Lemma readiness_total i c k : cell_is e i c -> exists rn, readiness e c k = Ok rn.
Proof.
  intros C. unfold readiness.
  assert (A : exists rn, (if is_dag (e_schedule e)
         then rbind (latest_parents e c) (fun latest =>
              ready_ctxs e c latest (e_ctxs e) false)
         else Ok (false, false)) = Ok rn).
  { destruct (is_dag _); [|eauto]. destruct (latest_total i c C) as (l & L). rewrite L. simpl.
    generalize false as r. assert (IN : incl (e_ctxs e) (e_ctxs e)) by apply incl_refl.
    revert IN. generalize (e_ctxs e) at 1 3 as xs.
    induction xs as [|x xs IH]; simpl; intros IN r; [eauto|].
    destruct (dparents_total i c x C) as (d & D). rewrite D. simpl.
    destruct (ready_loop_total i c x l d C (IN x (or_introl eq_refl)) L D d r (incl_refl _))
      as ([r1 n1] & E). rewrite E. simpl. destruct n1; [eauto|].
    apply IH. intros y Hy. apply IN. right. auto. }
  destruct A as (rn & A). rewrite A. simpl. destruct (_ && _)%bool; [|eauto].
  destruct (_ <? _)%Z; eauto.
Qed.

Lemma check_one_total lp t i : (exists c, cell_is e i c) -> exists t', check_one e lp t i = Ok t'.
Proof.
  intros (c & C). unfold check_one. pose proof C as C'. apply fcell_of_Ok in C'. rewrite C'.
  simpl. destruct (f_check c) as [k|]; [|eauto].
  match goal with |- exists t', rbind (if ?b then _ else _) _ = _ => destruct b end.
  - simpl. eauto.
  - destruct (readiness_total i c k C) as ([a b] & E). rewrite E. simpl. eauto.
Qed.

Lemma dag_cell_total ready w i : (exists c, cell_is e i c) ->
  exists w', dag_cell e ready w i = Ok w'.
Proof.
  intros (c & C). unfold dag_cell. destruct (memb i w); [eauto|].
  pose proof C as C'. apply fcell_of_Ok in C'. rewrite C'. simpl.
  apply rfold_total. intros x t _. destruct (dparents_total i c x C) as (d & D).
  rewrite D. simpl. eauto.
Qed.

Lemma dag_loop_no_key ready checked : (forall i, In i checked -> exists c, cell_is e i c) ->
  forall f prev w er, dag_loop f e ready checked prev w = Err er -> er = OutOfFuel.
Proof.
  intros K. induction f as [|f IH]; simpl; intros prev w er E; [congruence|].
  apply rbind_Err in E. destruct E as [E|(w' & _ & E)].
  - exfalso. unfold dag_pass in E.
    destruct (rfold_total (dag_cell e ready) checked w) as (w' & E'); [|congruence].
    intros i t Hi. apply dag_cell_total. auto.
  - destruct (set_eqb prev w'); [discriminate|]. eauto.
Qed.

Lemma dag_waiters_total checked r : (forall i, In i checked -> exists c, cell_is e i c) ->
  (forall i, In i (r_waiting r) -> exists c, cell_is e i c) ->
  exists r', dag_waiters e checked r = Ok r'.
Proof.
  intros K KW. unfold dag_waiters. destruct (is_dag _); [|eauto].
  destruct (dag_loop _ _ _ _ _ _) as [w|er] eqn:E.
  - simpl.
    destruct (dag_loop_spec e (r_ready r) checked (r_waiting r) (S (S (length checked)))
              [] (r_waiting r) w) as (A & B); auto using incl_refl.
    { intros. now apply mw_start. }
    match goal with |- exists r', rbind (rfold ?f ?l ?s) _ = _ =>
      destruct (rfold_total f l s) as (fl & F) end.
    { intros i t Hi. destruct (fcell_total i) as (c & C).
      - apply A in Hi. destruct Hi; auto.
      - rewrite C. simpl. eauto. }
    rewrite F. simpl. eauto.
  - exfalso. pose proof (dag_loop_total _ _ _ _ _ E).
    pose proof (dag_loop_no_key _ _ K _ _ _ _ E). congruence.
Qed.

Lemma forced_total q sel ready init : (forall i, In i ready -> exists c, cell_is e i c) ->
  exists l, forced_reactive e q sel ready init = Ok l.
Proof.
  intros K. apply rfold_total. intros i t Hi. destruct (fcell_total i (K i Hi)) as (c & C).
  rewrite C. simpl. eauto.
Qed.

Lemma makers_total r last w : (exists c, cell_is e w c) ->
  (forall s i, In i (lget (r_killing r) s) -> exists c, cell_is e i c) ->
  exists ms, ready_makers e r last w = Ok ms.
Proof.
  intros (c & C) K. unfold ready_makers.
  match goal with |- exists ms, rbind ?a _ = _ =>
    assert (A : exists m1, a = Ok m1 /\ forall m, In m m1 -> exists p, cell_is e m p) end.
  { destruct (is_dag _).
    - pose proof C as C'. apply fcell_of_Ok in C'. rewrite C'. simpl.
      match goal with |- exists m1, rfold ?f ?l ?s = _ /\ _ =>
        destruct (rfold_total f l s) as (m1 & M) end.
      { intros x t _. destruct (dparents_total w c x C) as (d & D). rewrite D. simpl. eauto. }
      exists m1. split; auto. revert M.
      apply (rfold_inv _ (fun m1 => forall m, In m m1 -> exists p, cell_is e m p)).
      + intros m [].
      + intros x t t' _ IH E m Hm. apply rmap_Ok in E. destruct E as (d & D & <-).
        apply In_supd in Hm. destruct Hm as [Hm|Hm]; auto. apply filter_In in Hm.
        destruct Hm as [Hm _]. apply in_map_iff in Hm. destruct Hm as ([j s] & <- & Hm).
        eapply dparents_known; eauto.
    - eexists. split; [reflexivity|].
      apply (fold_left_inv _ (fun m1 => forall m, In m m1 -> exists p, cell_is e m p)).
      + intros m [].
      + intros s t _ IH m Hm. apply In_supd in Hm. destruct Hm as [Hm|Hm]; eauto. }
  destruct A as (m1 & A & KM). rewrite A. simpl. clear A.
  destruct (e_in_order e); [|simpl; eauto].
  destruct (rfilter _ m1) as [m2|er] eqn:E; simpl; [eauto|].
  exfalso. apply rfilter_Err in E. destruct E as (m & Hm & E).
  destruct (fcell_total m (KM m Hm)) as (cm & Cm). rewrite Cm in E. simpl in E.
  apply fcell_of_Ok in C. rewrite C in E. discriminate.
Qed.

Lemma filtered_total i c : cell_is e i c -> exists l, filtered_parents e c = Ok l.
Proof.
  intros C. unfold filtered_parents. destruct (latest_total i c C) as (l & L). rewrite L. simpl.
  apply rfold_total. intros x t Hx. destruct (dparents_total i c x C) as (d & D). rewrite D. simpl.
  apply rfold_total. intros [j raw] u H. simpl.
  assert (Kj : exists p, cell_is e j p) by (eapply dparents_known; eauto).
  assert (exists b, keep_parent e x c l d j raw = Ok b) as (b & B); [|rewrite B; simpl; eauto].
  unfold keep_parent. cbv zeta. fold (shown e c raw).
  destruct (is_nil (shown e c raw)); [eauto|].
  destruct (not_latest_total e i c C l j (shown e c raw) L Kj) as (nl & NL).
  { intros s Hs. apply shown_In in Hs. exists x, raw, c. split; [|tauto].
    now apply (dparents_par e x i c d). }
  rewrite NL. simpl. destruct nl; [eauto|]. destruct (fcell_total j Kj) as (p & P). rewrite P.
  simpl. match goal with |- exists b, (if ?a then _ else _) = _ => destruct a end; [eauto|].
  match goal with |- exists b, (if ?a then _ else _) = _ => destruct a end; [eauto|].
  destruct (_ && _)%bool; [|simpl; eauto].
  destruct (shadowed_par_total p (shown e c raw) d) as (b & B).
  { intros j' s' H'. eapply dparents_known; eauto. }
  rewrite B. simpl. eauto.
Qed.

Lemma compute_total tc last tagged flags :
  (forall i, In i tc -> exists c, cell_is e i c) ->
  (forall l, last = Some l -> exists c, cell_is e l c) ->
  exists p, compute e tc last tagged flags = Ok p.
Proof.
  intros K KL. unfold compute.
  assert (exists lp, (match last with
         | None => Ok None
         | Some l => rmap (fun c => Some (f_pos c)) (fcell_of e l)
         end) = Ok lp) as (lp & LP).
  { destruct last as [l|]; [|eauto]. destruct (fcell_total l (KL l eq_refl)) as (c & C).
    rewrite C. simpl. eauto. }
  rewrite LP. simpl.
  match goal with |- exists p, rbind (rfold ?f ?l ?s) _ = _ =>
    destruct (rfold_total f l s) as (ips & E) end.
  { intros i t Hi. destruct (fcell_total i (K i Hi)) as (c & C). rewrite C. simpl. eauto. }
  rewrite E. simpl.
  pose proof (ips_spec _ _ _ _ E) as M. simpl in M.
  set (checked := map fst (sort_by (fun a b => pos_leb (snd a) (snd b)) ips)).
  assert (PM : Permutation checked tc).
  { rewrite <- M. apply Permutation_map, sort_by_perm. }
  assert (KC : forall i, In i checked -> exists c, cell_is e i c).
  { intros i Hi. apply K. now apply (Permutation_in _ PM). }
  destruct (rfold_total (check_one e lp) checked (mkR [] [] [] [] flags [] [])) as (r1 & R1).
  { intros i t Hi. apply check_one_total. auto. }
  rewrite R1. simpl. pose proof (check_all _ _ _ _ _ R1) as V.
  destruct (dag_waiters_total checked r1 KC) as (r & R).
  { intros i Hi. apply (ci_waiting _ _ _ _ _ V) in Hi. apply KC. tauto. }
  rewrite R. simpl.
  assert (S : (forall i, In i (r_waiting r) -> exists c, cell_is e i c) /\
              (forall i, In i (r_ready r) -> exists c, cell_is e i c) /\
              r_killing r = r_killing r1 /\ r_wsyms r = r_wsyms r1).
  { destruct (is_dag (e_schedule e)) eqn:D.
    - destruct (dag_waiters_spec _ _ _ _ D R) as (A1 & A2 & _ & _ & _ & _ & A3 & A4 & _).
      split; [|split; [|auto]].
      + intros i Hi. apply A1 in Hi. destruct Hi; auto.
        apply (ci_waiting _ _ _ _ _ V) in H. apply KC. tauto.
      + intros i Hi. apply A2 in Hi. destruct Hi as [Hi _].
        apply (ci_ready _ _ _ _ _ V) in Hi. apply KC. tauto.
    - unfold dag_waiters in R. rewrite D in R. injection R as <-.
      split; [|split; [|auto]].
      + intros i Hi. apply (ci_waiting _ _ _ _ _ V) in Hi. apply KC. tauto.
      + intros i Hi. apply (ci_ready _ _ _ _ _ V) in Hi. apply KC. tauto. }
  destruct S as (KW & KR & SK & SW).
  match goal with |- exists p, rbind ?a _ = _ => assert (exists fo, a = Ok fo) as (fo & FO) end.
  { destruct lp; [|eauto]. apply forced_total; auto. }
  rewrite FO. simpl.
  match goal with |- exists p, rbind ?a _ = _ => assert (exists fo, a = Ok fo) as (ca & CA) end.
  { destruct lp; [|eauto]. apply forced_total; auto. }
  rewrite CA. simpl.
  assert (exists d, initial_links e r last = Ok d) as (d & D).
  { apply rfold_total. intros w t Hw. destruct (makers_total r last w) as (ms & MS); auto.
    - intros s i Hi. rewrite SK in Hi. apply (ci_killing _ _ _ _ _ V) in Hi. apply KC. tauto.
    - rewrite MS. simpl. eauto. }
  rewrite D. simpl.
  destruct (initial_links_spec _ _ _ _ _ _ _ _ V SW SK D) as (PS & _).
  destruct (links_total (r_waiting r) d PS) as (lk & LK). rewrite LK. simpl.
  assert (exists pc, parents_and_children e checked = Ok pc) as (pc & PC).
  { unfold parents_and_children.
    match goal with |- exists pc, rmap _ (rfold ?f ?l ?s) = _ =>
      destruct (rfold_total f l s) as (ps & P) end.
    - intros i t Hi. destruct (KC i Hi) as (c & C). pose proof C as C'. apply fcell_of_Ok in C'.
      rewrite C'. simpl. destruct (filtered_total i c C) as (l & L). rewrite L. simpl. eauto.
    - rewrite P. simpl. eauto. }
  rewrite PC. simpl. eauto.
Qed.

End Total.

(** ** What the report says *)

Lemma must_wait_perm e l l' r w i : (forall x, In x l <-> In x l') ->
  must_wait e l r w i -> must_wait e l' r w i.
Proof.
  intros P. induction 1.
  - now apply mw_start.
  - apply (mw_ready _ _ _ _ i j); auto. now apply P.
  - apply (mw_wait _ _ _ _ i j); auto. now apply P.
Qed.

Lemma must_wait_ready e l r r' w i : (forall x, In x r <-> In x r') ->
  must_wait e l r w i -> must_wait e l r' w i.
Proof.
  intros P. induction 1.
  - now apply mw_start.
  - apply (mw_ready _ _ _ _ i j); auto. now apply P.
  - apply (mw_wait _ _ _ _ i j); auto.
Qed.

Section Report.
Variables (e : fenv) (tc : list nat) (last : option nat) (tagged : list nat)
  (flags : dict bool) (p : report).
Hypothesis E : compute e tc last tagged flags = Ok p.

Lemma report_dag : e_schedule e <> LivenessBased ->
  exists needs, (forall i, In i needs <-> In i tc /\ is_ready_now e i) /\
    (forall i, In i (p_waiting p) <-> must_wait e tc needs [] i) /\
    (forall i, In i (p_ready p) <-> In i needs /\ ~ In i (p_waiting p)).
Proof.
  intros S. destruct (compute_stages _ _ _ _ _ _ E) as (lp & checked & r1 & r & d & V).
  assert (D : is_dag (e_schedule e) = true) by (destruct (e_schedule e); auto; congruence).
  destruct (dag_waiters_spec _ _ _ _ D (st_dag _ _ _ _ _ _ _ _ _ _ _ V))
    as (A1 & A2 & _).
  pose proof (st_inv _ _ _ _ _ _ _ _ _ _ _ V) as I.
  pose proof (st_checked _ _ _ _ _ _ _ _ _ _ _ V) as PM.
  assert (MEM : forall x, In x checked <-> In x tc).
  { intros x. split; apply Permutation_in; auto using Permutation_sym. }
  assert (NL : forall i, ~ live_waits e i) by (intros i [H _]; contradiction).
  assert (W0 : r_waiting r1 = []).
  { destruct (r_waiting r1) as [|i l] eqn:W; auto. exfalso. apply (NL i).
    assert (H : In i (r_waiting r1)) by (rewrite W; left; auto).
    apply (ci_waiting _ _ _ _ _ I) in H. tauto. }
  exists (r_ready r1). split; [|split].
  - intros i. rewrite (ci_ready _ _ _ _ _ I), MEM. split; [tauto|]. intros [H H']. auto.
  - intros i. rewrite (st_waiting _ _ _ _ _ _ _ _ _ _ _ V), A1, W0.
    split; apply must_wait_perm; intros; rewrite MEM; tauto.
  - intros i. rewrite (st_waiting _ _ _ _ _ _ _ _ _ _ _ V), (st_ready _ _ _ _ _ _ _ _ _ _ _ V).
    apply A2.
Qed.

Lemma report_live : e_schedule e = LivenessBased ->
  (forall i, In i (p_waiting p) <-> In i tc /\ live_waits e i) /\
  (forall i, In i (p_ready p) <-> In i tc /\ ~ live_waits e i /\ is_ready_now e i).
Proof.
  intros S. destruct (compute_stages _ _ _ _ _ _ E) as (lp & checked & r1 & r & d & V).
  pose proof (st_inv _ _ _ _ _ _ _ _ _ _ _ V) as I.
  pose proof (st_checked _ _ _ _ _ _ _ _ _ _ _ V) as PM.
  assert (MEM : forall x, In x checked <-> In x tc).
  { intros x. split; apply Permutation_in; auto using Permutation_sym. }
  pose proof (st_dag _ _ _ _ _ _ _ _ _ _ _ V) as D. unfold dag_waiters in D.
  rewrite S in D. simpl in D. injection D as <-.
  rewrite (st_waiting _ _ _ _ _ _ _ _ _ _ _ V), (st_ready _ _ _ _ _ _ _ _ _ _ _ V).
  split; intros i; rewrite <- MEM.
  - apply (ci_waiting _ _ _ _ _ I).
  - apply (ci_ready _ _ _ _ _ I).
Qed.

Lemma report_sets :
  (forall i, In i (p_ready p) -> ~ In i (p_waiting p)) /\
  (forall i, In i (p_new_ready p) -> In i (p_ready p)) /\
  (forall i, In i (p_ready p) -> In i tc /\ is_ready_now e i) /\
  (forall i, In i (p_waiting p) -> In i tc) /\
  (forall i, In i (p_typecheck p) <->
     In i tc /\ exists c k, checked_with e i c k /\ k_typechecks k = false) /\
  (forall i c k, In i tc -> checked_with e i c k ->
     (dget (p_flags p) i = Some true <-> In i (p_ready p))) /\
  (forall i, In i (p_waiting p) -> dget (p_flags p) i <> Some true).
Proof.
  destruct (compute_stages _ _ _ _ _ _ E) as (lp & checked & r1 & r & d & V).
  pose proof (st_inv _ _ _ _ _ _ _ _ _ _ _ V) as I.
  pose proof (st_checked _ _ _ _ _ _ _ _ _ _ _ V) as PM.
  assert (MEM : forall x, In x checked <-> In x tc).
  { intros x. split; apply Permutation_in; auto using Permutation_sym. }
  rewrite (st_waiting _ _ _ _ _ _ _ _ _ _ _ V), (st_ready _ _ _ _ _ _ _ _ _ _ _ V),
    (st_new _ _ _ _ _ _ _ _ _ _ _ V), (st_typecheck _ _ _ _ _ _ _ _ _ _ _ V),
    (st_flags _ _ _ _ _ _ _ _ _ _ _ V).
  assert (FL : forall i, dget (r_flags r) i = Some true <-> flag r i = true).
  { intros i. unfold flag. destruct (dget (r_flags r) i); split; congruence. }
  pose proof (st_dag _ _ _ _ _ _ _ _ _ _ _ V) as D.
  destruct (is_dag (e_schedule e)) eqn:Dg.
  - destruct (dag_waiters_spec _ _ _ _ Dg D) as (A1 & A2 & A3 & A4 & A5 & A6 & _).
    assert (WC : forall i, In i (r_waiting r) -> In i tc).
    { intros i H. apply A1 in H. apply MEM. destruct H; auto.
      apply (ci_waiting _ _ _ _ _ I) in H. tauto. }
    split; [intros i H; apply A2 in H; tauto|].
    split; [intros i H; apply A3 in H; apply A2; destruct H as [H ?]; split; auto;
            now apply (ci_new _ _ _ _ _ I) in H|].
    split; [intros i H; apply A2 in H; destruct H as [H _];
            apply (ci_ready _ _ _ _ _ I) in H; rewrite <- MEM; tauto|].
    split; [auto|].
    split; [intros i; rewrite A6, <- MEM; apply (ci_typecheck _ _ _ _ _ I)|].
    split.
    + intros i c k Hi H. rewrite FL, A2. apply MEM in Hi.
      destruct (in_dec Nat.eq_dec i (r_waiting r)) as [W|W].
      * rewrite (A4 i W). split; [discriminate|tauto].
      * rewrite (A5 i W), (ci_flags _ _ _ _ _ I i c k Hi H). tauto.
    + intros i W. rewrite FL, (A4 i W). discriminate.
  - unfold dag_waiters in D. rewrite Dg in D. injection D as <-.
    split; [intros i H H'; apply (ci_ready _ _ _ _ _ I) in H; apply (ci_waiting _ _ _ _ _ I) in H'; tauto|].
    split; [intros i H; now apply (ci_new _ _ _ _ _ I) in H|].
    split; [intros i H; apply (ci_ready _ _ _ _ _ I) in H; rewrite <- MEM; tauto|].
    split; [intros i H; apply (ci_waiting _ _ _ _ _ I) in H; rewrite <- MEM; tauto|].
    split; [intros i; rewrite <- MEM; apply (ci_typecheck _ _ _ _ _ I)|].
    split.
    + intros i c k Hi H. rewrite FL. apply MEM in Hi. now apply (ci_flags _ _ _ _ _ I i c k).
    + intros i W. rewrite FL. pose proof W as W'. apply (ci_waiting _ _ _ _ _ I) in W.
      destruct W as (Hi & LW). pose proof LW as (_ & c & k & H & _).
      rewrite (ci_flags _ _ _ _ _ I i c k Hi H), (ci_ready _ _ _ _ _ I). tauto.
Qed.

Lemma forced_spec q sel ready init l : forced_reactive e q sel ready init = Ok l ->
  forall i, In i l <-> In i init \/
    (In i ready /\ exists c k, checked_with e i c k /\
       (e_in_order e = true -> ~ above (f_pos c) q) /\
       (f_ctr c < sel k)%Z /\ (e_min_forced e < sel k)%Z /\ (e_min_ts e < sel k)%Z).
Proof.
  unfold forced_reactive.
  apply (rfold_prefix _ (fun done l => forall i, In i l <-> In i init \/
    (In i done /\ exists c k, checked_with e i c k /\
       (e_in_order e = true -> ~ above (f_pos c) q) /\
       (f_ctr c < sel k)%Z /\ (e_min_forced e < sel k)%Z /\ (e_min_ts e < sel k)%Z))).
  - intros i. simpl. tauto.
  - intros done i t t' _ IH X j. apply rmap_Ok in X. destruct X as (c & C & <-).
    apply fcell_of_Ok in C.
    assert (OLD : ~ (exists c k, checked_with e i c k /\
       (e_in_order e = true -> ~ above (f_pos c) q) /\
       (f_ctr c < sel k)%Z /\ (e_min_forced e < sel k)%Z /\ (e_min_ts e < sel k)%Z) ->
       (In j t <-> In j init \/
    (In j (done ++ [i]) /\ exists c k, checked_with e j c k /\
       (e_in_order e = true -> ~ above (f_pos c) q) /\
       (f_ctr c < sel k)%Z /\ (e_min_forced e < sel k)%Z /\ (e_min_ts e < sel k)%Z))).
    { intros N. rewrite IH, in_app_iff. simpl. split; [tauto|].
      intros [H|[[H|[->|[]]] H']]; tauto. }
    destruct (f_check c) as [k|] eqn:K.
    2: { apply OLD. intros (c' & k' & [C' K'] & _).
         rewrite <- (cell_is_fun _ _ _ _ C C') in K'. congruence. }
    assert (CW : checked_with e i c k) by (split; auto).
    destruct (e_in_order e && _)%bool eqn:B.
    { apply OLD. intros (c' & k' & C' & A & _). destruct (checked_fun _ _ _ _ _ _ CW C'); subst.
      apply andb_true_iff in B. destruct B as [B1 B2]. apply pos_ltb_above in B2.
      exact (A B1 B2). }
    destruct (_ <? _)%Z eqn:L.
    + rewrite In_sadd, IH, in_app_iff. simpl.
      apply Z.ltb_lt in L. unfold min_forced in L.
      assert (NEW : exists c k, checked_with e i c k /\
       (e_in_order e = true -> ~ above (f_pos c) q) /\
       (f_ctr c < sel k)%Z /\ (e_min_forced e < sel k)%Z /\ (e_min_ts e < sel k)%Z).
      { exists c, k. split; auto. split; [|lia]. intros O A. apply pos_ltb_above in A.
        rewrite O, A in B. discriminate. }
      split.
      * intros [->|[H|[H H']]]; [right; split; auto|tauto|tauto].
      * intros [H|[[H|[->|[]]] H']]; tauto.
    + apply OLD. intros (c' & k' & C' & _ & A). destruct (checked_fun _ _ _ _ _ _ CW C'); subst.
      apply Z.ltb_ge in L. unfold min_forced in L. lia.
Qed.

Lemma report_forced :
  (forall i, In i (p_forced p) -> In i (p_ready p) \/ In i tagged) /\
  (forall i, In i (p_cascading p) -> In i (p_ready p)) /\
  (forall l cl i, last = Some l -> cell_is e l cl -> In i (p_forced p) <->
     In i tagged \/ (In i (p_ready p) /\ exists c k, checked_with e i c k /\
       (e_in_order e = true -> ~ above (f_pos c) (f_pos cl)) /\
       (f_ctr c < k_max_reactive k)%Z /\ (e_min_forced e < k_max_reactive k)%Z /\
       (e_min_ts e < k_max_reactive k)%Z)) /\
  (forall l cl i, last = Some l -> cell_is e l cl -> In i (p_cascading p) <->
     (In i (p_ready p) /\ exists c k, checked_with e i c k /\
       (e_in_order e = true -> ~ above (f_pos c) (f_pos cl)) /\
       (f_ctr c < k_max_cascading k)%Z /\ (e_min_forced e < k_max_cascading k)%Z /\
       (e_min_ts e < k_max_cascading k)%Z)).
Proof.
  destruct (compute_stages _ _ _ _ _ _ E) as (lp & checked & r1 & r & d & V).
  pose proof (st_last _ _ _ _ _ _ _ _ _ _ _ V) as L.
  pose proof (st_forced _ _ _ _ _ _ _ _ _ _ _ V) as F.
  pose proof (st_cascading _ _ _ _ _ _ _ _ _ _ _ V) as C.
  rewrite (st_ready _ _ _ _ _ _ _ _ _ _ _ V).
  destruct last as [l|].
  - destruct L as (cl & Cl & ->). pose proof (forced_spec _ _ _ _ _ F) as F'.
    pose proof (forced_spec _ _ _ _ _ C) as C'.
    split; [|split; [|split]].
    + intros i H. apply F' in H. rewrite In_supd in H. simpl in H. tauto.
    + intros i H. apply C' in H. simpl in H. tauto.
    + intros l' cl' i [= <-] Cl'. rewrite <- (cell_is_fun _ _ _ _ Cl Cl').
      rewrite F', In_supd. simpl. tauto.
    + intros l' cl' i [= <-] Cl'. rewrite <- (cell_is_fun _ _ _ _ Cl Cl').
      rewrite C'. simpl. tauto.
  - subst lp. rewrite F, C. split; [intros i []|]. split; [intros i []|].
    split; intros; discriminate.
Qed.

Lemma report_links :
  (forall w r, In w (p_waiting p) -> In r (lget (p_waiter_links p) w) ->
     ~ In r (p_waiting p) /\
     link_path (p_waiting p) (makes_ready e tc (p_ready p) (p_waiting p) last) w r) /\
  ((forall w, In w (p_waiting p) -> ~ makes_ready e tc (p_ready p) (p_waiting p) last w w) ->
   forall w r, In w (p_waiting p) ->
     (In r (lget (p_waiter_links p) w) <-> ~ In r (p_waiting p) /\
      link_path (p_waiting p) (makes_ready e tc (p_ready p) (p_waiting p) last) w r)) /\
  (forall w r, In w (lget (p_ready_makers p) r) <->
     In w (p_waiting p) /\ In r (lget (p_waiter_links p) w)).
Proof.
  destruct (compute_stages _ _ _ _ _ _ E) as (lp & checked & r1 & r & d & V).
  pose proof (st_inv _ _ _ _ _ _ _ _ _ _ _ V) as I.
  pose proof (st_checked _ _ _ _ _ _ _ _ _ _ _ V) as PM.
  assert (MEM : forall x, In x checked <-> In x tc).
  { intros x. split; apply Permutation_in; auto using Permutation_sym. }
  pose proof (st_dag _ _ _ _ _ _ _ _ _ _ _ V) as D.
  assert (S : r_wsyms r = r_wsyms r1 /\ r_killing r = r_killing r1).
  { destruct (is_dag (e_schedule e)) eqn:Dg.
    - destruct (dag_waiters_spec _ _ _ _ Dg D) as (_ & _ & _ & _ & _ & _ & ? & ? & _). auto.
    - unfold dag_waiters in D. rewrite Dg in D. injection D as <-. auto. }
  destruct S as (SW & SK).
  destruct (initial_links_spec _ _ _ _ _ _ _ _ I SW SK (st_initial _ _ _ _ _ _ _ _ _ _ _ V))
    as (PS & MK0).
  rewrite (st_waiting _ _ _ _ _ _ _ _ _ _ _ V), (st_ready _ _ _ _ _ _ _ _ _ _ _ V).
  assert (MK : forall w m, In w (r_waiting r) ->
     (In m (lget d w) <-> makes_ready e tc (r_ready r) (r_waiting r) last w m)).
  { intros w m Hw. rewrite (MK0 w m Hw). unfold makes_ready. setoid_rewrite MEM. tauto. }
  assert (LPI : forall w x, In w (r_waiting r) ->
     (link_path (r_waiting r) (fun a b => In b (lget d a)) w x <->
      link_path (r_waiting r) (makes_ready e tc (r_ready r) (r_waiting r) last) w x)).
  { intros w x Hw. split; intros H; revert Hw; induction H; intros Hw.
    - apply lp_one. now apply MK.
    - apply lp_more with m; auto. now apply MK.
    - apply lp_one. now apply MK.
    - apply lp_more with m; auto. now apply MK. }
  pose proof (st_links _ _ _ _ _ _ _ _ _ _ _ V) as L.
  split; [|split].
  - intros w x Hw Hx. destruct (links_sound _ _ _ _ PS L w x Hw Hx) as (A & B).
    split; auto. now apply LPI.
  - intros NS w x Hw. rewrite <- LPI; auto. eapply links_exact; [exact PS| |exact L|exact Hw].
    intros v Hv H. apply (NS v Hv). now apply MK.
  - intros w x. unfold compute_links in L. apply rmap_Ok in L. destruct L as (d' & _ & L).
    now apply (finish_spec _ _ _ _ L).
Qed.

Lemma report_parents :
  (forall i j, In j (lget (p_parents p) i) <-> In i (lget (p_children p) j)) /\
  (forall i, In i tc -> In i (dkeys (p_parents p)) /\ In i (dkeys (p_children p))) /\
  (forall i, In i (dkeys (p_parents p)) -> In i tc) /\
  (forall i j, In j (lget (p_parents p) i) -> exists x raw c pj,
     par_edge e x i j raw /\ cell_is e i c /\ cell_is e j pj /\ relevant e c pj raw /\
     (e_in_order e = true -> still_used c raw (e_fake e) \/
       exists s, still_used c raw s /\ s_virtual (e_syms e s) = false /\
                 lowest_source e i s j)) /\
  (e_in_order e = false -> forall i j, In i tc ->
     (In j (lget (p_parents p) i) <-> exists x raw c pj,
        par_edge e x i j raw /\ cell_is e i c /\ cell_is e j pj /\ relevant e c pj raw)).
Proof.
  destruct (compute_stages _ _ _ _ _ _ E) as (lp & checked & r1 & r & d & V).
  pose proof (st_checked _ _ _ _ _ _ _ _ _ _ _ V) as PM.
  assert (MEM : forall x, In x checked <-> In x tc).
  { intros x. split; apply Permutation_in; auto using Permutation_sym. }
  destruct (parents_spec _ _ _ _ (st_parents _ _ _ _ _ _ _ _ _ _ _ V)) as (A & B & C & D).
  assert (SND : forall i j, In j (lget (p_parents p) i) -> exists x raw c pj,
     par_edge e x i j raw /\ cell_is e i c /\ cell_is e j pj /\ relevant e c pj raw /\
     (e_in_order e = true -> still_used c raw (e_fake e) \/
       exists s, still_used c raw s /\ s_virtual (e_syms e s) = false /\
                 lowest_source e i s j)).
  { intros i j H. unfold lget in H. destruct (dget (p_parents p) i) as [l|] eqn:G; [|destruct H].
    assert (Hi : In i checked) by (apply A; eapply dget_Some_key; eauto).
    destruct (B i Hi) as (c & l' & Hc & F & G'). rewrite G in G'. injection G' as <-.
    destruct (filtered_spec e i c l Hc F) as (latest & L & _ & K).
    apply K in H. destruct H as (x & dd & raw & Hx & Dp & Hj & KP).
    assert (P : par_edge e x i j raw) by now apply (dparents_par e x i c dd).
    destruct (keep_spec e i x c latest dd j raw Hc L P KP) as (pj & Cj & R & O).
    exists x, raw, c, pj. auto 8. }
  split; [|split; [|split; [|split]]].
  - intros i j. rewrite (C i j). tauto.
  - intros i Hi. apply MEM in Hi. split; auto. now apply A.
  - intros i Hi. now apply MEM, A.
  - exact SND.
  - intros O i j Hi. split.
    + intros H. destruct (SND i j H) as (x & raw & c & pj & H1 & H2 & H3 & H4 & _).
      exists x, raw, c, pj. auto.
    + intros (x & raw & c & pj & P & Hc & Cj & R). apply MEM in Hi.
      destruct (B i Hi) as (c' & l & Hc' & F & G). rewrite <- (cell_is_fun _ _ _ _ Hc Hc') in F.
      unfold lget. rewrite G.
      destruct (filtered_spec e i c l Hc F) as (latest & L & _ & K). apply K.
      assert (latest = None) by (unfold latest_parents in L; rewrite O in L; congruence).
      subst latest. exists x, (f_par c x), raw.
      pose proof P as (c2 & C2 & Hx & Hj & _). rewrite <- (cell_is_fun _ _ _ _ Hc C2) in Hj.
      split; auto. split; [unfold dparents; now rewrite O|]. split; auto.
      now apply (keep_any_order e i x c (f_par c x) j raw pj).
Qed.

Lemma report_new_ready l cl i c : e_in_order e = true -> last = Some l -> cell_is e l cl ->
  In i (p_new_ready p) -> cell_is e i c -> above (f_pos cl) (f_pos c).
Proof.
  intros O -> Cl H Hc.
  destruct (compute_stages _ _ _ _ _ _ E) as (lp & checked & r1 & r & d & V).
  pose proof (st_inv _ _ _ _ _ _ _ _ _ _ _ V) as I.
  destruct (st_last _ _ _ _ _ _ _ _ _ _ _ V) as (cl' & Cl' & LP).
  rewrite <- (cell_is_fun _ _ _ _ Cl Cl') in LP.
  rewrite (st_new _ _ _ _ _ _ _ _ _ _ _ V) in H.
  assert (H1 : In i (r_new_ready r1)).
  { pose proof (st_dag _ _ _ _ _ _ _ _ _ _ _ V) as D.
    destruct (is_dag (e_schedule e)) eqn:Dg.
    - destruct (dag_waiters_spec _ _ _ _ Dg D) as (_ & _ & A3 & _). apply A3 in H. tauto.
    - unfold dag_waiters in D. rewrite Dg in D. injection D as <-. auto. }
  apply (ci_new _ _ _ _ _ I) in H1. destruct H1 as [_ H1]. eapply H1; eauto.
Qed.

End Report.

(** Every waiting cell descends from a ready one. *)
Lemma waiting_has_ready e tc needs waiting ready :
  acyclic e ->
  (forall i, In i waiting <-> must_wait e tc needs [] i) ->
  (forall i, In i ready <-> In i needs /\ ~ In i waiting) ->
  forall i, In i waiting -> exists r, In r ready /\ ancestor e i r.
Proof.
  intros AC W R.
  assert (G : forall k i chain, NoDup chain -> incl chain needs ->
            (forall c, In c chain -> c = i \/ ancestor e c i) ->
            length needs - length chain <= k ->
            In i waiting -> exists r, In r ready /\ ancestor e i r).
  { induction k as [|k IH]; intros i chain ND IN CH LE Hi;
      apply W, must_wait_ancestor in Hi; destruct Hi as (r & Hr & A);
      destruct (in_dec Nat.eq_dec r waiting) as [Wr|Wr];
      try (exists r; split; [now apply R|auto]).
    - exfalso. assert (NI : ~ In r chain).
      { intros H. destruct (CH r H) as [->|H']; [exact (AC _ A)|].
        exact (AC _ (ancestor_trans _ _ _ _ H' A)). }
      assert (L : length (r :: chain) <= length needs).
      { apply NoDup_incl_length; [constructor; auto|]. intros y [<-|Hy]; auto. }
      simpl in L. lia.
    - assert (NI : ~ In r chain).
      { intros H. destruct (CH r H) as [->|H']; [exact (AC _ A)|].
        exact (AC _ (ancestor_trans _ _ _ _ H' A)). }
      destruct (IH r (r :: chain)) as (r' & Hr' & A'); auto.
      + constructor; auto.
      + intros y [<-|Hy]; auto.
      + intros c [<-|Hc]; auto. right. destruct (CH c Hc) as [->|H']; auto.
        eapply ancestor_trans; eauto.
      + simpl. lia.
      + exists r'. split; auto. eapply ancestor_trans; eauto. }
  intros i Hi. apply (G (length needs) i []).
  - constructor.
  - intros y [].
  - intros c [].
  - simpl. lia.
  - exact Hi.
Qed.

Lemma link_path_above e tc ready waiting last w r : e_in_order e = true ->
  link_path waiting (makes_ready e tc ready waiting last) w r ->
  exists cw cr, cell_is e w cw /\ cell_is e r cr /\ above (f_pos cr) (f_pos cw).
Proof.
  intros O.
  assert (ONE : forall w m, makes_ready e tc ready waiting last w m ->
    exists cw cr, cell_is e w cw /\ cell_is e m cr /\ above (f_pos cr) (f_pos cw)).
  { intros w' m [[(_ & (x & s & c & C & _ & _ & A) & _)|(_ & _ & A)] _]; auto.
    destruct (A O) as (p & P & AB). eauto. }
  induction 1 as [w r H|w m r H Hm H' IH]; auto.
  destruct (ONE _ _ H) as (cw & cm & A & B & C). destruct IH as (cm' & cr & A' & B' & C').
  exists cw, cr. split; auto. split; auto. rewrite (cell_is_fun _ _ _ _ B A') in C.
  eapply above_trans; eauto.
Qed.
