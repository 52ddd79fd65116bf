Require Import List Arith Bool Lia.
Import ListNotations.
Require Import Verif.Base Verif.Loops Verif.OutModel Verif.OutSpec.

Lemma run_app : forall fuel a b s, run fuel (a ++ b) s = rbind (run fuel a s) (run fuel b).
Proof. intros fuel a. unfold run. induction a as [|x a IH]; intros b s; cbn [app rfold rbind]; auto. destruct (do fuel x s); cbn [rbind]; auto. Qed.
Lemma run_cons : forall fuel x l s, run fuel (x :: l) s = rbind (do fuel x s) (run fuel l).
Proof. reflexivity. Qed.

Lemma lset_last : forall A (R : list A) c c', lset (R ++ [c]) (length R) c' = R ++ [c'].
Proof. intros A R c c'. induction R as [|x R IH]; simpl; auto. rewrite IH. reflexivity. Qed.
Lemma nth_last : forall A (R : list A) c, nth_error (R ++ [c]) (length R) = Some c.
Proof. intros. rewrite nth_error_app2 by lia. rewrite Nat.sub_diag. reflexivity. Qed.

(** A capture is active, the number [length R], with the content [c]. *)
Definition active (o e : nat) (R : list capture) (c : capture) (s : st) : Prop :=
  sys s true = Proxy true /\ sys s false = Proxy false /\ saved s true = Real o /\ saved s false = Real e /\
  (forall name, tees s name = Some (saved s name, length R)) /\ pub s = TeePub Shows (length R) /\ save_pub s = Shows /\
  in_context s = true /\ capturing s = true /\ latest s = Some (length R) /\ recorded s = R ++ [c].

Lemma active_body : forall fuel o e body R c s,
  1 < fuel -> Forall output body -> active o e R c s ->
  exists s', run fuel body s = Ok s' /\
    active o e R (mkCap (c_out c ++ written true body) (c_err c ++ written false body) (displayed body (c_disp c))) s' /\
    shown s' = shown s ++ shows o e body.
Proof.
  intros fuel o e body R c s F B. revert c s. induction B as [|x body X B IH]; intros c s A.
  - exists s. cbn. rewrite !app_nil_r. destruct c; auto.
  - rewrite run_cons.
    assert (Q : exists s1, do fuel x s = Ok s1 /\
      active o e R (mkCap (c_out c ++ written true [x]) (c_err c ++ written false [x]) (displayed [x] (c_disp c))) s1 /\
      shown s1 = shown s ++ shows o e [x]).
    { destruct A as (S1 & S2 & S3 & S4 & T & P & V & I & C & L & K).
      destruct fuel as [|[|f]]; [lia|lia|].
      destruct x as [main name d|d| |? ?| |k|]; simpl in X; try tauto.
      - destruct main, name; cbn [do]; rewrite ?S1, ?S2; cbn [write]; rewrite ?T, ?S3, ?S4; cbn [write rmap];
          (eexists; split; [reflexivity|]); unfold on_capture; cbn [with_shown recorded]; rewrite ?K, ?nth_last, ?lset_last;
          cbn [with_recorded with_shown put c_out c_err c_disp written flat_map displayed shows shown app Bool.eqb]; rewrite ?app_nil_r;
          (split; [|reflexivity]); unfold active; cbn; rewrite ?app_nil_r; (repeat (split; [assumption|])); auto;
          destruct c; auto.
      - cbn [do]. rewrite P. cbn [publish]. eexists; split; [reflexivity|]. unfold on_capture. cbn [with_shown recorded].
        rewrite K, nth_last, lset_last. cbn. rewrite !app_nil_r. split; auto. unfold active. cbn. repeat (split; [assumption|]). auto.
      - cbn [do]. rewrite P. cbn [clear_output]. eexists; split; [reflexivity|]. unfold on_capture. cbn [with_shown recorded].
        rewrite K, nth_last, lset_last. cbn. rewrite !app_nil_r. split; auto. unfold active. cbn. repeat (split; [assumption|]). auto.
      - cbn [do]. rewrite L. eexists; split; [reflexivity|]. cbn. rewrite !app_nil_r.
        destruct c as [c1 c2 c3]. destruct (dget (captured s) k); (split; [|reflexivity]); unfold active; cbn;
          (repeat (split; [assumption|])); auto. }
    destruct Q as (s1 & E & A1 & H1). rewrite E. cbn [rbind]. destruct (IH _ _ A1) as (s2 & E2 & A2 & H2).
    exists s2. split; auto. split.
    + cbn [c_out c_err c_disp] in A2. unfold written in *. cbn [flat_map] in *. rewrite !app_nil_r in A2. rewrite <- !app_assoc in A2.
      replace (displayed (x :: body) (c_disp c)) with (displayed body (displayed [x] (c_disp c))) by (destruct x; reflexivity).
      exact A2.
    + rewrite H2, H1, <- app_assoc. unfold shows. cbn [flat_map]. rewrite app_nil_r. reflexivity.
Qed.

Lemma rest_init : forall fuel o e s, at_rest o e s ->
  exists s', do fuel Init s = Ok s' /\ active o e (recorded s) (mkCap [] [] []) s' /\ shown s' = shown s /\ captured s' = captured s.
Proof.
  intros fuel o e s (S1 & T & P & I & C). eexists. split; [reflexivity|]. unfold init_module.
  destruct S1 as [(S1 & S2)|(S1 & S2 & S3 & S4)]; rewrite S1; cbn; unfold active, enter; cbn; rewrite ?P; repeat split; auto.
Qed.

Lemma active_done : forall fuel o e R c s, active o e R c s ->
  exists s', do fuel Done s = Ok s' /\ at_rest o e s' /\ recorded s' = R ++ [c] /\ shown s' = shown s /\ latest s' = Some (length R) /\ captured s' = captured s.
Proof.
  intros fuel o e R c s (S1 & S2 & S3 & S4 & T & P & V & I & C & L & K). eexists. split; [reflexivity|].
  unfold done_capturing. rewrite C. cbn [negb]. unfold leave. cbn [in_context]. rewrite I. cbn [negb].
  unfold at_rest. cbn. split; [|auto]. split; [right; auto|]. auto.
Qed.

Lemma rest_done : forall fuel k o e s, at_rest o e s -> run fuel (repeat Done k) s = Ok s.
Proof.
  intros fuel k o e s (S1 & T & P & I & C). induction k as [|k IH]; [reflexivity|]. cbn [repeat]. rewrite run_cons. cbn [do].
  unfold done_capturing. rewrite C. exact IH.
Qed.

Lemma rest_body : forall fuel o e body s, 1 < fuel -> Forall output body -> at_rest o e s ->
  exists s', run fuel body s = Ok s' /\ at_rest o e s' /\ shown s' = shown s ++ shows o e body /\ recorded s' = recorded s.
Proof.
  intros fuel o e body s F B. revert s. induction B as [|x body X B IH]; intros s A.
  - exists s. cbn. rewrite app_nil_r. auto.
  - rewrite run_cons.
    assert (Q : exists s1, do fuel x s = Ok s1 /\ at_rest o e s1 /\ shown s1 = shown s ++ shows o e [x] /\ recorded s1 = recorded s).
    { destruct A as (S1 & T & P & I & C). destruct fuel as [|[|f]]; [lia|lia|].
      destruct x as [main name d|d| |? ?| |k|]; simpl in X; try tauto.
      - exists (with_shown (shown s ++ [OnStream (if name then o else e) d]) s). split; [|split; [|split]].
        + destruct S1 as [(S1 & S2)|(S1 & S2 & S3 & S4)]; destruct name; cbn [do]; rewrite ?S1, ?S2; cbn [write]; rewrite ?T; destruct main; rewrite ?S3, ?S4; reflexivity.
        + unfold at_rest. cbn. auto.
        + destruct name; reflexivity.
        + reflexivity.
      - cbn [do]. rewrite P. eexists; split; [reflexivity|]. unfold at_rest. cbn. repeat (split; [auto|]). auto.
      - cbn [do]. rewrite P. eexists; split; [reflexivity|]. unfold at_rest. cbn. repeat (split; [auto|]). auto.
      - cbn [do]. eexists; split; [reflexivity|]. cbn. rewrite app_nil_r.
        destruct (dget (captured s) k), (latest s); unfold at_rest; cbn; (split; [split; auto|split; auto]). }
    destruct Q as (s1 & E & A1 & H1 & H2). rewrite E. cbn [rbind]. destruct (IH _ A1) as (s2 & E2 & A2 & H3 & H4).
    exists s2. split; auto. split; auto. split; [|congruence]. rewrite H3, H1, <- app_assoc. unfold shows. cbn [flat_map]. rewrite app_nil_r. reflexivity.
Qed.

Lemma rest_cell : forall fuel o e body k s, 1 < fuel -> Forall output body -> at_rest o e s ->
  exists s', run fuel (cell body k) s = Ok s' /\ at_rest o e s' /\ shown s' = shown s ++ shows o e body /\
    recorded s' = recorded s ++ [record_of body] /\ latest s' = Some (length (recorded s)).
Proof.
  intros fuel o e body k s F B A. unfold cell. rewrite run_cons.
  destruct (rest_init fuel o e s A) as (s1 & E1 & A1 & H1 & _). rewrite E1. cbn [rbind]. rewrite run_app.
  destruct (active_body fuel o e body _ _ _ F B A1) as (s2 & E2 & A2 & H2). rewrite E2. cbn [rbind repeat]. rewrite run_cons.
  destruct (active_done fuel o e _ _ _ A2) as (s3 & E3 & A3 & R3 & H3 & L3 & _). rewrite E3. cbn [rbind].
  rewrite (rest_done fuel k o e) by auto. exists s3. split; auto. split; auto. split; [congruence|]. split; auto.
Qed.

Lemma after_body : forall fuel o e body R c s k, 1 < fuel -> Forall output body -> active o e R c s ->
  In (After k) body -> dget (captured s) k = None -> forall s', run fuel body s = Ok s' -> dget (captured s') k = Some (length R).
Proof.
  intros fuel o e body R c s k F B. revert c s.
  assert (M : forall fuel k v body s s', dget (captured s) k = Some v -> Forall output body -> run fuel body s = Ok s' -> dget (captured s') k = Some v).
  { clear. intros fuel k v body. induction body as [|x body IH]; intros s s' D B E; [injection E as <-; auto|].
    inversion B; subst. rewrite run_cons in E. destruct (proj1 (rbind_Ok _ _ _) E) as (s1 & E1 & E2). apply (IH s1); auto. clear IH E2 E B H2.
    assert (W : forall fuel main d y s s1, write fuel main d y s = Ok s1 -> captured s1 = captured s).
    { clear. intros fuel main d. induction fuel as [|f IH]; intros y s s1 H; [discriminate|]. destruct y; cbn [write] in H.
      - injection H as <-. reflexivity.
      - destruct (if main then tees s name else None) as [[y c]|]; [|eauto]. destruct (proj1 (rmap_Ok _ _ _) H) as (s2 & E2 & <-).
        unfold on_capture. destruct (nth_error _ _); cbn; eauto. }
    assert (P : forall d p s, captured (publish d p s) = captured s).
    { clear. intros d p s. induction p; cbn [publish]; auto. unfold on_capture. destruct (nth_error _ _); cbn; auto. }
    assert (L : forall p s, captured (clear_output p s) = captured s).
    { clear. intros p s. induction p; cbn [clear_output]; auto. unfold on_capture. destruct (nth_error _ _); cbn; auto. }
    destruct x as [main name d|d| |? ?| |c|]; simpl in H1; try tauto; cbn [do] in E1.
    - rewrite (W _ _ _ _ _ _ E1). auto.
    - injection E1 as <-. rewrite P. auto.
    - injection E1 as <-. rewrite L. auto.
    - injection E1 as <-. destruct (dget (captured s) c) eqn:G, (latest s); cbn; auto. rewrite dget_dset.
      destruct (Nat.eqb_spec k c) as [->|]; auto. congruence. }
  induction B as [|x body X B IH]; intros c s A I N s' E; [destruct I|]. rewrite run_cons in E.
  destruct (proj1 (rbind_Ok _ _ _) E) as (s1 & E1 & E2).
  assert (A1 : exists c1, active o e R c1 s1).
  { destruct (active_body fuel o e [x] R c s F (Forall_cons _ X (Forall_nil _)) A) as (s2 & Q & A2 & _).
    rewrite run_cons, E1 in Q. injection Q as <-. eauto. }
  destruct A1 as (c1 & A1). destruct (dget (captured s1) k) as [v|] eqn:G.
  - rewrite (M _ _ _ _ _ _ G B E2). f_equal. clear IH E2.
    assert (Z : x = After k).
    { destruct x as [main name d|d| |? ?| |j|]; simpl in X; try tauto; cbn [do] in E1.
      - exfalso. assert (Y : forall fuel main d y s s1, write fuel main d y s = Ok s1 -> captured s1 = captured s).
        { clear. intros fuel main d. induction fuel as [|f IH]; intros y s s1 H; [discriminate|]. destruct y; cbn [write] in H.
          - injection H as <-. reflexivity.
          - destruct (if main then tees s name else None) as [[y c]|]; [|eauto]. destruct (proj1 (rmap_Ok _ _ _) H) as (s2 & E2 & <-).
            unfold on_capture. destruct (nth_error _ _); cbn; eauto. }
        rewrite (Y _ _ _ _ _ _ E1) in G. congruence.
      - exfalso. destruct A as (_ & _ & _ & _ & _ & P & _). rewrite P in E1. injection E1 as <-. unfold on_capture in G.
        destruct (nth_error _ _); cbn in G; congruence.
      - exfalso. destruct A as (_ & _ & _ & _ & _ & P & _). rewrite P in E1. injection E1 as <-. unfold on_capture in G.
        destruct (nth_error _ _); cbn in G; congruence.
      - injection E1 as <-. destruct (dget (captured s) j) eqn:J, (latest s); cbn in G; try congruence. rewrite dget_dset in G.
        destruct (Nat.eqb_spec k j) as [->|]; auto. congruence. }
    subst x. cbn [do] in E1. rewrite N in E1. destruct A as (_ & _ & _ & _ & _ & _ & _ & _ & _ & L & _). rewrite L in E1.
    injection E1 as <-. cbn in G. rewrite dget_dset_same in G. congruence.
  - apply (IH _ _ A1); auto. destruct I as [->|I]; auto. exfalso. cbn [do] in E1. rewrite N in E1.
    destruct A as (_ & _ & _ & _ & _ & _ & _ & _ & _ & L & _). rewrite L in E1. injection E1 as <-. cbn in G.
    rewrite dget_dset_same in G. congruence.
Qed.
