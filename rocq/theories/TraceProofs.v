(** Lemmas about the tracer's call stack. *)
From Coq Require Import List Arith Bool Lia.
From Verif Require Import Base TraceModel TraceSpec.
Import ListNotations.

Definition levels (t : tracer) : list level := t_cur t :: t_stack t.
Definition bottom (t : tracer) : level := last (t_stack t) (t_cur t).

Definition nsees (r : list frame) : nat := length (filter (fun f => sees (f_kind f)) r).
Definition nexts (r : list frame) : nat :=
  length (filter (fun f => sees (f_kind f) && external (f_kind f)) r).

(** The levels [T] are exactly those of the frames [R]. *)
Inductive lv (p : prog) : list frame -> list level -> Prop :=
  | lv_bottom : forall f l,
      f_kind f = Cell -> f_scope f = 0 -> l_scope l = 0 -> l_udepth l = 1 -> l_ext l = 0 ->
      lv p [f] [l]
  | lv_skip : forall f R T, sees (f_kind f) = false -> lv p R T -> lv p (f :: R) T
  | lv_push : forall f R l T,
      sees (f_kind f) = true -> lv p R T -> l_scope l = f_scope f ->
      l_udepth l = depth p (f :: R) -> l_depth l = nsees (f :: R) -> l_ext l = nexts (f :: R) ->
      lv p (f :: R) (l :: T).

Lemma sees_counted k : sees k = true -> counted k = true.
Proof. destruct k; simpl; auto. Qed.

Lemma depth_cons p f R :
  depth p (f :: R) = (if counted (f_kind f) then 1 else 0) + depth p R.
Proof. unfold depth. simpl. destruct (counted (f_kind f)); simpl; lia. Qed.

Lemma depth_sees p f R : sees (f_kind f) = true -> depth p (f :: R) = S (depth p R).
Proof. intros S. rewrite depth_cons, (sees_counted _ S). reflexivity. Qed.

Lemma depth_app p R2 R1 : depth p R1 <= depth p (R2 ++ R1).
Proof.
  induction R2 as [|f R2 IH]; simpl; auto. rewrite depth_cons. lia.
Qed.

Lemma nsees_sees f R : sees (f_kind f) = true -> nsees (f :: R) = S (nsees R).
Proof. intros S. unfold nsees. simpl. rewrite S. reflexivity. Qed.

Lemma nsees_skip f R : sees (f_kind f) = false -> nsees (f :: R) = nsees R.
Proof. intros S. unfold nsees. simpl. rewrite S. reflexivity. Qed.

Lemma nexts_sees f R : sees (f_kind f) = true ->
  nexts (f :: R) = (if external (f_kind f) then 1 else 0) + nexts R.
Proof. intros S. unfold nexts. simpl. rewrite S. simpl. destruct (external (f_kind f)); reflexivity. Qed.

Lemma nexts_skip f R : sees (f_kind f) = false -> nexts (f :: R) = nexts R.
Proof. intros S. unfold nexts. simpl. rewrite S. reflexivity. Qed.

Lemma lv_frames p R T : lv p R T -> R <> [].
Proof. destruct 1; discriminate. Qed.

Lemma lv_levels p R T : lv p R T -> T <> [].
Proof. induction 1; auto; discriminate. Qed.

Lemma lv_scopes p R T : lv p R T ->
  map l_scope T = map f_scope (filter (fun f => sees (f_kind f)) R).
Proof.
  induction 1 as [f l K S L U E|f R T S V IH|f R l T S V IH L U D E]; simpl.
  - rewrite K. simpl. congruence.
  - rewrite S. exact IH.
  - rewrite S. simpl. congruence.
Qed.

Lemma lv_nsees p R T : lv p R T -> nsees R = length T.
Proof.
  intros V. unfold nsees. rewrite <- (map_length f_scope), <- (lv_scopes p R T V). apply map_length.
Qed.

Lemma lv_depth p R T : lv p R T -> forall l, In l T -> l_udepth l <= depth p R.
Proof.
  induction 1 as [f l K S L U E|f R T S V IH|f R l T S V IH L U D E]; intros l' I.
  - destruct I as [<-|[]]. rewrite U. unfold depth. simpl. rewrite K. simpl. lia.
  - apply IH in I. rewrite depth_cons. lia.
  - destruct I as [<-|I]; [lia|]. apply IH in I. rewrite depth_cons. lia.
Qed.

Lemma lv_inv_skip p f R T : lv p (f :: R) T -> sees (f_kind f) = false -> lv p R T.
Proof.
  intros V S. inversion V; subst; auto; try congruence.
  match goal with H : f_kind f = Cell |- _ => rewrite H in S; discriminate S end.
Qed.

Lemma lv_inv_push p f R T : lv p (f :: R) T -> sees (f_kind f) = true -> R <> [] ->
  exists l T', T = l :: T' /\ lv p R T' /\ l_udepth l = depth p (f :: R) /\
    l_depth l = nsees (f :: R) /\ l_ext l = nexts (f :: R) /\ l_scope l = f_scope f.
Proof.
  intros V S N. inversion V; subst; auto; try congruence.
  exists l, T0. repeat apply conj; auto.
Qed.

Lemma lv_inv_one p f T : lv p [f] T ->
  f_kind f = Cell /\ f_scope f = 0 /\
  exists l, T = [l] /\ l_scope l = 0 /\ l_udepth l = 1 /\ l_ext l = 0.
Proof.
  intros V. inversion V as [f' l K S L U E|f' R T' S V'|f' R l T' S V']; subst.
  - repeat apply conj; auto. exists l. auto.
  - exfalso. apply lv_frames in V'. congruence.
  - exfalso. apply lv_frames in V'. congruence.
Qed.

Lemma lv_bottom_scope p R T d : lv p R T -> l_scope (last T d) = 0.
Proof.
  induction 1 as [f l K S L U E|f R T S V IH|f R l T S V IH L U D E]; auto.
  destruct T as [|l' T']; [|exact IH]. exfalso. apply (lv_levels _ _ _ V). reflexivity.
Qed.

(** ** Scanning and popping *)

Lemma lowest_none c ls : forall i, (forall l, In l ls -> l_udepth l < c) -> lowest c ls i = None.
Proof.
  induction ls as [|l ls IH]; intros i H; simpl; auto.
  pose proof (H l (or_introl eq_refl)) as L.
  destruct (Nat.leb_spec c (l_udepth l)); [lia|]. apply IH. intros l' I. apply H. right. exact I.
Qed.

Lemma lowest_at c pre l post : forall i,
  (forall l', In l' pre -> l_udepth l' < c) -> c <= l_udepth l ->
  lowest c (pre ++ l :: post) i = Some (i + length pre).
Proof.
  induction pre as [|a pre IH]; intros i H L; simpl.
  - destruct (Nat.leb_spec c (l_udepth l)); [|lia]. f_equal. lia.
  - pose proof (H a (or_introl eq_refl)) as A.
    destruct (Nat.leb_spec c (l_udepth a)); [lia|].
    rewrite IH; auto; [f_equal; lia|]. intros l' I. apply H. right. exact I.
Qed.

Lemma pop_to_all T2 : forall c s l T', c :: s = T2 ++ l :: T' -> pop_to (length T') c s = (l, T').
Proof.
  induction T2 as [|a T2 IH]; intros c s l T' E; simpl in E.
  - injection E as -> ->. destruct T' as [|b T']; simpl; auto.
    rewrite Nat.leb_refl. reflexivity.
  - injection E as -> ->. destruct (T2 ++ l :: T') as [|b s'] eqn:Q.
    + destruct T2; discriminate Q.
    + cbn [pop_to]. destruct (Nat.leb_spec (length (b :: s')) (length T')) as [B|B].
      * exfalso. rewrite <- Q, app_length in B. simpl in B. lia.
      * apply IH. symmetry. exact Q.
Qed.

Lemma last_any (s : list level) : forall d d', s <> [] -> last s d = last s d'.
Proof. induction s as [|a s IH]; intros d d' N; [congruence|]. destruct s; auto. apply IH. discriminate. Qed.

Lemma pop_to_0 c s : pop_to 0 c s = (last s c, []).
Proof.
  revert c. induction s as [|a s IH]; intros c; auto.
  cbn [pop_to]. change (length (a :: s) <=? 0) with false. cbn iota.
  rewrite IH. f_equal. destruct s as [|b s]; auto.
  change (last (b :: s) a = last (b :: s) c). apply last_any. discriminate.
Qed.

Lemma last_cons (c : level) s : last (c :: s) c = last s c.
Proof. destruct s; reflexivity. Qed.

Lemma bottom_levels t d : last (levels t) d = bottom t.
Proof.
  unfold levels, bottom. destruct (t_stack t) as [|b s]; auto.
  change (last (b :: s) d = last (b :: s) (t_cur t)). apply last_any. discriminate.
Qed.

Lemma top_is_bottom t :
  match rev (t_stack t) with [] => l_prev (t_cur t) | l :: _ => l_prev l end = l_prev (bottom t).
Proof.
  unfold bottom. destruct (rev (t_stack t)) as [|l ls] eqn:E.
  - apply (f_equal (@rev level)) in E. rewrite rev_involutive in E. rewrite E. reflexivity.
  - apply (f_equal (@rev level)) in E. rewrite rev_involutive in E. simpl in E. rewrite E.
    rewrite last_last. reflexivity.
Qed.

Definition fin (t : tracer) : Prop := exists s, l_prev (bottom t) = Some s /\ In s (t_done t).

Lemma length_for_fin p r t : fin t -> length_for p r t = Ok None.
Proof.
  intros (s & P & I). unfold length_for. rewrite top_is_bottom, P.
  apply memb_In in I. rewrite I.
  destruct (match t_off t with None => true | Some d => d <? depth p r end); reflexivity.
Qed.

Lemma length_for_known p r t T2 l T' d :
  levels t = T2 ++ l :: T' -> t_off t = Some d -> depth p r <= d ->
  depth p r <= l_udepth l -> (forall l', In l' T' -> l_udepth l' < depth p r) ->
  length_for p r t =
    match l_prev (bottom t) with
    | None => Err AttributeError
    | Some s => if memb s (t_done t) then Ok None else Ok (Some (length T'))
    end.
Proof.
  intros E O D L B. unfold length_for. rewrite O, top_is_bottom.
  destruct (Nat.ltb_spec d (depth p r)); [lia|].
  destruct (l_prev (bottom t)) as [s|]; auto. destruct (memb s (t_done t)); auto.
  unfold levels in E. destruct T2 as [|a T2]; simpl in E.
  - injection E as E1 E2. rewrite E1, E2.
    rewrite lowest_none; [|intros l' I; apply in_rev in I; auto].
    destruct (Nat.leb_spec (depth p r) (l_udepth l)); [reflexivity|lia].
  - injection E as E1 E2. rewrite E2, rev_app_distr. simpl. rewrite <- app_assoc. simpl.
    rewrite lowest_at; auto; [|intros l' I; apply in_rev in I; auto].
    rewrite rev_length. reflexivity.
Qed.

Lemma length_for_unknown p r t :
  (forall l, In l (levels t) -> l_udepth l < depth p r) ->
  length_for p r t = Ok None \/ length_for p r t = Err AttributeError.
Proof.
  intros B. unfold length_for.
  destruct (match t_off t with None => true | Some d => d <? depth p r end); auto.
  destruct (match rev (t_stack t) with [] => l_prev (t_cur t) | l :: _ => l_prev l end) as [s|]; auto.
  destruct (memb s (t_done t)); auto.
  rewrite lowest_none; [|intros l I; apply B; right; apply in_rev; auto].
  destruct (Nat.leb_spec (depth p r) (l_udepth (t_cur t))) as [L|L]; auto.
  exfalso. pose proof (B (t_cur t) (or_introl eq_refl)). lia.
Qed.

(** ** The invariant *)

Definition known (t : tracer) : Prop := t_stack t <> [] -> l_prev (bottom t) <> None.

Definition exact (p : prog) (R : list frame) (t : tracer) : Prop :=
  (R = [] /\ (exists l, levels t = [l] /\ l_scope l = 0 /\ l_udepth l = 1 /\ l_ext l = 0) /\
     t_depth t = 0 /\ t_ext t = 0) \/
  (lv p R (levels t) /\ t_depth t = nsees R /\ t_ext t = nexts R).

Definition behind (p : prog) (R : list frame) (t : tracer) (u : bool) : Prop :=
  (R = [] /\ u = true) \/
  exists R2 R1 T2 T1 d,
    R = R2 ++ R1 /\ levels t = T2 ++ T1 /\ lv p R1 T1 /\
    t_off t = Some d /\ depth p R1 <= d /\
    (forall f, In f R2 -> ~ In (f_scope f) (map l_scope (levels t))) /\
    (T2 = [] \/ fin t \/ (u = true /\ R2 = [])).

Definition fresh (w : world) : Prop :=
  0 < w_next w /\
  forall l, In l (levels (w_tracer w)) -> l_scope l < w_next w.

Definition inv (p : prog) (w : world) (u : bool) : Prop :=
  fresh w /\ known (w_tracer w) /\
  (if t_on (w_tracer w) then exact p (w_frames w) (w_tracer w)
   else behind p (w_frames w) (w_tracer w) u).

(** How a tracer may change without touching levels, depths and the switch. *)
Definition same (t t' : tracer) : Prop :=
  levels t' = levels t /\ t_on t' = t_on t /\ t_depth t' = t_depth t /\ t_ext t' = t_ext t /\
  t_off t' = t_off t /\ incl (t_done t) (t_done t').

Lemma same_refl t : same t t.
Proof. repeat apply conj; auto. apply incl_refl. Qed.

Lemma same_trans t1 t2 t3 : same t1 t2 -> same t2 t3 -> same t1 t3.
Proof.
  intros (A & B & C & D & E & F) (A' & B' & C' & D' & E' & F').
  repeat apply conj; try congruence. intros x I. auto.
Qed.

Lemma same_finish s t : same t (finish s t).
Proof.
  unfold finish. destruct (memb s (t_done t)); [apply same_refl|].
  repeat apply conj; auto. intros x I. right. exact I.
Qed.

Lemma same_event s k t : same t (set_event s k t).
Proof. repeat apply conj; auto. apply incl_refl. Qed.

Lemma same_bottom t t' : same t t' -> bottom t' = bottom t.
Proof.
  intros (A & _). rewrite <- (bottom_levels t' (t_cur t)), <- (bottom_levels t (t_cur t)), A. reflexivity.
Qed.

Lemma same_stack t t' : same t t' -> t_stack t' = t_stack t /\ t_cur t' = t_cur t.
Proof. intros (A & _). unfold levels in A. injection A as A B. auto. Qed.

Lemma same_fin t t' : same t t' -> fin t -> fin t'.
Proof.
  intros S (s & P & I). exists s. rewrite (same_bottom _ _ S). split; auto. apply S. exact I.
Qed.

Lemma same_known t t' : same t t' -> known t -> known t'.
Proof.
  intros S K. unfold known in *. rewrite (same_bottom _ _ S). destruct (same_stack _ _ S) as [-> _]. exact K.
Qed.

Lemma same_exact p R t t' : same t t' -> exact p R t -> exact p R t'.
Proof.
  intros (A & B & C & D & E & F). unfold exact. rewrite A, C, D. auto.
Qed.

Lemma same_behind p R t t' u : same t t' -> behind p R t u -> behind p R t' u.
Proof.
  intros S. pose proof S as (A & B & C & D & E & F).
  intros [H|(R2 & R1 & T2 & T1 & d & H1 & H2 & H3 & H4 & H5 & H6 & H7)]; [left; auto|right].
  exists R2, R1, T2, T1, d. rewrite A, E. repeat apply conj; auto.
  destruct H7 as [H7|[H7|H7]]; auto. right. left. apply (same_fin _ _ S H7).
Qed.

Lemma same_inv p R n t t' u :
  same t t' -> inv p {| w_frames := R; w_next := n; w_tracer := t |} u ->
  inv p {| w_frames := R; w_next := n; w_tracer := t' |} u.
Proof.
  intros S ((F0 & F) & K & B). pose proof S as (A & O & _). split; [|split].
  - split; auto. change (forall l, In l (levels t') -> l_scope l < n). rewrite A. exact F.
  - apply (same_known _ _ S K).
  - simpl in *. rewrite O. destruct (t_on t).
    + apply (same_exact p R _ _ S B).
    + apply (same_behind p R _ _ u S B).
Qed.

(** ** Noting the last started statement *)

Lemma lv_prev p s : forall R T, lv p R T -> forall l T', T = l :: T' -> lv p R (with_prev s l :: T').
Proof.
  induction 1 as [f l K S L U E|f R T S V IH|f R l T S V IH L U D E]; intros l0 T0 Q.
  - injection Q as <- <-. apply lv_bottom; auto.
  - apply lv_skip; auto.
  - injection Q as <- <-. apply lv_push; auto.
Qed.

Definition note (s : nat) (t : tracer) : tracer :=
  set_levels (with_prev s (t_cur t)) (t_stack t) t.

Lemma scopes_note s t : map l_scope (levels (note s t)) = map l_scope (levels t).
Proof. reflexivity. Qed.

Lemma bottom_note s t : t_stack t <> [] -> bottom (note s t) = bottom t.
Proof. intros N. unfold bottom. simpl. apply last_any. exact N. Qed.

Lemma note_inv p R n t u s :
  inv p {| w_frames := R; w_next := n; w_tracer := t |} u ->
  inv p {| w_frames := R; w_next := n; w_tracer := note s t |} u.
Proof.
  intros ((F0 & F) & K & B). split; [|split].
  - split; auto. intros l [<-|I]; simpl; [|apply F; right; exact I].
    apply (F (t_cur t)). left. reflexivity.
  - intros N. simpl in *. rewrite bottom_note; auto.
  - simpl in *. destruct (t_on t).
    + destruct B as [(A & (l & E & H) & D)|(V & D)].
      * left. split; [exact A|split; [|exact D]].
        unfold levels in E. injection E as E1 E2. exists (with_prev s l).
        unfold levels, note. simpl. rewrite E1, E2. auto.
      * right. split; [|exact D]. apply (lv_prev p s _ _ V). reflexivity.
    + destruct B as [H|(R2 & R1 & T2 & T1 & d & H1 & H2 & H3 & H4 & H5 & H6 & H7)]; [left; auto|right].
      destruct T2 as [|a T2].
      * exists R2, R1, [], (levels (note s t)), d. simpl in H2.
        repeat apply conj; auto. apply (lv_prev p s _ _ H3). symmetry. exact H2.
      * exists R2, R1, (with_prev s (t_cur t) :: T2), T1, d.
        unfold levels in H2. simpl in H2. injection H2 as E1 E2.
        repeat apply conj; auto.
        -- unfold levels, note. simpl. rewrite E2. reflexivity.
        -- destruct H7 as [H7|[H7|H7]]; [discriminate H7| |auto].
           right. left. destruct H7 as (q & P & I). exists q. rewrite bottom_note; auto.
           rewrite E2. intros Q. apply (lv_levels _ _ _ H3). destruct T2; [exact Q|discriminate Q].
Qed.

(** ** Switching tracing on again *)

Lemma inv_on p R n t u :
  inv p {| w_frames := R; w_next := n; w_tracer := t |} u -> t_on t = true -> exact p R t.
Proof. intros (_ & _ & B) O. simpl in B. rewrite O in B. exact B. Qed.

Lemma inv_off p R n t u :
  inv p {| w_frames := R; w_next := n; w_tracer := t |} u -> t_on t = false -> behind p R t u.
Proof. intros (_ & _ & B) O. simpl in B. rewrite O in B. exact B. Qed.

(** What [reenable] does to the state. *)
Definition restored (d : nat) (l : level) (s : list level) (t : tracer) : tracer :=
  set_on true None (set_depths d (l_ext l) (set_levels l s t)).

Lemma last_in (s : list level) d : In (last s d) (d :: s).
Proof.
  induction s as [|a s IH]; [left; reflexivity|].
  destruct s as [|b s]; [right; left; reflexivity|].
  change (In (last (b :: s) d) (d :: a :: b :: s)).
  destruct IH as [Q|I]; [left; exact Q|right; right; exact I].
Qed.

Lemma app_last (a b : list level) d : b <> [] -> last (a ++ b) d = last b d.
Proof.
  intros N. induction a as [|x a IH]; auto. simpl.
  destruct (a ++ b) as [|y q] eqn:E; [|exact IH].
  apply app_eq_nil in E. destruct E. contradiction.
Qed.

Lemma restored_inv p R n t u d l T' T2 :
  fresh {| w_frames := R; w_next := n; w_tracer := t |} -> known t ->
  levels t = T2 ++ l :: T' -> lv p R (l :: T') -> d = nsees R -> l_ext l = nexts R ->
  inv p {| w_frames := R; w_next := n; w_tracer := restored d l T' t |} u.
Proof.
  intros (F0 & F) K E V D X. split; [|split].
  - split; auto. intros l' I. apply F. change (In l' (levels t)). rewrite E. apply in_or_app. right. exact I.
  - intros N. change (t_stack (w_tracer {| w_frames := R; w_next := n; w_tracer := restored d l T' t |}))
      with T' in N.
    assert (Q : bottom (restored d l T' t) = bottom t).
    { rewrite <- (bottom_levels _ l), <- (bottom_levels t l), E.
      rewrite app_last; [reflexivity|discriminate]. }
    simpl. rewrite Q. apply K. intros Z. unfold levels in E. rewrite Z in E.
    destruct T2 as [|a [|b T2]]; destruct T' as [|c T']; simpl in E; try discriminate; auto.
  - simpl. right. repeat apply conj; auto.
Qed.

Section base0.
Context (p : prog) (base : p_base p = 0).

Lemma depth_one f : f_kind f = Cell -> depth p [f] = 1.
Proof. intros K. unfold depth. simpl. rewrite K, base. reflexivity. Qed.

Lemma lv_below f R l T : lv p (f :: R) (l :: T) -> sees (f_kind f) = true ->
  l_udepth l = depth p (f :: R) /\ (forall l', In l' T -> l_udepth l' < depth p (f :: R)) /\
  l_ext l = nexts (f :: R) /\
  ((R = [] /\ T = []) \/ (T <> [] /\ l_depth l = nsees (f :: R))).
Proof.
  intros V S. destruct R as [|g R].
  - destruct (lv_inv_one _ _ _ V) as (K & _ & l' & Q & _ & U & X). injection Q as -> ->.
    rewrite depth_one by exact K. unfold nexts. simpl. rewrite K. simpl.
    repeat apply conj; auto. intros l [].
  - destruct (lv_inv_push _ _ _ _ V S) as (l' & T' & Q & V' & U & D & X & _); [discriminate|].
    injection Q as <- <-. repeat apply conj; auto.
    + intros l' I. apply (lv_depth _ _ _ V') in I. rewrite depth_sees by exact S. lia.
    + right. split; auto. apply (lv_levels _ _ _ V').
Qed.

(** Trying to switch tracing on in a frame that emits events. *)
Lemma reenable_inv R n t u e i :
  inv p {| w_frames := R; w_next := n; w_tracer := t |} u -> t_on t = false ->
  (exists f r, R = f :: r /\ sees (f_kind f) = true) ->
  (i = true -> exists f, R = [f]) ->
  ((exists f, R = [f]) -> i = true -> e = Some 1) ->
  ((exists f, R = [f]) -> i = false -> e = Some 1 \/ fin t) ->
  (exists b t', reenable p R e i t = Ok (b, t') /\
     t_on t' = b /\ (b = false -> t' = t) /\ (i = true -> b = true) /\
     inv p {| w_frames := R; w_next := n; w_tracer := t' |} false) \/
  (reenable p R e i t = Err AttributeError /\
     inv p {| w_frames := R; w_next := n; w_tracer := t |} false).
Proof.
  intros I O (f & r & -> & S) I1 E1 E2.
  pose proof I as (F & K & _). pose proof (inv_off _ _ _ _ _ I O) as B.
  destruct B as [(Q & _)|(R2 & R1 & T2 & T1 & d & H1 & H2 & H3 & H4 & H5 & H6 & H7)];
    [discriminate Q|].
  assert (W : fin t -> inv p {| w_frames := f :: r; w_next := n; w_tracer := t |} false).
  { intros N. split; [exact F|split; [exact K|]]. simpl. rewrite O. right.
    exists R2, R1, T2, T1, d. repeat apply conj; auto. }
  destruct R2 as [|g R2].
  - (* the running frame is one the tracer knows *)
    simpl in H1. subst R1. destruct T1 as [|l T']; [exfalso; apply (lv_levels _ _ _ H3); auto|].
    destruct (lv_below _ _ _ _ H3 S) as (U & L & X & Z).
    pose proof (length_for_known p (f :: r) t T2 l T' d H2 H4 H5 (Nat.eq_le_incl _ _ (eq_sym U)) L) as LF.
    unfold reenable. rewrite LF.
    destruct (l_prev (bottom t)) as [s|] eqn:P.
    + destruct (memb s (t_done t)) eqn:M.
      * (* the top level statement is finished *)
        apply memb_In in M. assert (N : fin t) by (exists s; auto).
        left. destruct i; simpl.
        -- destruct (I1 eq_refl) as (f' & Q). injection Q as <- ->.
           destruct Z as [(_ & ->)|(Z & _)];
             [|exfalso; destruct (lv_inv_one _ _ _ H3) as (_ & _ & l' & Q & _); injection Q as _ Q; auto].
           pose proof (pop_to_all T2 (t_cur t) (t_stack t) l [] H2) as PT. simpl length in PT. rewrite PT.
           rewrite (E1 (ex_intro _ f eq_refl) eq_refl).
           exists true, (restored 1 l [] t). refine (conj eq_refl (conj eq_refl (conj _ (conj _ _)))); auto; try discriminate.
           apply (restored_inv p _ n t false 1 l [] T2 F K H2 H3); auto.
           destruct (lv_inv_one _ _ _ H3) as (C & _). unfold nsees. simpl. rewrite C. reflexivity.
        -- exists false, t. refine (conj eq_refl (conj O (conj _ (conj _ _)))); auto; try discriminate.
      * left. simpl. rewrite andb_false_r.
        rewrite (pop_to_all T2 (t_cur t) (t_stack t) l T' H2).
        destruct Z as [(-> & ->)|(Z & D)].
        -- assert (Q : e = Some 1).
           { destruct i; [apply E1; eauto|]. destruct (E2 (ex_intro _ f eq_refl) eq_refl) as [Q|N]; auto.
             exfalso. destruct N as (q & P' & J). rewrite P in P'. injection P' as <-.
             apply memb_In in J. congruence. }
           rewrite Q. exists true, (restored 1 l [] t). refine (conj eq_refl (conj eq_refl (conj _ (conj _ _)))); auto; try discriminate.
           apply (restored_inv p _ n t false 1 l [] T2 F K H2 H3); auto.
           destruct (lv_inv_one _ _ _ H3) as (C & _). unfold nsees. simpl. rewrite C. reflexivity.
        -- exists true, (restored (l_depth l) l T' t). destruct T' as [|a T']; [congruence|].
           refine (conj eq_refl (conj eq_refl (conj _ (conj _ _)))); auto; try discriminate.
           apply (restored_inv p _ n t false (l_depth l) l (a :: T') T2 F K H2 H3); auto.
    + right. split; [reflexivity|].
      split; [exact F|split; [exact K|]]. simpl. rewrite O. right.
      exists [], (f :: r), T2, (l :: T'), d. repeat apply conj; auto.
      destruct T2 as [|a T2]; auto. exfalso.
      assert (N : t_stack t <> []).
      { intros N. unfold levels in H2. rewrite N in H2. destruct T2; discriminate H2. }
      apply (K N). exact P.
  - (* a frame entered while tracing was off *)
    simpl in H1. injection H1 as <- H1.
    assert (A : i = false).
    { destruct i; auto. destruct (I1 eq_refl) as (f' & Q). injection Q as _ Q.
      exfalso. rewrite Q in H1. destruct R2; [|discriminate H1].
      apply (lv_frames _ _ _ H3). symmetry. exact H1. }
    subst i.
    assert (N : length_for p (f :: r) t = Ok None \/ length_for p (f :: r) t = Err AttributeError).
    { destruct H7 as [H7|[H7|(_ & H7)]]; [| |discriminate H7].
      - apply length_for_unknown. intros l J. rewrite H2, H7 in J. simpl in J.
        apply (lv_depth _ _ _ H3) in J. rewrite depth_sees by exact S.
        pose proof (depth_app p R2 R1) as M. rewrite <- H1 in M. lia.
      - left. apply length_for_fin. exact H7. }
    assert (W' : inv p {| w_frames := f :: r; w_next := n; w_tracer := t |} false).
    { split; [exact F|split; [exact K|]]. simpl. rewrite O. right.
      exists (f :: R2), R1, T2, T1, d. repeat apply conj; auto.
      - rewrite H1. reflexivity.
      - destruct H7 as [H7|[H7|(_ & H7)]]; auto. discriminate H7. }
    unfold reenable. destruct N as [N|N]; rewrite N; simpl.
    + left. exists false, t. refine (conj eq_refl (conj O (conj _ (conj _ _)))); auto; try discriminate.
    + right. auto.
Qed.

Lemma inv_any R n t u u' :
  inv p {| w_frames := R; w_next := n; w_tracer := t |} u -> t_on t = true ->
  inv p {| w_frames := R; w_next := n; w_tracer := t |} u'.
Proof.
  intros (F & K & B) O. split; [exact F|split; [exact K|]]. simpl in *. rewrite O in *. exact B.
Qed.

Lemma exact_one f t : exact p [f] t -> t_stack t = [].
Proof.
  intros [(Q & _)|(V & _)]; [discriminate Q|].
  destruct (lv_inv_one _ _ _ V) as (_ & _ & l & Q & _). unfold levels in Q. injection Q as _ Q. exact Q.
Qed.

(** The part of after_stmt that runs with tracing on. *)
Definition finish_stmt (s : nat) (t : tracer) : tracer :=
  if memb s (t_done t) then t else set_event s KAfter (check_prev p KAfter s false t).

Lemma finish_stmt_same R s t :
  exact p R t -> (p_initial p s = true -> exists f, R = [f]) -> same t (finish_stmt s t).
Proof.
  intros X I. unfold finish_stmt. destruct (memb s (t_done t)); [apply same_refl|].
  eapply same_trans; [|apply same_event].
  unfold check_prev. destruct (p_initial p s) eqn:P.
  - destruct (I eq_refl) as (f & ->). rewrite (exact_one _ _ X). simpl pop_to. cbn iota beta.
    eapply same_trans; [|apply same_finish].
    repeat apply conj; auto; [|apply incl_refl]. unfold levels. simpl. rewrite (exact_one _ _ X). reflexivity.
  - apply same_finish.
Qed.

Lemma after_stmt_inv R n t u s :
  inv p {| w_frames := R; w_next := n; w_tracer := t |} u ->
  (exists f r, R = f :: r /\ sees (f_kind f) = true) ->
  (p_initial p s = true -> exists f, R = [f]) ->
  inv p {| w_frames := R; w_next := n; w_tracer := after_stmt p R s t |} false /\
  (t_on t = true -> t_on (after_stmt p R s t) = true) /\
  (t_on t = false -> p_initial p s = true -> l_prev (bottom t) <> None ->
     t_on (after_stmt p R s t) = true).
Proof.
  intros I S Q. unfold after_stmt. fold (finish_stmt s t).
  destruct (t_on t) eqn:O.
  - pose proof (finish_stmt_same R s t (inv_on _ _ _ _ _ I O) Q) as M.
    split; [|split; [|discriminate]].
    + apply (same_inv _ _ _ _ _ _ M). apply (inv_any _ _ _ _ _ I O).
    + intros _. destruct M as (_ & M & _). congruence.
  - destruct (reenable_inv R n t u (Some 1) (p_initial p s) I O S Q) as
      [(b & t' & E & B & N & J & V)|(E & V)]; auto; rewrite E.
    + destruct b.
      * fold (finish_stmt s t').
        pose proof (finish_stmt_same R s t' (inv_on _ _ _ _ _ V B) Q) as M.
        split; [|split].
        -- apply (same_inv _ _ _ _ _ _ M V).
        -- discriminate.
        -- intros _ _ _. destruct M as (_ & M & _). congruence.
      * rewrite (N eq_refl) in V. split; [exact V|split; [discriminate|]].
        intros _ P _. apply J in P. discriminate P.
    + split; [exact V|split; [discriminate|]]. intros _ P L. exfalso.
      unfold reenable in E. destruct (length_for p R t) as [m|er] eqn:LF.
      * simpl in E. rewrite P in E. simpl in E.
        destruct (pop_to match m with Some i => i | None => 0 end (t_cur t) (t_stack t)); discriminate E.
      * unfold length_for in LF. rewrite top_is_bottom in LF.
        destruct (match t_off t with None => true | Some d => d <? depth p R end); [discriminate LF|].
        destruct (l_prev (bottom t)) as [q|]; [|congruence].
        destruct (memb q (t_done t)); [discriminate LF|].
        destruct (lowest (depth p R) (rev (t_stack t)) 0); [discriminate LF|].
        destruct (depth p R <=? l_udepth (t_cur t)); discriminate LF.
Qed.

Lemma after_call_inv R n t u :
  inv p {| w_frames := R; w_next := n; w_tracer := t |} u ->
  (exists f r, R = f :: r /\ sees (f_kind f) = true) ->
  inv p {| w_frames := R; w_next := n; w_tracer := after_call p R t |} false.
Proof.
  intros I S. unfold after_call. destruct (t_on t) eqn:O; [apply (inv_any _ _ _ _ _ I O)|].
  destruct (reenable_inv R n t u (Some 1) false I O S) as
    [(b & t' & E & B & N & J & V)|(E & V)]; auto; try discriminate; rewrite E; exact V.
Qed.

Lemma inv_wit (w : world) u :
  inv p w u <-> inv p {| w_frames := w_frames w; w_next := w_next w; w_tracer := w_tracer w |} u.
Proof. destruct w. reflexivity. Qed.

Lemma before_stmt_inv w u s :
  inv p w u -> possible p w (EBefore s) -> tame p w u (EBefore s) ->
  inv p {| w_frames := w_frames w; w_next := w_next w;
           w_tracer := before_stmt p (w_frames w) s (w_tracer w) |}
        (u && memb s (t_done (w_tracer w))).
Proof.
  intros I ((f & r & RF & S) & IT) (H1 & H2). destruct w as [R n t]. simpl in *.
  unfold before_stmt. destruct (memb s (t_done t)) eqn:M; [rewrite andb_true_r; exact I|].
  rewrite andb_false_r.
  unfold off, top_level, finished, last_started in *. simpl in *.
  assert (SS : exists f r, R = f :: r /\ sees (f_kind f) = true) by eauto.
  set (t1 := match l_prev (t_cur t) with
             | Some q => if p_header p q then after_stmt p R q t else t
             | None => t end).
  assert (A : inv p {| w_frames := R; w_next := n; w_tracer := t1 |} u /\
              (t_on t1 = false -> (exists f, R = [f]) -> False)).
  { unfold t1. destruct (l_prev (t_cur t)) as [q|] eqn:Q.
    - destruct (p_header p q) eqn:P.
      + destruct (after_stmt_inv R n t u q I SS (H2 q eq_refl P)) as (V & O1 & O2). split.
        * destruct V as (F & K & B). split; [exact F|split; [exact K|]]. simpl in *.
          destruct (t_on (after_stmt p R q t)); [exact B|].
          destruct B as [(_ & Z)|(R2 & R1 & T2 & T1 & d & G1 & G2 & G3 & G4 & G5 & G6 & G7)];
            [discriminate Z|right].
          exists R2, R1, T2, T1, d. repeat apply conj; auto.
          destruct G7 as [G7|[G7|(Z & _)]]; auto. discriminate Z.
        * intros Z TL. destruct (t_on t) eqn:O; [rewrite O1 in Z by auto; discriminate Z|].
          destruct (H1 eq_refl TL) as (q' & Q' & _ & P').
          { intros Z'. apply memb_In in Z'. congruence. }
          injection Q' as <-. rewrite O2 in Z; auto; [discriminate Z|].
          intros L. destruct I as (_ & K & _). simpl in K.
          destruct (t_stack t) as [|a st] eqn:ST.
          -- unfold bottom in L. rewrite ST in L. simpl in L. congruence.
          -- apply K; [rewrite ST; discriminate|exact L].
      + split; auto. intros O TL. destruct (H1 O TL) as (q' & Q' & P' & _).
        { intros Z'. apply memb_In in Z'. congruence. }
        injection Q' as <-. congruence.
    - split; auto. intros O TL. destruct (H1 O TL) as (q' & Q' & P' & _).
      { intros Z'. apply memb_In in Z'. congruence. }
      discriminate Q'. }
  clearbody t1. destruct A as (A & NT).
  pose proof (note_inv p R n t1 u s A) as A2.
  change (set_levels (with_prev s (t_cur t1)) (t_stack t1) t1) with (note s t1).
  change (t_on (note s t1)) with (t_on t1).
  destruct (t_on t1) eqn:O; [apply (inv_any R n (note s t1) u false A2 O)|].
  assert (NR : ~ exists f, R = [f]) by (intros TL; apply (NT eq_refl TL)).
  assert (PI : p_initial p s = false).
  { destruct (p_initial p s); auto. exfalso. apply NR. apply IT. reflexivity. }
  rewrite PI.
  destruct (reenable_inv R n (note s t1) u None false A2 O SS) as
    [(b & t' & E & B & N & J & V)|(E & V)]; try discriminate; try tauto; rewrite E; exact V.
Qed.

Lemma disable_inv R n t u :
  inv p {| w_frames := R; w_next := n; w_tracer := t |} u -> R <> [] ->
  inv p {| w_frames := R; w_next := n; w_tracer := disable p R t |} u.
Proof.
  intros I NE. unfold disable. destruct (t_on t) eqn:O; [|exact I].
  pose proof (inv_on _ _ _ _ _ I O) as [(Q & _)|(V & D & X)]; [contradiction|].
  destruct I as (F & K & _). split; [exact F|split; [exact K|]]. simpl. right.
  exists [], R, [], (levels t), (depth p R). repeat apply conj; auto.
Qed.

Lemma call_inv w u k s seen :
  inv p w u -> possible p w (ECall k s seen) -> tame p w u (ECall k s seen) -> inv p (step p w (ECall k s seen)) u.
Proof.
  intros I (KC & LS) U. destruct w as [R n t]. simpl in *. unfold last_started in LS. simpl in LS.
  pose proof I as ((F0 & F) & K & _). cbn [w_next w_tracer w_frames] in *.
  set (f := {| f_scope := match R with [] => 0 | _ :: _ => n end; f_kind := k |}).
  assert (NS : forall t', levels t' = levels t ->
    fresh {| w_frames := f :: R; w_next := S n; w_tracer := t' |}).
  { intros t' E. split; simpl; [lia|]. intros l J. change (In l (levels t')) in J. rewrite E in J.
    apply F in J. lia. }
  destruct (t_on t) eqn:O.
  - pose proof (inv_on _ _ _ _ _ I O) as X. simpl.
    destruct (sees k) eqn:S.
    + (* the tracer gets the event *)
      change (inv p {| w_frames := f :: R; w_next := Datatypes.S n;
                       w_tracer := on_call p R f s seen t |} u).
      unfold on_call. cbv zeta. change (f_kind f) with k.
      set (t1 := set_depths (Datatypes.S (t_depth t)) (t_ext t + (if external k then 1 else 0)) t).
      change (t_depth t1) with (Datatypes.S (t_depth t)).
      destruct X as [(-> & (l & E & L1 & L2 & L3) & D & X)|(V & D & X)].
      * (* frame of a top level statement *)
        assert (KK : k = Cell) by (apply KC; reflexivity).
        rewrite D. change (1 =? 1) with true. cbn iota.
        split; [apply NS; reflexivity|split; [exact K|]].
        simpl. rewrite O. right. change (levels t1) with (levels t). rewrite E.
        change (t_depth t1) with (Datatypes.S (t_depth t)).
        change (t_ext t1) with (t_ext t + (if external k then 1 else 0)).
        rewrite D, X. split; [apply lv_bottom; auto|].
        unfold nsees, nexts. simpl. rewrite KK. simpl. auto.
      * assert (NE : R <> []) by apply (lv_frames _ _ _ V).
        assert (FS : f_scope f = n) by (unfold f; destruct R; [congruence|reflexivity]).
        assert (G : Datatypes.S (t_depth t) =? 1 = false).
        { apply Nat.eqb_neq. rewrite D, (lv_nsees _ _ _ V). unfold levels. simpl. lia. }
        rewrite G.
        assert (OFF : inv p {| w_frames := f :: R; w_next := Datatypes.S n;
                               w_tracer := disable p (f :: R) t1 |} u).
        { unfold disable. change (t_on t1) with (t_on t). rewrite O.
          split; [apply NS; reflexivity|split; [exact K|]]. simpl. right.
          exists [f], R, [], (levels t), (depth p (f :: R)). repeat apply conj; auto.
          - rewrite depth_cons. lia.
          - intros g [<-|[]] J. apply in_map_iff in J. destruct J as (l & J1 & J2).
            apply F in J2. lia. }
        destruct seen; [exact OFF|].
        change (check_prev p KCall s false t1) with t1.
        apply (same_inv p _ _ _ _ _ (same_event s KCall _)).
        unfold call_transition. destruct (p_max p <=? t_ext t1); [exact OFF|].
        set (l := {| l_scope := f_scope f; l_udepth := Nat.max (depth p (f :: R)) 1;
                     l_depth := t_depth t1; l_ext := t_ext t1; l_prev := Some s |}).
        split; [|split].
        -- split; simpl; [lia|]. intros l' [<-|J].
           ++ change (f_scope f < Datatypes.S n). lia.
           ++ apply F in J. lia.
        -- intros _. simpl. unfold bottom. simpl.
           destruct (t_stack t) as [|a st] eqn:ST.
           ++ simpl. apply LS. exact NE.
           ++ change (l_prev (last (a :: st) l) <> None).
              intros Z. apply K; [rewrite ST; discriminate|]. unfold bottom. rewrite ST.
              rewrite <- Z. f_equal. apply last_any. discriminate.
        -- simpl. rewrite O. right.
           assert (SF : sees (f_kind f) = true) by exact S.
           split; [|split].
           ++ change (lv p (f :: R) (l :: levels t)). apply lv_push; auto.
              ** change (Nat.max (depth p (f :: R)) 1 = depth p (f :: R)).
                 rewrite (depth_sees _ _ _ SF). lia.
              ** change (Datatypes.S (t_depth t) = nsees (f :: R)). rewrite (nsees_sees _ _ SF). lia.
              ** change (t_ext t + (if external k then 1 else 0) = nexts (f :: R)).
                 rewrite (nexts_sees _ _ SF). simpl f_kind. lia.
           ++ change (Datatypes.S (t_depth t) = nsees (f :: R)). rewrite (nsees_sees _ _ SF). lia.
           ++ change (t_ext t + (if external k then 1 else 0) = nexts (f :: R)).
              rewrite (nexts_sees _ _ SF). simpl f_kind. lia.
    + (* library code *)
      split; [apply NS; reflexivity|split; [exact K|]]. simpl. rewrite O.
      assert (SF : sees (f_kind f) = false) by exact S.
      destruct X as [(-> & _)|(V & D & X)].
      * rewrite (KC eq_refl) in S. discriminate S.
      * right. rewrite (nsees_skip _ _ SF), (nexts_skip _ _ SF). repeat apply conj; auto.
        apply lv_skip; auto.
  - (* tracing is off *)
    simpl. split; [apply NS; reflexivity|split; [exact K|]]. simpl. rewrite O.
    destruct (inv_off _ _ _ _ _ I O) as
      [(_ & Z)|(R2 & R1 & T2 & T1 & d & H1 & H2 & H3 & H4 & H5 & H6 & H7)]; [congruence|right].
    exists (f :: R2), R1, T2, T1, d. repeat apply conj; auto.
    + rewrite H1. reflexivity.
    + intros g [<-|J]; [|apply H6; exact J].
      assert (NE : R <> []).
      { rewrite H1. intros Q. apply app_eq_nil in Q. destruct Q as [_ Q]. apply (lv_frames _ _ _ H3 Q). }
      intros J. apply in_map_iff in J. destruct J as (l & J1 & J2). apply F in J2.
      unfold f in J1. simpl in J1. destruct R; [congruence|lia].
    + destruct H7 as [H7|[H7|(Z & _)]]; auto. congruence.
Qed.

Lemma check_return_same s ret t : same t (check_prev p KReturn s ret t).
Proof.
  unfold check_prev.
  assert (A : same t match t_event t with
       | Some KCall | Some KExc => t
       | _ => match t_last t with None => t | Some q => finish q t end end).
  { destruct (t_event t) as [[]|]; try apply same_refl;
      destruct (t_last t); try apply same_refl; apply same_finish. }
  destruct ret.
  - eapply same_trans; [exact A|]. destruct (t_event t) as [[]|]; apply same_finish.
  - destruct (t_event t) as [[]|]; exact A.
Qed.

Lemma return_inv w u s ret :
  inv p w u -> w_frames w <> [] ->
  inv p (step p w (EReturn s ret)) (u || negb (t_on (w_tracer w))).
Proof.
  intros I NE. destruct w as [R n t]. simpl in *. destruct R as [|f R]; [congruence|].
  pose proof I as ((F0 & F) & K & _). cbn [w_next w_tracer w_frames] in *.
  destruct (t_on t) eqn:O; simpl.
  - rewrite orb_false_r. pose proof (inv_on _ _ _ _ _ I O) as [(Q & _)|(V & D & X)]; [discriminate Q|].
    destruct (sees (f_kind f)) eqn:S.
    + rewrite (nsees_sees _ _ S) in D. rewrite (nexts_sees _ _ S) in X.
      unfold on_return.
      set (t1 := set_depths (t_depth t - 1) (t_ext t - (if external (f_kind f) then 1 else 0)) t).
      assert (D1 : t_depth t1 = nsees R) by (simpl; lia).
      assert (X1 : t_ext t1 = nexts R) by (simpl; lia).
      rewrite D1. destruct R as [|g R'].
      * (* a top level statement ends *)
        simpl. destruct (lv_inv_one _ _ _ V) as (_ & _ & l & Q & L1 & L2 & L3).
        split; [split; auto|split; [exact K|]]. simpl. rewrite O. left.
        split; [reflexivity|split; [|split; [exact D1|exact X1]]]. exists l. auto.
      * destruct (lv_inv_push _ _ _ _ V S) as (l & T' & E & V' & _); [discriminate|].
        assert (P : nsees (g :: R') =? 0 = false).
        { apply Nat.eqb_neq. rewrite (lv_nsees _ _ _ V').
          pose proof (lv_levels _ _ _ V'). destruct T'; [congruence|simpl; lia]. }
        rewrite P.
        set (t2 := check_prev p KReturn s ret t1).
        assert (M : same t1 t2) by apply check_return_same.
        clearbody t2. pose proof (same_stack _ _ M) as [ST CU].
        unfold levels in E. injection E as E1 E2.
        change (t_stack t1) with (t_stack t) in ST. rewrite E2 in ST.
        pose proof (lv_levels _ _ _ V') as NT. destruct T' as [|b T']; [congruence|].
        unfold return_transition. rewrite ST.
        assert (O2 : t_on t2 = true) by (destruct M as (_ & M & _); rewrite M; exact O).
        rewrite O2.
        assert (R0 : inv p {| w_frames := g :: R'; w_next := n; w_tracer := set_levels b T' t2 |} u).
        { split; [|split].
          - split; simpl; auto. intros l' J. apply F. right. rewrite E2. exact J.
          - intros N. simpl in N. simpl. unfold bottom. simpl. intros Z.
            apply K; [rewrite E2; discriminate|]. unfold bottom. rewrite E2, <- Z.
            f_equal. destruct T' as [|c T']; [congruence|].
            change (last (c :: T') (t_cur t) = last (c :: T') b). apply last_any. discriminate.
          - simpl. rewrite O2. right. destruct M as (_ & _ & M1 & M2 & _).
            simpl. rewrite M1, M2. auto. }
        destruct (l_prev b); [|exact R0].
        apply (same_inv p _ _ _ _ _ (same_event s KReturn _) R0).
    + split; [split; auto|split; [exact K|]]. simpl. rewrite O. right.
      rewrite (nsees_skip _ _ S) in D. rewrite (nexts_skip _ _ S) in X.
      repeat apply conj; auto. apply (lv_inv_skip _ _ _ _ V S).
  - rewrite orb_true_r. split; [split; auto|split; [exact K|]]. simpl. rewrite O.
    destruct (inv_off _ _ _ _ _ I O) as
      [(Z & _)|(R2 & R1 & T2 & T1 & d & H1 & H2 & H3 & H4 & H5 & H6 & H7)]; [discriminate Z|].
    destruct R2 as [|g R2].
    + simpl in H1. subst R1. destruct R as [|g R]; [left; auto|right].
      destruct (sees (f_kind f)) eqn:S.
      * destruct (lv_inv_push _ _ _ _ H3 S) as (l & T' & E & V' & _); [discriminate|].
        subst T1. exists [], (g :: R), (T2 ++ [l]), T', d. repeat apply conj; auto.
        -- rewrite H2, <- app_assoc. reflexivity.
        -- rewrite depth_cons in H5. lia.
      * exists [], (g :: R), T2, T1, d. repeat apply conj; auto.
        -- apply (lv_inv_skip _ _ _ _ H3 S).
        -- rewrite depth_cons in H5. lia.
    + simpl in H1. injection H1 as <- H1. right.
      exists R2, R1, T2, T1, d. repeat apply conj; auto.
      * intros g J. apply H6. right. exact J.
      * destruct H7 as [H7|[H7|(_ & H7)]]; auto. discriminate H7.
Qed.

Lemma step_inv w u e :
  inv p w u -> possible p w e -> tame p w u e -> inv p (step p w e) (unnoticed_after w u e).
Proof.
  intros I P TM. destruct e as [k s seen|s ret|s|s|s| |]; simpl unnoticed_after.
  - apply call_inv; auto.
  - apply return_inv; auto.
  - destruct w as [R n t]. simpl in *. destruct R as [|f r]; [congruence|].
    destruct (t_on t && sees (f_kind f)); [|exact I].
    apply (same_inv p _ _ _ _ _ (same_event s KExc _)). exact I.
  - apply before_stmt_inv; auto.
  - destruct w as [R n t]. destruct P as (S & IT).
    apply (after_stmt_inv R n t u s I S). intros Z. apply IT. exact Z.
  - destruct w as [R n t]. apply (after_call_inv R n t u I P).
  - destruct w as [R n t]. simpl in *. destruct P as (f & r & E & _). simpl in E.
    apply disable_inv; auto. rewrite E. discriminate.
Qed.

Lemma run_inv es : forall w u, inv p w u -> legal p w u es ->
  exists u', inv p (run p w es) u'.
Proof.
  induction es as [|e es IH]; intros w u I L; simpl.
  - exists u. exact I.
  - destruct L as (P & Q & L). apply (IH _ _ (step_inv _ _ _ I P Q) L).
Qed.

Lemma inv0 : inv p world0 false.
Proof.
  split; [|split].
  - split; simpl; [lia|]. intros l [<-|[]]. simpl. lia.
  - intros N. simpl in N. congruence.
  - simpl. left. repeat apply conj; auto. exists level0. auto.
Qed.

Lemma exact_scopes w : exact p (w_frames w) (w_tracer w) -> believed w = scopes w.
Proof.
  unfold believed, scopes. intros [(Q & (l & E & L & _) & _)|(V & _)].
  - rewrite Q. unfold levels in E. rewrite E. simpl. congruence.
  - pose proof (lv_frames _ _ _ V). destruct (w_frames w) as [|f r]; [congruence|].
    apply (lv_scopes _ _ _ V).
Qed.

Lemma resumes w u :
  inv p w u -> off w -> instrumented w -> unfinished_top w ->
  (exists sc rest, scopes w = sc :: rest /\ In sc (believed w)) ->
  on (step p w EAfterCall) /\ believed (step p w EAfterCall) = scopes w.
Proof.
  intros I O S (s & P & NF) (sc & rest & E & J). destruct w as [R n t].
  unfold off in O. simpl in *. unfold on. simpl. unfold scopes in E. simpl in E.
  pose proof (after_call_inv R n t u I S) as V.
  destruct S as (f & r & Q & S). simpl in Q. subst R.
  assert (SC : sc = f_scope f).
  { simpl in E. rewrite S in E. simpl in E. congruence. }
  subst sc.
  assert (ON : t_on (after_call p (f :: r) t) = true).
  { destruct (inv_off _ _ _ _ _ I O) as
      [(Z & _)|(R2 & R1 & T2 & T1 & d & H1 & H2 & H3 & H4 & H5 & H6 & H7)]; [discriminate Z|].
    destruct R2 as [|g R2].
    - simpl in H1. subst R1. destruct T1 as [|l T']; [exfalso; apply (lv_levels _ _ _ H3); auto|].
      destruct (lv_below _ _ _ _ H3 S) as (U & L & X & Z).
      pose proof (length_for_known p (f :: r) t T2 l T' d H2 H4 H5 (Nat.eq_le_incl _ _ (eq_sym U)) L) as LF.
      unfold after_call, reenable. rewrite O, LF.
      change (l_prev (bottom t) = Some s) in P. rewrite P.
      assert (M : memb s (t_done t) = false) by (apply memb_nIn; exact NF).
      rewrite M. simpl. destruct (pop_to (length T') (t_cur t) (t_stack t)). reflexivity.
    - simpl in H1. injection H1 as <- H1. exfalso. apply (H6 f (or_introl eq_refl)). exact J. }
  split; [exact ON|].
  apply (exact_scopes {| w_frames := f :: r; w_next := n; w_tracer := after_call p (f :: r) t |}).
  apply (inv_on _ _ _ _ _ V ON).
Qed.

End base0.

(** ** What holds of every run *)

Definition rooted (t : tracer) : Prop := l_scope (bottom t) = 0 /\ l_prev (bottom t) <> None.

Lemma rooted_bottom t t' : bottom t' = bottom t -> rooted t -> rooted t'.
Proof. unfold rooted. intros ->. auto. Qed.

Lemma rooted_same t t' : same t t' -> rooted t -> rooted t'.
Proof. intros S. apply rooted_bottom. apply (same_bottom _ _ S). Qed.

Lemma pop_to_bottom n s : forall c, last (snd (pop_to n c s)) (fst (pop_to n c s)) = last s c.
Proof.
  induction s as [|a s IH]; intros c; auto. cbn [pop_to].
  destruct (length (a :: s) <=? n); auto. rewrite IH.
  destruct s as [|b s]; auto. change (last (b :: s) a = last (b :: s) c). apply last_any. discriminate.
Qed.

Lemma rooted_reenable p R e i t b t' : rooted t -> reenable p R e i t = Ok (b, t') -> rooted t'.
Proof.
  intros H E. unfold reenable in E. destruct (length_for p R t) as [n|]; [|discriminate E].
  simpl in E. destruct (negb i && match n with None => true | _ => false end).
  - injection E as _ <-. exact H.
  - pose proof (pop_to_bottom match n with None => 0 | Some j => j end (t_stack t) (t_cur t)) as B.
    destruct (pop_to match n with None => 0 | Some j => j end (t_cur t) (t_stack t)) as [c s].
    injection E as _ <-. revert H. apply rooted_bottom. exact B.
Qed.

Lemma rooted_disable p R t : rooted t -> rooted (disable p R t).
Proof. intros H. unfold disable. destruct (t_on t); exact H. Qed.

Lemma rooted_check p k s ret t : rooted t -> rooted (check_prev p k s ret t).
Proof.
  intros H. unfold check_prev.
  assert (A : rooted match k with
            | KAfter => if p_initial p s
                        then let (c, st) := pop_to 0 (t_cur t) (t_stack t) in set_levels c st t
                        else t
            | _ => t
            end).
  { destruct k; auto. destruct (p_initial p s); auto.
    pose proof (pop_to_bottom 0 (t_stack t) (t_cur t)) as B.
    destruct (pop_to 0 (t_cur t) (t_stack t)) as [c st]. revert H. apply rooted_bottom. exact B. }
  set (t1 := match k with
            | KAfter => if p_initial p s
                        then let (c, st) := pop_to 0 (t_cur t) (t_stack t) in set_levels c st t
                        else t
            | _ => t
            end) in *. clearbody t1.
  assert (B : forall q, rooted (finish q t1)) by (intros q; apply (rooted_same _ _ (same_finish q t1) A)).
  destruct k; auto.
  destruct (t_event t1) as [[]|]; destruct (t_last t1) as [q|]; destruct ret; auto;
    try (apply (rooted_same _ _ (same_finish s _)); auto).
Qed.

Lemma rooted_after_stmt p R s t : rooted t -> rooted (after_stmt p R s t).
Proof.
  intros H. unfold after_stmt.
  assert (G : forall t1, rooted t1 -> rooted
    (if memb s (t_done t1) then t1 else set_event s KAfter (check_prev p KAfter s false t1))).
  { intros t1 H1. destruct (memb s (t_done t1)); auto.
    apply (rooted_same _ _ (same_event s KAfter _)). apply rooted_check. exact H1. }
  destruct (t_on t); auto.
  destruct (reenable p R (Some 1) (p_initial p s) t) as [[[] t']|] eqn:E; auto.
  apply G. apply (rooted_reenable _ _ _ _ _ _ _ H E).
Qed.

Lemma rooted_note s t : rooted t -> rooted (note s t).
Proof.
  intros (A & B). unfold note. destruct (t_stack t) as [|a st] eqn:ST.
  - unfold rooted, bottom in *. simpl. rewrite ST in *. simpl in *. split; auto. discriminate.
  - apply (rooted_bottom t); [|split; auto]. unfold bottom. simpl. rewrite ST.
    change (last (a :: st) (with_prev s (t_cur t)) = last (a :: st) (t_cur t)).
    apply last_any. discriminate.
Qed.

Lemma rooted_step p w e : rooted (w_tracer w) -> rooted (w_tracer (step p w e)).
Proof.
  intros H. destruct w as [R n t]. destruct e as [k s seen|s ret|s|s|s| |]; simpl in *.
  - destruct (t_on t && sees k); auto. unfold on_call. cbv zeta.
    set (f := {| f_scope := match R with [] => 0 | _ :: _ => n end; f_kind := k |}).
    set (t1 := set_depths (S (t_depth t)) (t_ext t + (if external (f_kind f) then 1 else 0)) t).
    assert (H1 : rooted t1) by exact H. clearbody t1.
    destruct (t_depth t1 =? 1); auto. destruct seen; [apply rooted_disable; auto|].
    apply (rooted_same _ _ (same_event s KCall _)). unfold call_transition.
    change (check_prev p KCall s false t1) with t1.
    destruct (p_max p <=? t_ext t1); [apply rooted_disable; auto|].
    apply (rooted_bottom t1); auto. unfold bottom. cbn [set_levels t_stack t_cur].
    destruct (t_stack t1) as [|a st]; auto.
    match goal with |- last (_ :: _ :: _) ?x = _ =>
      change (last (a :: st) x = last (a :: st) (t_cur t1)) end.
    apply last_any. discriminate.
  - destruct R as [|f R]; auto. simpl. destruct (t_on t && sees (f_kind f)); auto.
    unfold on_return. cbv zeta.
    set (t1 := set_depths (t_depth t - 1) (t_ext t - (if external (f_kind f) then 1 else 0)) t).
    assert (H1 : rooted t1) by exact H. clearbody t1.
    destruct (t_depth t1 =? 0); auto.
    pose proof (rooted_check p KReturn s ret t1 H1) as H2.
    set (t2 := check_prev p KReturn s ret t1) in *. clearbody t2.
    unfold return_transition. destruct (t_stack t2) as [|l ls] eqn:ST.
    + apply (rooted_same _ _ (same_event s KReturn _)). apply rooted_disable. exact H2.
    + assert (H3 : rooted (if t_on t2 then set_levels l ls t2 else t2)).
      { destruct (t_on t2); auto. apply (rooted_bottom t2); auto. unfold bottom. simpl. rewrite ST.
        destruct ls as [|b ls]; auto.
        change (last (b :: ls) l = last (b :: ls) (t_cur t2)). apply last_any. discriminate. }
      destruct (l_prev l); exact H3.
  - destruct R as [|f R]; auto. simpl. destruct (t_on t && sees (f_kind f)); auto.
  - unfold before_stmt. destruct (memb s (t_done t)); auto.
    set (t1 := match l_prev (t_cur t) with
             | Some q => if p_header p q then after_stmt p R q t else t
             | None => t end).
    assert (H1 : rooted t1).
    { unfold t1. destruct (l_prev (t_cur t)) as [q|]; auto. destruct (p_header p q); auto.
      apply rooted_after_stmt. exact H. }
    clearbody t1. pose proof (rooted_note s t1 H1) as H2.
    change (set_levels (with_prev s (t_cur t1)) (t_stack t1) t1) with (note s t1).
    destruct (t_on (note s t1)); auto.
    destruct (reenable p R None (p_initial p s) (note s t1)) as [[b t3]|] eqn:E; [|exact H2].
    apply (rooted_reenable _ _ _ _ _ _ _ H2 E).
  - apply rooted_after_stmt. exact H.
  - unfold after_call. destruct (t_on t); auto.
    destruct (reenable p R (Some 1) false t) as [[b t']|] eqn:E; auto.
    apply (rooted_reenable _ _ _ _ _ _ _ H E).
  - apply rooted_disable. exact H.
Qed.

Lemma rooted_run p es : forall w, rooted (w_tracer w) -> rooted (w_tracer (run p w es)).
Proof.
  induction es as [|e es IH]; intros w H; simpl; auto. apply IH. apply rooted_step. exact H.
Qed.

Lemma rooted_start p d x s0 :
  rooted (w_tracer (run p world0 [ECall Cell d x; EBefore s0])).
Proof. unfold rooted, bottom. simpl. split; auto. discriminate. Qed.

(** The end of a top level statement. *)
Lemma after_initial p R s t :
  rooted t -> p_initial p s = true -> ~ In s (t_done t) ->
  t_on (after_stmt p R s t) = true /\ levels (after_stmt p R s t) = [bottom t] /\
  t_log (after_stmt p R s t) = t_log t ++ [(s, 0)].
Proof.
  intros H I N.
  assert (G : forall t1, rooted t1 -> bottom t1 = bottom t -> t_done t1 = t_done t ->
    t_log t1 = t_log t -> t_on t1 = true ->
    let t2 := if memb s (t_done t1) then t1 else set_event s KAfter (check_prev p KAfter s false t1) in
    t_on t2 = true /\ levels t2 = [bottom t] /\ t_log t2 = t_log t ++ [(s, 0)]).
  { intros t1 H1 B D L O. cbv zeta. rewrite D. apply memb_nIn in N. rewrite N.
    unfold check_prev. rewrite I, pop_to_0.
    unfold finish. simpl. rewrite D, N. simpl. rewrite O, L. split; auto.
    change (last (t_stack t1) (t_cur t1)) with (bottom t1). rewrite B.
    destruct H as (H & _). rewrite H. auto. }
  unfold after_stmt. destruct (t_on t) eqn:O; [apply G; auto|].
  assert (E : exists t', reenable p R (Some 1) (p_initial p s) t = Ok (true, t') /\
     rooted t' /\ bottom t' = bottom t /\ t_done t' = t_done t /\ t_log t' = t_log t /\ t_on t' = true).
  { unfold reenable. rewrite I.
    assert (LF : exists n, length_for p R t = Ok n).
    { unfold length_for. rewrite top_is_bottom.
      destruct (match t_off t with None => true | Some d => d <? depth p R end); eauto.
      destruct (l_prev (bottom t)) as [q|] eqn:P; [|exfalso; apply H; exact P].
      destruct (memb q (t_done t)); eauto.
      destruct (lowest (depth p R) (rev (t_stack t)) 0); eauto.
      destruct (depth p R <=? l_udepth (t_cur t)); eauto. }
    destruct LF as (n & ->). simpl.
    pose proof (pop_to_bottom match n with None => 0 | Some j => j end (t_stack t) (t_cur t)) as B.
    destruct (pop_to match n with None => 0 | Some j => j end (t_cur t) (t_stack t)) as [c st].
    simpl in B. eexists. split; [reflexivity|].
    split; [apply (rooted_bottom t); [exact B|exact H]|]. repeat apply conj; auto. }
  destruct E as (t' & E & H' & B & D & L & O'). rewrite E. apply G; auto.
Qed.

(** What after_stmt records. *)
Lemma after_stmt_log p R n t u s :
  p_base p = 0 ->
  inv p {| w_frames := R; w_next := n; w_tracer := t |} u ->
  (exists f r, R = f :: r /\ sees (f_kind f) = true) ->
  (p_initial p s = true -> exists f, R = [f]) ->
  t_log (after_stmt p R s t) = t_log t \/
  exists f r, R = f :: r /\ t_log (after_stmt p R s t) = t_log t ++ [(s, f_scope f)].
Proof.
  intros base I SS Q. unfold after_stmt.
  assert (G : forall t1, exact p R t1 -> t_log t1 = t_log t ->
    t_log (finish_stmt p s t1) = t_log t \/
    exists f r, R = f :: r /\ t_log (finish_stmt p s t1) = t_log t ++ [(s, f_scope f)]).
  { intros t1 X L. destruct SS as (f & r & E & S). subst R.
    assert (C : l_scope (t_cur t1) = f_scope f).
    { destruct X as [(Z & _)|(V & _)]; [discriminate Z|].
      pose proof (lv_scopes _ _ _ V) as M. simpl in M. rewrite S in M. simpl in M. congruence. }
    unfold finish_stmt. destruct (memb s (t_done t1)) eqn:M; [left; exact L|right].
    exists f, r. split; auto. unfold check_prev. destruct (p_initial p s) eqn:P.
    - destruct (Q eq_refl) as (f' & Z). injection Z as <- ->.
      rewrite (exact_one _ _ _ X). simpl. unfold finish. simpl. rewrite M. simpl. rewrite L, C. reflexivity.
    - simpl. unfold finish. rewrite M. simpl. rewrite L, C. reflexivity. }
  destruct (t_on t) eqn:O.
  - fold (finish_stmt p s t). apply G; auto. apply (inv_on _ _ _ _ _ I O).
  - destruct (reenable_inv p base R n t u (Some 1) (p_initial p s) I O SS Q) as
      [(b & t' & E & B & N & J & V)|(E & V)]; auto; rewrite E; auto.
    destruct b; auto. fold (finish_stmt p s t'). apply G; [apply (inv_on _ _ _ _ _ V B)|].
    unfold reenable in E. destruct (length_for p R t) as [m|]; [|discriminate E]. simpl in E.
    destruct (negb (p_initial p s) && match m with None => true | _ => false end); [discriminate E|].
    destruct (pop_to match m with None => 0 | Some j => j end (t_cur t) (t_stack t)) as [c st].
    injection E as <-. reflexivity.
Qed.

(** ** Checking concrete histories *)

Definition instrumented_b (w : world) : bool :=
  match w_frames w with [] => false | f :: _ => sees (f_kind f) end.

Definition top_level_b (w : world) : bool :=
  match w_frames w with [_] => true | _ => false end.

Definition possible_b (p : prog) (w : world) (e : event) : bool :=
  match e with
  | ECall k _ _ =>
      match w_frames w with
      | [] => match k with Cell => true | _ => false end
      | _ => match last_started w with None => false | Some _ => true end
      end
  | EReturn _ _ | EExc _ => match w_frames w with [] => false | _ => true end
  | EBefore s | EAfter s => instrumented_b w && eqb (p_initial p s) (top_level_b w)
  | EAfterCall | EOff => instrumented_b w
  end.

Definition tame_b (p : prog) (w : world) (u : bool) (e : event) : bool :=
  match e with
  | ECall _ _ _ => negb u
  | EBefore s =>
      let h := match last_started w with
               | None => false
               | Some q => p_header p q && p_initial p q
               end in
      (t_on (w_tracer w) || negb (top_level_b w) || memb s (t_done (w_tracer w)) || h) &&
      (negb h || top_level_b w)
  | _ => true
  end.

Fixpoint real_b (p : prog) (w : world) (es : list event) : bool :=
  match es with
  | [] => true
  | e :: es' => possible_b p w e && real_b p (step p w e) es'
  end.

Fixpoint legal_b (p : prog) (w : world) (u : bool) (es : list event) : bool :=
  match es with
  | [] => true
  | e :: es' =>
      possible_b p w e && tame_b p w u e && legal_b p (step p w e) (unnoticed_after w u e) es'
  end.

Lemma instrumented_ok w : instrumented_b w = true -> instrumented w.
Proof.
  unfold instrumented_b, instrumented. destruct (w_frames w) as [|f r]; [discriminate|]. eauto.
Qed.

Lemma top_level_ok w : top_level_b w = true <-> top_level w.
Proof.
  unfold top_level_b, top_level. destruct (w_frames w) as [|f [|g r]]; split; intros H;
    try discriminate; eauto; destruct H as (h & H); discriminate H.
Qed.

Lemma possible_ok p w e : possible_b p w e = true -> possible p w e.
Proof.
  destruct e as [k s seen|s ret|s|s|s| |]; simpl; try apply instrumented_ok.
  - destruct (w_frames w) as [|f r].
    + destruct k; try discriminate. intros _. repeat split; auto; congruence.
    + destruct (last_started w); [|discriminate]. intros _. split; intros; discriminate.
  - destruct (w_frames w); congruence.
  - destruct (w_frames w); congruence.
  - intros H. apply andb_true_iff in H. destruct H as [H1 H2]. apply eqb_prop in H2.
    split; [apply instrumented_ok; exact H1|]. rewrite H2. apply top_level_ok.
  - intros H. apply andb_true_iff in H. destruct H as [H1 H2]. apply eqb_prop in H2.
    split; [apply instrumented_ok; exact H1|]. rewrite H2. apply top_level_ok.
Qed.

Lemma tame_ok p w u e : tame_b p w u e = true -> tame p w u e.
Proof.
  destruct e as [k s seen|s ret|s|s|s| |]; simpl; auto.
  - destruct u; auto.
  - intros H. apply andb_true_iff in H. destruct H as [H1 H2]. split.
    + intros O TL N. unfold off in O. rewrite O in H1. apply top_level_ok in TL. rewrite TL in H1.
      assert (M : memb s (t_done (w_tracer w)) = false) by (apply memb_nIn; exact N).
      rewrite M in H1. simpl in H1.
      destruct (last_started w) as [q|]; [|discriminate H1].
      apply andb_true_iff in H1. exists q. tauto.
    + intros q Q P I. rewrite Q, P, I in H2. simpl in H2. apply top_level_ok. exact H2.
Qed.

Lemma real_ok p es : forall w, real_b p w es = true -> real p w es.
Proof.
  induction es as [|e es IH]; intros w H; simpl in *; auto.
  apply andb_true_iff in H. destruct H as [H1 H2]. split; [apply possible_ok; exact H1|auto].
Qed.

Lemma legal_ok p es : forall w u, legal_b p w u es = true -> legal p w u es.
Proof.
  induction es as [|e es IH]; intros w u H; simpl in *; auto.
  apply andb_true_iff in H. destruct H as [H H2]. apply andb_true_iff in H. destruct H as [H0 H1].
  split; [apply possible_ok; exact H0|split; [apply tame_ok; exact H1|auto]].
Qed.
