(** Property theorems: what the marks `$`, `$$` and `$:` mean where a name is used (C71), where it is stored
    (C72), and how far `$$` is carried (C73). *)
From Coq Require Import List Arith Bool ZArith Lia.
From Verif Require Import Base MarkModel MarkSpec MarkProofs.
Import ListNotations.

(** * C71: marks where a name is used *)

(** For a reference in which no `$:` comes after a `$` or `$$`: there is one entry for each part that has a
    symbol. A part is blocked if it or a part before it is marked `$:` or stands for a held symbol. If it is
    not blocked, it is reactive if it or a part before it is marked (`$` counts for what is read only), or if
    its symbol cascades or was stored with a mark; it is cascading if it or a part before it is marked `$$` or
    if its symbol cascades. *)
Theorem C71_partial : forall W E sc ch only lhs ctr cnum,
  Forall single ch -> stops_first (walk E sc ch) ->
  length (live_resolved W E sc ch only true lhs false ctr) = length (walk E sc ch) /\
  forall i r, nth_error (live_resolved W E sc ch only true lhs false ctr) i = Some r ->
  exists t, nth_error (walk E sc ch) i = Some t /\ r_sym r = sym_of t /\
    (is_blocking W r = true <-> hushed W (walk E sc ch) i) /\
    (is_reactive W cnum r = true <->
       ~ hushed W (walk E sc ch) i /\
       (at_or_before (walk E sc ch) i dollar /\ lhs = false \/
        at_or_before (walk E sc ch) i ddollar \/
        (ctr < cnum (sym_of t))%Z /\ (w_min W < cnum (sym_of t))%Z \/ stored W (sym_of t))) /\
    (counts_cascading W cnum r = true <->
       ~ hushed W (walk E sc ch) i /\
       (at_or_before (walk E sc ch) i ddollar \/
        (ctr < cnum (sym_of t))%Z /\ (w_min W < cnum (sym_of t))%Z)) /\
    (counts_reactive W cnum r = true <->
       is_reactive W cnum r = true \/
       ~ hushed W (walk E sc ch) i /\ (In (sym_of t) (w_upd W) \/ In (sym_of t) (w_upd_last W))) /\
    (forall mutating, is_deep W cnum mutating r = true <->
       lhs = false /\
       (is_reactive W cnum r = true \/ snd t = None \/
        exists a, snd t = Some a /\ a_call a = true /\ mutating = false)).
Proof.
  intros W E sc ch only lhs ctr cnum Hs Hf. split; [apply live_length|]. intros i r Hr.
  destruct (live_nth W E sc ch only lhs ctr Hs i r Hr) as (t & Ht & Es & En & Etm & El & Ek & Hb & _).
  exists t. split; [exact Ht|]. split; [exact Es|].
  pose proof (quiet_hushed W E sc ch i Hf) as Hq.
  rewrite Hq in Hb. split; [exact Hb|].
  pose proof (live_reactive W E sc ch only lhs ctr Hs cnum i r Hr) as Hre.
  rewrite Es, Hq, Z.max_lub_lt_iff in Hre. split; [exact Hre|]. split; [|split].
  - unfold counts_cascading. rewrite andb_true_iff, negb_true_iff.
    destruct (is_blocking W r) eqn:B.
    + split; [intros [A _]; discriminate|]. intros [A _]. destruct A. now apply Hb.
    + assert (N : ~ hushed W (walk E sc ch) i) by (rewrite <- Hb; discriminate).
      assert (N' : ~ quiet W E sc ch i) by (rewrite Hq; exact N).
      rewrite (live_cascading W E sc ch only lhs ctr Hs cnum i r Hr N'), Es, Z.max_lub_lt_iff. tauto.
  - unfold counts_reactive. rewrite andb_true_iff, negb_true_iff, orb_true_iff, Es.
    unfold is_updated. rewrite orb_true_iff, !memb_In.
    destruct (is_blocking W r) eqn:B.
    + assert (Y : hushed W (walk E sc ch) i) by (apply Hb; reflexivity). rewrite Hre.
      split; [intros [A _]; discriminate|]. tauto.
    + assert (N : ~ hushed W (walk E sc ch) i) by (rewrite <- Hb; discriminate). tauto.
  - intros mut. unfold is_deep. rewrite El, En. destruct lhs.
    + split; [discriminate|]. intros [A _]. discriminate.
    + destruct (is_reactive W cnum r); [tauto|]. destruct (snd t) as [a|].
      * destruct (a_call a) eqn:Ac.
        -- rewrite negb_true_iff. split; [intros ->; split; [reflexivity|]; eauto 6|].
           intros (_ & [A|[A|(b & A & B & C)]]); [discriminate|discriminate|exact C].
        -- split; [discriminate|]. intros (_ & [A|[A|(b & A & B & C)]]); [discriminate|discriminate|].
           injection A as <-. congruence.
      * tauto.
Qed.
Print Assumptions C71_partial.

(** In any reference, a `$:` blocks only if no `$` or `$$` comes before it. *)
Theorem C71_any_partial : forall W E sc ch only lhs ctr cnum i r,
  Forall single ch ->
  nth_error (live_resolved W E sc ch only true lhs false ctr) i = Some r ->
  let quiet := exists j t, j <= i /\ nth_error (walk E sc ch) j = Some t /\
                           (lone_stop (walk E sc ch) j \/ held W (sym_of t)) in
  (is_blocking W r = true <-> quiet) /\
  (is_reactive W cnum r = true <->
     ~ quiet /\
     (at_or_before (walk E sc ch) i dollar /\ lhs = false \/
      at_or_before (walk E sc ch) i ddollar \/
      (ctr < cnum (r_sym r))%Z /\ (w_min W < cnum (r_sym r))%Z \/ stored W (r_sym r))).
Proof.
  intros W E sc ch only lhs ctr cnum i r Hs Hr.
  destruct (live_nth W E sc ch only lhs ctr Hs i r Hr) as (t & _ & _ & _ & _ & _ & _ & Hb & _).
  split; [exact Hb|].
  rewrite (live_reactive W E sc ch only lhs ctr Hs cnum i r Hr), Z.max_lub_lt_iff. reflexivity.
Qed.
Print Assumptions C71_any_partial.

(** [x] is symbol 10 in scope 0, [x.y] symbol 11, [x.y.z] symbol 12. *)
Definition ex_scopes : scopes :=
  {| lookup := fun sc n => match sc, n with 0, 1 => Some 10 | 1, 2 => Some 11 | 2, 3 => Some 12 | _, _ => None end;
     namespace := fun s => match s with 10 => Some 1 | 11 => Some 2 | _ => None end |}.
Definition plain (n : nat) : atom := mk_atom n false false false false.

(** All three symbols were changed in run 1. *)
Definition ex_world : world :=
  {| w_blocked := []; w_upd := []; w_upd_last := []; w_deep := []; w_deep_last := [];
     w_updated := []; w_stmt := []; w_num := fun _ => (-1)%Z; w_stamp := fun _ => 1%Z;
     w_min := (-1)%Z; w_ctr := 2%Z; w_prev := (-1)%Z; w_last := fun _ => (-1)%Z |}.

(** [$:x.$y.z]: all of it is blocked; [x.$y.z]: not [x], but the rest is reactive. *)
Definition ex_blocked := [blocking_atom (plain 1); reactive_atom (plain 2); plain 3].
Definition ex_reactive := [plain 1; reactive_atom (plain 2); plain 3].

Lemma marks_first (ts : list triple) :
  (forall i t, nth_error ts (S i) = Some t -> ~ stop t) -> stops_first ts.
Proof.
  intros H [|i] t Ht Hs (j & u & Hj & _); [lia|]. exact (H i t Ht Hs).
Qed.

Example C71_ex :
  Forall single ex_blocked /\ stops_first (walk ex_scopes 0 ex_blocked) /\
  Forall single ex_reactive /\ stops_first (walk ex_scopes 0 ex_reactive) /\
  map (is_blocking ex_world)
      (live_resolved ex_world ex_scopes 0 ex_blocked false true false false 1%Z) = [true; true; true] /\
  map (is_reactive ex_world (fun _ => (-1)%Z))
      (live_resolved ex_world ex_scopes 0 ex_reactive false true false false 1%Z) = [false; true; true].
Proof.
  assert (S : forall c, In c (ex_blocked ++ ex_reactive) -> single c).
  { cbn. intros c Hc. unfold single. repeat destruct Hc as [<-|Hc]; try destruct Hc; cbn; auto;
      split; intros; try discriminate; auto. }
  split; [apply Forall_forall; intros c Hc; apply S; apply in_or_app; auto|].
  split; [apply marks_first; intros [|[|[|i]]] t; cbn; intros H; try discriminate;
          injection H as <-; discriminate|].
  split; [apply Forall_forall; intros c Hc; apply S; apply in_or_app; auto|].
  split; [apply marks_first; intros [|[|[|i]]] t; cbn; intros H; try discriminate;
          injection H as <-; discriminate|].
  split; reflexivity.
Qed.

(** A `$:` is lost if a `$` comes before it: in [$x.$:y] the part [y] is marked `$:` and yet not blocked, but
    reactive. *)
Theorem C71_refuted : exists W E sc ch i r t,
  Forall single ch /\
  nth_error (live_resolved W E sc ch false true false false 1%Z) i = Some r /\
  nth_error (walk E sc ch) i = Some t /\ stop t /\
  is_blocking W r = false /\ is_reactive W (fun _ => (-1)%Z) r = true.
Proof.
  exists ex_world, ex_scopes, 0, [reactive_atom (plain 1); blocking_atom (plain 2)], 1.
  eexists. eexists. split.
  - repeat constructor; cbn; intros; try discriminate; auto.
  - split; [reflexivity|]. split; [reflexivity|]. repeat split.
Qed.
Print Assumptions C71_refuted.

(** * C72: marks where a name is stored *)

(** What one store does. A part of its target that is marked `$$`, or `$`, with no `$:` on it or after it, is
    recorded as stored for good, or for this run; so is, in a weaker sense, each part before it. A part with a
    `$:` on it or after it is recorded as stopped in this run, unless an earlier statement of the same run has
    changed it. *)
Theorem C72_store_partial : forall E sc ch W s,
  let ts := walk E sc ch in
  let W' := handle_store E sc ch W in
  (In s (w_deep W') <-> In s (w_deep W) \/ marks_deep ts s ddollar) /\
  (In s (w_deep_last W') <-> In s (w_deep_last W) \/ marks_deep ts s by_dollar) /\
  (In s (w_upd W') <-> In s (w_upd W) \/ marks ts s ddollar) /\
  (In s (w_upd_last W') <-> In s (w_upd_last W) \/ marks ts s (fun t => ~ ddollar t)) /\
  (stops ts s -> ~ In s (w_updated W) -> dget (w_blocked W') s = Some (w_ctr W)) /\
  (~ stops ts s \/ In s (w_updated W) -> dget (w_blocked W') s = dget (w_blocked W) s) /\
  (marks_deep ts s (fun t => snd t = None /\ marked t) -> w_stamp W' s = w_ctr W) /\
  (~ marks_deep ts s (fun t => snd t = None /\ marked t) -> w_stamp W' s = w_stamp W s).
Proof.
  intros E sc ch W s ts W'. destruct (handle_store_spec E sc ch W) as (rs & bs & R).
  split; [apply (sr_deep _ _ _ _ _ R)|]. split; [apply (sr_deepl _ _ _ _ _ R)|].
  split; [apply (sr_upd _ _ _ _ _ R)|]. split; [apply (sr_updl _ _ _ _ _ R)|].
  split; [apply (sr_blk1 _ _ _ _ _ R)|]. split; [apply (sr_blk2 _ _ _ _ _ R)|].
  split; [apply (sr_st1 _ _ _ _ _ R)|apply (sr_st2 _ _ _ _ _ R)].
Qed.
Print Assumptions C72_store_partial.

(** [x.$$y.z = …] stores for good what [x.y] is, and touches [x] in the weaker sense. *)
Example C72_store_ex :
  let W' := handle_store ex_scopes 0 [plain 1; cascading_atom (plain 2); plain 3] ex_world in
  w_deep W' = [11] /\ w_deep_last W' = [] /\ w_upd W' = [11] /\ w_upd_last W' = [10].
Proof. repeat split. Qed.

(** Over a whole session. A symbol counts as stored with `$$` since a store with such a mark, until it gets an
    unrelated value or the round of reactive runs ends; as stored with `$`, until the next run; and it is held
    if in or after the run that last changed it some run stored it with `$:`. *)
Theorem C72_session_partial : forall h W s, run h = Ok W ->
  (In s (w_deep W) <-> since h (store_event (fun ts => marks_deep ts s ddollar))
                               (fun e => is_cleanup e \/ overwritten s e)) /\
  (In s (w_deep_last W) <-> since h (store_event (fun ts => marks_deep ts s by_dollar)) is_begin) /\
  (In s (w_upd W) <-> since h (store_event (fun ts => marks ts s ddollar))
                              (fun e => is_cleanup e \/ overwritten s e)) /\
  (In s (w_upd_last W) <-> since h (store_event (fun ts => marks ts s (fun t => ~ ddollar t))) is_begin) /\
  (held W s <-> forall m, stamped_in h s m -> exists n, stopped_in h s n /\ (m <= n)%Z).
Proof.
  intros h W s H. split; [exact (run_deep s h W H)|]. split; [exact (run_deep_last s h W H)|].
  split; [exact (run_upd s h W H)|]. split; [exact (run_upd_last s h W H)|exact (run_held h W s H)].
Qed.
Print Assumptions C72_session_partial.

(** An assignment to symbol [s] from [deps]. *)
Definition assign (s : nat) (deps : list nat) : upd :=
  {| u_sym := s; u_deps := deps; u_overwrite := true; u_mutated := false; u_immutable := false;
     u_cyclic := false; u_same_import := false; u_casc := Some false; u_stamped := [s]; u_seen := [s] |}.
Definition flat : graph := {| g_syms := [10; 11; 12]; g_members := fun _ => []; g_containing := fun _ => [] |}.

(** One run: [$:x = 1]; another: [x = 2]. *)
Definition ex_hold : list event :=
  [Begin 1; Update flat (assign 10 []); Mark ex_scopes 0 [blocking_atom (plain 1)]; EndStmt].
Definition ex_release : list event := ex_hold ++ [Begin 2; Update flat (assign 10 []); EndStmt].

Lemma run_gives (P : world -> Prop) h :
  match run h with Ok W => P W | Err _ => False end -> exists W, run h = Ok W /\ P W.
Proof. destruct (run h) as [W|]; [intros H; exists W; auto|intros []]. Qed.

Example C72_session_ex :
  (exists W, run ex_hold = Ok W /\ held W 10) /\ (exists W, run ex_release = Ok W /\ ~ held W 10).
Proof.
  split; apply run_gives; vm_compute.
  - discriminate.
  - intros H. apply H. reflexivity.
Qed.

(** A symbol stays held although its last change is an ordinary one, if both happened in one run:
    [$:x = 1; x = 2]. *)
Theorem C72_same_run_refuted : exists h W s G u,
  run (h ++ [Update G u; EndStmt]) = Ok W /\ goes_through u /\ u_sym u = s /\ u_overwrite u = true /\
  In s (u_stamped u) /\ held W s.
Proof.
  destruct (run_gives (fun W => held W 10) (ex_hold ++ [Update flat (assign 10 []); EndStmt]))
    as (W & H & Hh); [vm_compute; discriminate|].
  exists ex_hold, W, 10, flat, (assign 10 []). split; [exact H|].
  split; [split; reflexivity|]. split; [reflexivity|]. split; [reflexivity|].
  split; [now left|]. exact Hh.
Qed.
Print Assumptions C72_same_run_refuted.

(** A symbol stays stored with `$` although it has got an unrelated value since: [$x = 1; x = 2]. *)
Theorem C72_overwritten_refuted : exists h W s e,
  run (h ++ [e]) = Ok W /\ overwritten s e /\ stored W s.
Proof.
  set (h := [Begin 1; Update flat (assign 10 []); Mark ex_scopes 0 [reactive_atom (plain 1)]; EndStmt]).
  destruct (run_gives (fun W => In 10 (w_deep_last W)) (h ++ [Update flat (assign 10 [])]))
    as (W & H & Hh); [vm_compute; auto|].
  exists h, W, 10, (Update flat (assign 10 [])). split; [exact H|]. split.
  - cbn. repeat split. auto.
  - right. exact Hh.
Qed.
Print Assumptions C72_overwritten_refuted.

(** A symbol that was never changed, as far as is known, is held without any `$:`. *)
Theorem C72_unknown_refuted : exists h W s, run h = Ok W /\ held W s /\ forall n, ~ stopped_in h s n.
Proof.
  destruct (run_gives (fun W => held W 10) [Begin 1]) as (W & H & Hh); [vm_compute; discriminate|].
  exists [Begin 1], W, 10. split; [exact H|]. split; [exact Hh|]. clear H.
  intros n (h1 & E & sc & ch & h2 & H & _). destruct h1 as [|? [|? ?]]; discriminate.
Qed.
Print Assumptions C72_unknown_refuted.

(** * C73: how far `$$` is carried *)

(** Whatever was computed, directly or not, from something marked `$$`, by cells that had not run since, in the
    current round, counts as cascading, and so does what is part of it or around it. *)
Theorem C73_complete_partial : forall h W G s n ctr t m k,
  run h = Ok W -> cascading_num G (w_num W) s = Ok n ->
  part_or_around G s t -> cascades part_or_around h t m -> cleaned h k -> (ctr < m)%Z -> (k < m)%Z ->
  (ctr < n)%Z /\ (w_min W < n)%Z.
Proof.
  intros h W G s n ctr t m k H Hn Hp Hc Hk L1 L2.
  pose proof (run_casc_lower h W H t m Hc). pose proof (cascading_num_lower _ _ _ _ _ Hn Hp).
  apply (run_min h W H) in Hk. lia.
Qed.
Print Assumptions C73_complete_partial.

(** Nothing else does. *)
Theorem C73_sound_partial : forall h W G s n ctr,
  run h = Ok W -> cascading_num G (w_num W) s = Ok n -> (ctr < n)%Z -> (w_min W < n)%Z ->
  exists t k, connected G s t /\ cascades connected h t n /\ cleaned h k /\ (k < n)%Z.
Proof.
  intros h W G s n ctr H Hn L1 L2. pose proof (proj1 (run_min h W H _) eq_refl) as K.
  assert (P : (-1 <= w_min W)%Z).
  { destruct K as [(h1 & h2 & _ & -> & _)|[_ ->]]; [|lia]. pose proof (count_nonneg h1). lia. }
  destruct (cascading_num_upper _ _ _ _ Hn) as [->|(t & Ht & ->)]; [lia|].
  exists t, (w_min W). split; [exact Ht|]. split; [|split; [exact K|exact L2]].
  apply (run_casc_upper h W H). lia.
Qed.
Print Assumptions C73_sound_partial.

(** Both together, where what is around something around a symbol is around the symbol. *)
Theorem C73_exact_partial : forall h W G s n ctr k,
  run h = Ok W -> cascading_num G (w_num W) s = Ok n -> cleaned h k ->
  nested G -> (forall e, In e h -> nested_event e) ->
  ((ctr < n)%Z /\ (w_min W < n)%Z <->
   exists t m, part_or_around G s t /\ cascades part_or_around h t m /\ (ctr < m)%Z /\ (k < m)%Z).
Proof.
  intros h W G s n ctr k H Hn Hk Ng Nh. split.
  - intros [L1 L2]. destruct (C73_sound_partial h W G s n ctr H Hn L1 L2) as (t & k' & A & B & C & D).
    exists t, n. split; [exact (nested_connected _ _ _ Ng A)|].
    split; [exact (cascades_nested _ _ _ Nh B)|]. split; [exact L1|].
    apply (run_min h W H) in Hk. lia.
  - intros (t & m & A & B & C & D).
    exact (C73_complete_partial h W G s n ctr t m k H Hn A B Hk C D).
Qed.
Print Assumptions C73_exact_partial.

(** It can always be worked out, however symbols contain each other, in circles too. *)
Theorem C73_total_partial : forall h G s,
  (forall e, In e h -> graph_ok e) -> closed G -> In s (g_syms G) ->
  exists W n, run h = Ok W /\ cascading_num G (w_num W) s = Ok n.
Proof.
  intros h G s Hok Cl Hs. destruct (run_total h Hok) as (W & H).
  destruct (cascading_num_total G (w_num W) s Cl Hs) as (n & Hn). exists W, n. auto.
Qed.
Print Assumptions C73_total_partial.

(** When the round of reactive runs ends, nothing cascades any more. *)
Theorem C73_round_partial : forall h W G s n,
  run (h ++ [Cleanup]) = Ok W -> cascading_num G (w_num W) s = Ok n -> ~ (w_min W < n)%Z.
Proof.
  intros h W G s n H Hn L.
  assert (K : w_min W = count h).
  { apply (run_min _ _ H). left. exists h, []. split; [reflexivity|]. split; [reflexivity|]. intros e []. }
  pose proof (run_num_bounds _ _ H) as B. rewrite count_app in B. cbn in B.
  pose proof (count_nonneg h).
  destruct (cascading_num_upper _ _ _ _ Hn) as [->|(t & _ & ->)]; [lia|].
  specialize (B t). lia.
Qed.
Print Assumptions C73_round_partial.

(** Run 1: [$$x = 1]. Run 2: [y = x]. Run 3: [z = y]; the symbols are 10, 11 and 12. *)
Definition ex_cascade : list event :=
  [Begin 1; Update flat (assign 10 []); Mark ex_scopes 0 [cascading_atom (plain 1)]; EndStmt;
   Begin 2; Update flat (assign 11 [10]); EndStmt; Begin 3; Update flat (assign 12 [11]); EndStmt].

Example C73_ex : (forall e, In e ex_cascade -> graph_ok e) /\ (forall e, In e ex_cascade -> nested_event e) /\
  (exists W, run ex_cascade = Ok W /\ cascading_num flat (w_num W) 12 = Ok 3%Z /\ w_min W = (-1)%Z) /\
  exists W', run (ex_cascade ++ [Cleanup]) = Ok W' /\ w_min W' = 3%Z.
Proof.
  assert (Cl : closed flat) by (intros s t _ [[]|[]]).
  split; [|split].
  - intros e He. cbn in He. repeat destruct He as [<-|He]; try destruct He; try exact Logic.I;
      (split; [exact Cl|]); cbn; intuition.
  - intros e He. cbn in He. repeat destruct He as [<-|He]; try destruct He; try exact Logic.I;
      intros s c d [].
  - split; apply run_gives; vm_compute; auto.
Qed.

(** More counts as cascading than is computed from something marked: what is next to it does. [x.a] (11) is
    stored with `$$`, [x.b] (12) is not; [x] is 10. *)
Definition family : graph :=
  {| g_syms := [10; 11; 12];
     g_members := fun s => if s =? 10 then [11; 12] else [];
     g_containing := fun s => if (s =? 11) || (s =? 12) then [10] else [] |}.
Definition ex_sibling : list event :=
  [Begin 1; Update family (assign 12 []); EndStmt; Update family (assign 11 []);
   Mark ex_scopes 0 [plain 1; cascading_atom (plain 2)]; EndStmt].

Lemma family_whole t : part_or_whole family 12 t -> t = 12 \/ t = 10.
Proof.
  assert (A : forall s t, reach (member family) s t -> s = 12 -> t = 12).
  { intros s x H. induction H as [|a b c Hab _ IH]; [auto|]. intros ->. destruct Hab. }
  assert (B : forall s t, reach (member family) s t -> t = 12 -> s = 12 \/ s = 10).
  { intros s x H. induction H as [|a b c Hab _ IH]; [auto|]. intros Hc.
    unfold member in Hab. cbn in Hab. destruct (Nat.eqb_spec a 10) as [->|N]; [auto|destruct Hab]. }
  intros [H|H]; [left; exact (A _ _ H eq_refl)|exact (B _ _ H eq_refl)].
Qed.

Theorem C73_sibling_refuted : exists h W G s n k,
  run h = Ok W /\ cleaned h k /\ cascading_num G (w_num W) s = Ok n /\ (w_min W < n)%Z /\
  ~ exists t m, part_or_whole G s t /\ cascades part_or_whole h t m.
Proof.
  destruct (run_gives (fun W => cascading_num family (w_num W) 12 = Ok 1%Z /\ (w_min W < 1)%Z) ex_sibling)
    as (W & H & Hn & Hl); [vm_compute; auto|].
  exists ex_sibling, W, family, 12, 1%Z, (-1)%Z.
  split; [exact H|]. split; [right; split; [|reflexivity]|].
  { intros e He. cbn in He. repeat destruct He as [<-|He]; try destruct He; exact (fun x => x). }
  split; [exact Hn|]. split; [exact Hl|]. clear W H Hn Hl.
  intros (t & m & Hp & Hc). apply family_whole in Hp.
  assert (Inv : forall h, (exists h', ex_sibling = h ++ h') -> forall s m, cascades part_or_whole h s m -> s = 11).
  { clear. intros h [h' E] s m H. revert h' E.
    induction H as [h G u A B|h G u d t m p k A B C D F K L IH P Q X Y|h Es sc ch s A|h e s m A IH B]; intros h' E.
    - rewrite <- app_assoc in E. cbn in E. exfalso. revert B.
      assert (I : In (Update G u) ex_sibling) by (rewrite E; apply in_elt).
      cbn in I. repeat destruct I as [I|I]; try discriminate; try contradiction; injection I as <- <-; discriminate.
    - rewrite <- app_assoc in E. cbn in E. exfalso. revert C.
      assert (I : In (Update G u) ex_sibling) by (rewrite E; apply in_elt).
      cbn in I. repeat destruct I as [I|I]; try discriminate; try contradiction; injection I as <- <-; intros [].
    - rewrite <- app_assoc in E. cbn in E.
      assert (I : In (Mark Es sc ch) ex_sibling) by (rewrite E; apply in_elt).
      cbn in I. repeat destruct I as [I|I]; try discriminate; try contradiction. injection I as <- <- <-.
      destruct A as (i & t & Hn & <- & Hd & _). destruct i as [|[|i]]; cbn in Hn.
      + injection Hn as <-. discriminate.
      + injection Hn as <-. reflexivity.
      + destruct i; discriminate.
    - rewrite <- app_assoc in E. exact (IH _ E). }
  assert (t = 11) by (apply (Inv ex_sibling) with (m := m); [exists []; now rewrite app_nil_r|exact Hc]).
  lia.
Qed.
Print Assumptions C73_sibling_refuted.
