(** Property theorems: library calls get their own arguments and results (C68), what they mark as changed
    (C69), and which handler they get (C70). *)
From Coq Require Import List Arith Bool Lia Permutation.
From Verif Require Import Base ExtModel ExtSpec ExtProofs.
Import ListNotations.

(** * C68: each library call is handled once, with its own arguments and its own result *)

(** If nothing raises: when a statement finishes, the handlers that run are those of the calls it made, in the
    order in which they returned, each with its own arguments and result, however calls are nested and
    whichever traced functions and callbacks run in between. *)
Theorem C68_partial : forall has out b,
  quiet out b -> keywords_differ (sites_block b) ->
  exists s, run has (fst (events_block out b)) state0 = Ok s
            /\ done s = finished_block has out b /\ external (cur s) = [] /\ saved s = [].
Proof.
  intros has out b [N R] K.
  destruct (quiet_ok has out) as (_ & _ & _ & Q).
  destruct (Q b N R K level0 [] [] eq_refl eq_refl) as (L & E).
  eexists. split; [exact E|]. cbn. auto.
Qed.
Print Assumptions C68_partial.

(** Whatever raises, and wherever it is caught: the books never break; a handler that runs is that of a call
    of the program, with its own arguments and, if the call returned, its own result; no call is handled
    twice; and when a statement finishes, the handlers of all calls it made run. *)
Theorem C68_any_partial : forall has out b,
  keywords_differ (sites_block b) ->
  exists s, run has (fst (events_block out b)) state0 = Ok s
    /\ (forall hs h, In hs (done s) -> In h hs ->
          has (h_call h) = true /\
          exists a, In (h_call h, a) (sites_block b) /\ h_args h = positional a /\ h_kwargs h = keyword a
                    /\ forall v, out (h_call h) = Some v -> h_ret h = Some v)
    /\ (sites_differ (sites_block b) -> NoDup (map h_call (concat (done s))))
    /\ (forall e, In e (completes out b) -> exists left, In (left ++ own has out e) (done s)).
Proof.
  intros has out b K.
  destruct (program_ok has out) as (_ & _ & _ & P).
  assert (G : good out level0) by (intros H; discriminate).
  destruct (P b K level0 [] [] G) as (l & d & o & n & R & _ & Pm & S & C & F).
  inversion S; subst o. cbn [app] in *.
  assert (CC : cov has out (sites_block b) (concat d ++ external l)).
  { eapply cov_perm; [apply Permutation_sym; exact Pm|exact C]. }
  destruct CC as [CC1 CC2].
  exists (st l [] d). split; [exact R|]. cbn [done st]. split; [|split; [|exact F]].
  - intros hs h H1 H2. apply CC1. apply in_or_app. left. apply in_concat. exists hs. auto.
  - intros N. specialize (CC2 N). rewrite map_app in CC2. apply NoDup_app_parts in CC2. tauto.
Qed.
Print Assumptions C68_any_partial.

(** [r.extend(sorted(xs, key=f))] where [f] is a traced function that calls [g(y)]; the calls are 1, 2, 3. *)
Definition ex_call : block :=
  BCons false
    (Call Leaf 1 (ACons None (7, [20])
       (Call Leaf 2 (ACons None (8, [21]) Leaf (ACons (Some 5) (9, [22]) Leaf ANil))
          (CCons (BCons false (Call Leaf 3 (ACons None (6, [23]) Leaf ANil) CNil) BNil) CNil)) ANil) CNil)
    BNil.
Definition ex_out (i : nat) : option nat := match i with 1 => Some none | 2 => Some 7 | _ => Some 11 end.

Example C68_ex :
  quiet ex_out ex_call /\ keywords_differ (sites_block ex_call) /\ sites_differ (sites_block ex_call)
  /\ finished_block (fun _ => true) ex_out ex_call =
     [ [ {| h_call := 3; h_args := [(6, [23])]; h_kwargs := []; h_ret := Some 11 |} ];
       [ {| h_call := 2; h_args := [(8, [21])]; h_kwargs := [(5, (9, [22]))]; h_ret := Some 7 |};
         {| h_call := 1; h_args := [(7, [20])]; h_kwargs := []; h_ret := Some none |} ] ].
Proof.
  split; [|split; [|split]].
  - split; [cbn; tauto|]. intros i a H. cbn in H.
    destruct H as [H|[H|[H|[]]]]; injection H as <- <-; discriminate.
  - intros i a H. cbn in H.
    destruct H as [H|[H|[H|[]]]]; injection H as <- <-; cbn; repeat constructor; cbn; tauto.
  - cbn. unfold sites_differ. cbn. repeat constructor; cbn; intuition discriminate.
  - reflexivity.
Qed.

(** The handler of a call that raised is not thrown away: it runs with the next statement that finishes, and
    it takes the result of another call for the result of its own. Here [xs.m(y)] (call 1) raises, the
    exception is caught, and then the traced function [f()] (call 2) returns None. *)
Theorem C68_raised_refuted : exists has out b s h,
  keywords_differ (sites_block b) /\ sites_differ (sites_block b)
  /\ run has (fst (events_block out b)) state0 = Ok s
  /\ completes out b = [Call Leaf 2 ANil CNil]
  /\ own has out (Call Leaf 2 ANil CNil) = []
  /\ done s = [[h]] /\ h_call h = 1 /\ out 1 = None /\ h_ret h = out 2.
Proof.
  exists (fun i => i =? 1), (fun i => if i =? 1 then None else Some none),
    (BCons true (Call Leaf 1 (ACons None (6, [20]) Leaf ANil) CNil) (BCons false (Call Leaf 2 ANil CNil) BNil)).
  eexists. eexists. split.
  { intros i a H. cbn in H. destruct H as [H|[H|[]]]; injection H as <- <-; cbn; repeat constructor. }
  split; [unfold sites_differ; cbn; repeat constructor; cbn; intuition discriminate|].
  split; [reflexivity|]. split; [reflexivity|]. split; [reflexivity|]. cbn.
  split; [reflexivity|]. cbn. auto.
Qed.
Print Assumptions C68_raised_refuted.

(** What a statement completed before it raised is not handled with that statement but with the next one in
    the same frame, and never if there is none. *)
Theorem C68_late_refuted : exists has out e s s',
  (exists h, own has out e = [h] /\ out (h_call h) <> None)
  /\ run has (fst (events_block out (BCons true (Seq e Fail) (BCons false Leaf BNil)))) state0 = Ok s
  /\ completes out (BCons true (Seq e Fail) (BCons false Leaf BNil)) = [Leaf]
  /\ done s = [own has out e]
  /\ run has (fst (events_block out (BCons true (Seq e Fail) BNil))) state0 = Ok s' /\ done s' = [].
Proof.
  exists (fun _ => true), (fun _ => Some none), (Call Leaf 1 (ACons None (6, [20]) Leaf ANil) CNil).
  eexists. eexists. split; [eexists; split; [reflexivity|discriminate]|].
  split; [reflexivity|]. split; [reflexivity|]. split; [reflexivity|]. split; reflexivity.
Qed.
Print Assumptions C68_late_refuted.

(** * C69: a library call marks as changed what it may have changed *)

(** A method that has no annotation: the symbols of its object are changed if and only if it returns None or
    the object. They keep what they depended on, and come to depend on the arguments. *)
Theorem C69_method_partial : forall E base t h o s,
  t_kind t = KStandard -> t_caller t = Some o ->
  ((exists u, In u (handle E base t h) /\ u_sym u = s)
   <-> (h_ret h = Some none \/ h_ret h = Some o) /\ stands_for E base o s)
  /\ forall u, In u (handle E base t h) ->
       u_mutated u = true /\ u_overwrite u = false /\ u_descend u = true
       /\ forall d, In d (u_deps u) <-> arg_symbol h d.
Proof.
  intros E base t h o s K C. unfold handle. rewrite K.
  pose proof (fun u => standard_method E base t h o u C) as M. split.
  - split.
    + intros (u & U & <-). apply M in U. destruct U as (R & s' & F & ->). split; [exact R|]. exact F.
    + intros [R F]. exists (mutate (arg_syms h) s). split; [|reflexivity]. apply M. split; [exact R|]. exists s. auto.
  - intros u U. apply M in U. destruct U as (_ & s' & _ & ->). cbn. repeat split; auto; apply In_arg_syms.
Qed.
Print Assumptions C69_method_partial.

(** A function of a module that has no annotation changes something only if it returns None: the module, and
    its first argument with what goes with it. *)
Theorem C69_function_partial : forall E base t h m s,
  t_kind t = KStandard -> t_caller t = None -> t_module t = Some m ->
  (exists u, In u (handle E base t h) /\ u_sym u = s)
  <-> h_ret h = Some none /\ (In s (aliases E m) \/ may_change_argument E m h s).
Proof.
  intros E base t h m s K C M. unfold handle. rewrite K.
  pose proof (fun u => standard_function E base t h m u C M) as F. split.
  - intros (u & U & <-). apply F in U. destruct U as (R & [(s' & A & ->)|(s' & A & ->)]); split; auto.
  - intros [R [A|A]].
    + exists (mutate (arg_syms h) s). split; [|reflexivity]. apply F. split; [exact R|]. left. exists s. auto.
    + exists (arg_update s). split; [|reflexivity]. apply F. split; [exact R|]. right. exists s. auto.
Qed.
Print Assumptions C69_function_partial.

(** A function of no module, without an annotation, changes nothing. *)
Theorem C69_nothing_partial : forall E base t h,
  t_kind t = KStandard -> t_caller t = None -> t_module t = None -> handle E base t h = [].
Proof. intros E base t h K C M. unfold handle, handle_standard. rewrite K, C, M. reflexivity. Qed.
Print Assumptions C69_nothing_partial.

(** With an annotation the result does not matter: the object, the module or the arguments are changed. *)
Theorem C69_annotated_partial : forall E base t h s,
  let changed := exists u, In u (handle E base t h) /\ u_sym u = s in
  (t_kind t = KCallerMutation -> (changed <-> exists o, t_caller t = Some o /\ stands_for E base o s))
  /\ (t_kind t = KModuleMutation -> (changed <-> exists m, t_module t = Some m /\ In s (aliases E m)))
  /\ (t_kind t = KArgMutate -> (changed <-> arg_symbol h s /\ is_anonymous E s = false))
  /\ (forall o, t_kind t = KCallerUpsert -> t_caller t = Some o -> (changed <-> In s (aliases E o)))
  /\ (forall m, t_kind t = KModuleUpsert -> t_module t = Some m -> (changed <-> In s (aliases E m))).
Proof.
  intros E base t h s. cbn zeta. unfold handle. repeat split.
  - rewrite H. intros (u & U & <-). destruct (t_caller t) as [o|]; [|destruct U]. exists o.
    split; [reflexivity|]. apply mutate_caller_spec in U. destruct U as (s' & F & ->). exact F.
  - rewrite H. intros (o & -> & F). exists (mutate (arg_syms h) s). split; [|reflexivity].
    apply mutate_caller_spec. exists s. auto.
  - rewrite H. intros (u & U & <-). destruct (t_module t) as [m|]; [|destruct U]. exists m.
    split; [reflexivity|]. apply mutate_module_spec in U. destruct U as (s' & F & ->). exact F.
  - rewrite H. intros (o & -> & F). exists (mutate (arg_syms h) s). split; [|reflexivity].
    apply mutate_module_spec. exists s. auto.
  - rewrite H in *. destruct H0 as (u & U & <-). apply mutate_args_spec in U. destruct U as (s' & F & _ & ->).
    apply In_arg_syms. exact F.
  - rewrite H in *. destruct H0 as (u & U & <-). apply mutate_args_spec in U. destruct U as (s' & _ & F & ->). exact F.
  - rewrite H. intros [A B]. exists (arg_update s). split; [|reflexivity]. apply mutate_args_spec. exists s.
    apply In_arg_syms in A. auto.
  - rewrite H, H0. intros (u & U & <-). unfold upsert in U. apply in_map_iff in U. destruct U as (s' & <- & U). exact U.
  - rewrite H, H0. intros A. eexists. split; [apply in_map; exact A|]. reflexivity.
  - rewrite H, H0. intros (u & U & <-). unfold upsert in U. apply in_map_iff in U. destruct U as (s' & <- & U). exact U.
  - rewrite H, H0. intros A. eexists. split; [apply in_map; exact A|]. reflexivity.
Qed.
Print Assumptions C69_annotated_partial.

(** From the program to the marks: in a program whatever raises, if a statement completes, and in it a call of a
    method without annotation returns None, then every symbol that stands for the object is marked as
    changed when a statement finishes. *)
Theorem C69_seen_partial : forall E facts out b e i a o m s,
  keywords_differ (sites_block b) -> In e (completes out b) ->
  reaches E (facts i) o m -> kind_of (resolve E true (facts i)) = Some KStandard ->
  In (completed i a none) (own (has_handler E facts) out e) ->
  stands_for E (c_base (facts i)) o s ->
  exists st hs u, run (has_handler E facts) (fst (events_block out b)) state0 = Ok st
    /\ In hs (done st) /\ In u (handle_all E facts hs) /\ u_sym u = s
    /\ (forall d, In d (u_deps u) <-> arg_symbol (completed i a none) d).
Proof.
  intros E facts out b e i a o m s K He Hr Hk Ho Hs.
  destruct (C68_any_partial (has_handler E facts) out b K) as (st & R & _ & _ & F).
  destruct (F e He) as (left & Hl).
  destruct (resolve E true (facts i)) as [t|] eqn:T; [|discriminate].
  assert (C : t_caller t = Some o).
  { unfold resolve in T. rewrite (r_object _ _ _ _ Hr), (r_method _ _ _ _ Hr) in T. cbn [test] in T.
    rewrite (r_no_module _ _ _ _ Hr) in T.
    repeat match type of T with
           | (if ?x then _ else _) = _ => destruct x; [discriminate|]
           | (let '(_, _) := ?x in _) = _ => destruct x as [[[]|] ?]
           end; try discriminate; injection T as <-; reflexivity. }
  cbn in Hk. injection Hk as Hk.
  set (h := completed i a none) in *.
  set (u := mutate (arg_syms h) s).
  exists st, (left ++ own (has_handler E facts) out e), u. split; [exact R|]. split; [exact Hl|]. split.
  - unfold handle_all. apply in_flat_map. exists h. split; [apply in_or_app; right; exact Ho|].
    change (h_call h) with i. rewrite T. unfold handle. rewrite Hk.
    apply (standard_method E (c_base (facts i)) t h o u C). split; [left; reflexivity|]. exists s. auto.
  - split; [reflexivity|]. intros d. apply In_arg_syms.
Qed.
Print Assumptions C69_seen_partial.

(** A method that is annotated as changing its object, but whose event is not implemented yet — [dict.pop],
    [dict.popitem], [dict.setdefault] and [set.pop] — is found to be such before the cell runs, but nothing
    is marked as changed if it returns anything but None, as these do. *)
Theorem C69_pop_refuted : forall E c o m cls h t v,
  reaches E c o m -> is_type E o = false ->
  (forall f, c_function c = Some f -> by_function E (canonical E f) = Some KNotYet) ->
  nearest (by_method E) m (mro E (type_of E o)) (Some (cls, KNotYet)) ->
  resolve E true c = Some t -> h_ret h = Some v -> v <> none -> v <> o ->
  resolve E false {| c_module := None; c_object := Some o; c_function := None; c_method := Some m; c_base := None |}
    <> None
  /\ handle E (c_base c) t h = [].
Proof.
  intros E c o m cls h t v R T F N Rs V V1 V2. split.
  - unfold resolve. cbn [c_module c_object c_function c_method option_map test].
    rewrite (r_no_module _ _ _ _ R). cbn [test orb]. rewrite (r_no_logging _ _ _ _ R), (r_no_logger _ _ _ _ R).
    cbn [test orb]. replace (existsb (is_class E) (aliases E (type_of E o))) with false.
    2:{ symmetry. apply not_true_is_false. intros X. apply existsb_exists in X. destruct X as (s & S1 & S2).
        rewrite (r_no_notebook _ _ _ _ R s S1) in S2. discriminate. }
    cbn [negb andb]. rewrite T. rewrite <- (nearest_fun _ _ _ _ _ N (find_method_nearest E m _)). discriminate.
  - assert (KC : t_kind t = KStandard /\ t_caller t = Some o).
    { unfold resolve in Rs. rewrite (r_object _ _ _ _ R), (r_method _ _ _ _ R) in Rs. cbn [test] in Rs.
      rewrite (r_no_module _ _ _ _ R) in Rs.
      repeat match type of Rs with (if ?x then _ else _) = _ => destruct x; [discriminate|] end.
      destruct (c_function c) as [f|] eqn:Cf; cbn [option_map] in Rs.
      - rewrite (F f eq_refl) in Rs. injection Rs as <-. auto.
      - rewrite T in Rs. rewrite <- (nearest_fun _ _ _ _ _ N (find_method_nearest E m _)) in Rs.
        injection Rs as <-. auto. }
    destruct KC as [K C]. destruct (handle E (c_base c) t h) as [|u us] eqn:Hu; [reflexivity|]. exfalso.
    assert (U : In u (handle E (c_base c) t h)) by (rewrite Hu; left; reflexivity).
    unfold handle in U. rewrite K in U. apply (standard_method E (c_base c) t h o u C) in U.
    destruct U as [[U|U] _]; congruence.
Qed.
Print Assumptions C69_pop_refuted.

(** An annotation that upserts the module, on a function whose module is unknown, overwrites the dependencies of
    every symbol whose value is None. *)
Theorem C69_upsert_none_refuted : forall E base t h s,
  t_kind t = KModuleUpsert -> t_module t = None -> In s (aliases E none) ->
  exists u, In u (handle E base t h) /\ u_sym u = s /\ u_overwrite u = true.
Proof.
  intros E base t h s K M A. unfold handle. rewrite K, M. unfold upsert. eexists. split; [apply in_map; exact A|].
  split; reflexivity.
Qed.
Print Assumptions C69_upsert_none_refuted.

(** A small world: object 10 has class 30, is called [x] (name 1, symbol 50) and [y] (name 2, symbol 51); object 11
    is a dict, with class 31, whose method 40 (function 60) is not implemented yet; symbol 52 is its name. *)
Definition ex_env : env := {|
  is_module := fun o => o =? 12; is_logging := fun _ => false; is_main := fun _ => false;
  is_print := fun _ => false; is_logger := fun _ => false; is_type := fun o => 30 <=? o;
  type_of := fun o => match o with 10 => 30 | 11 => 31 | _ => 32 end;
  mro := fun c => [c; 33];
  bound := fun f => if f =? 61 then Some (31, 40) else None;
  attr := fun c m => if (c =? 31) && (m =? 40) then Some 60 else None;
  modname := fun _ => 99; hashable := fun _ => true; is_plain := fun _ => false; is_excepted := fun _ => false;
  by_function := fun f => if f =? 60 then Some KNotYet else None;
  by_method := fun c m => if (c =? 31) && (m =? 40) then Some KNotYet else None;
  aliases := fun o => match o with 0 => [54] | 10 => [50; 51] | 11 => [52] | 12 => [53] | _ => [] end;
  is_class := fun _ => false;
  sym_name := fun s => match s with 50 => 1 | 51 => 2 | _ => 3 end;
  is_anonymous := fun _ => false;
  parents := fun s => if s =? 57 then [56] else []
|}.

(** [x.m(z)] *)
Definition ex_method : call :=
  {| c_module := None; c_object := Some 10; c_function := None; c_method := Some 41; c_base := Some 1 |}.
(** [d.pop(k)] *)
Definition ex_pop : call :=
  {| c_module := None; c_object := Some 11; c_function := Some 61; c_method := Some 40; c_base := Some 3 |}.

Lemma ex_reaches_method : reaches ex_env ex_method 10 41.
Proof. split; try reflexivity; try discriminate. Qed.
Lemma ex_reaches_pop : reaches ex_env ex_pop 11 40.
Proof.
  split; try reflexivity; try discriminate.
  intros f H. injection H as <-. split; reflexivity.
Qed.

(** [x.m(z)] returning None changes [x], not [y]; returning something else it changes nothing. *)
Example C69_method_ex :
  exists t, resolve ex_env true ex_method = Some t /\ t_kind t = KStandard /\ t_caller t = Some 10
  /\ map u_sym (handle ex_env (Some 1) t {| h_call := 1; h_args := [(6, [55])]; h_kwargs := []; h_ret := Some none |}) = [50]
  /\ map u_sym (handle ex_env None t {| h_call := 1; h_args := [(6, [55])]; h_kwargs := []; h_ret := Some 10 |}) = [50; 51]
  /\ handle ex_env (Some 1) t {| h_call := 1; h_args := [(6, [55])]; h_kwargs := []; h_ret := Some 7 |} = [].
Proof. eexists. split; [reflexivity|]. repeat split. Qed.

(** [mod.f(a, b, c)] returning None changes the module, [a], and [c], which depends on [a]. *)
Example C69_function_ex :
  exists t, resolve ex_env true {| c_module := None; c_object := Some 12; c_function := None; c_method := Some 42; c_base := None |} = Some t
  /\ t_kind t = KStandard /\ t_caller t = None /\ t_module t = Some 12
  /\ map u_sym (handle ex_env None t
       {| h_call := 1; h_args := [(6, [56]); (7, [58]); (8, [57])]; h_kwargs := []; h_ret := Some none |}) = [53; 56; 57].
Proof. eexists. split; [reflexivity|]. repeat split. Qed.

Example C69_annotated_ex :
  map u_sym (handle ex_env (Some 1) {| t_kind := KCallerMutation; t_module := None; t_caller := Some 10 |}
       {| h_call := 1; h_args := [(6, [55])]; h_kwargs := []; h_ret := Some 7 |}) = [50]
  /\ map u_sym (handle ex_env (Some 1) {| t_kind := KModuleUpsert; t_module := None; t_caller := None |}
       {| h_call := 1; h_args := []; h_kwargs := []; h_ret := Some 7 |}) = [54]
  /\ map u_sym (handle ex_env None {| t_kind := KModuleMutation; t_module := Some 12; t_caller := None |}
       {| h_call := 1; h_args := []; h_kwargs := []; h_ret := Some 7 |}) = [53]
  /\ map u_sym (handle ex_env None {| t_kind := KArgMutate; t_module := None; t_caller := None |}
       {| h_call := 1; h_args := [(6, [55])]; h_kwargs := [(1, (7, [56]))]; h_ret := Some 7 |}) = [55; 56].
Proof. repeat split. Qed.

Example C69_seen_ex :
  let b := BCons true Fail (BCons false (Call Leaf 1 (ACons None (6, [55]) Leaf ANil) CNil) BNil) in
  let out := fun _ : nat => Some none in
  let facts := fun _ : nat => ex_method in
  keywords_differ (sites_block b)
  /\ In (Call Leaf 1 (ACons None (6, [55]) Leaf ANil) CNil) (completes out b)
  /\ kind_of (resolve ex_env true (facts 1)) = Some KStandard
  /\ In (completed 1 (ACons None (6, [55]) Leaf ANil) none)
        (own (has_handler ex_env facts) out (Call Leaf 1 (ACons None (6, [55]) Leaf ANil) CNil))
  /\ stands_for ex_env (c_base (facts 1)) 10 50.
Proof.
  cbn zeta. split.
  { intros i a [H|[]]. injection H as <- <-. cbn. constructor. }
  split; [left; reflexivity|]. split; [reflexivity|]. split; [left; reflexivity|].
  split; [left; reflexivity|]. left. reflexivity.
Qed.

Example C69_pop_ex :
  reaches ex_env ex_pop 11 40 /\ is_type ex_env 11 = false
  /\ (forall f, c_function ex_pop = Some f -> by_function ex_env (canonical ex_env f) = Some KNotYet)
  /\ nearest (by_method ex_env) 40 (mro ex_env (type_of ex_env 11)) (Some (31, KNotYet))
  /\ exists t, resolve ex_env true ex_pop = Some t.
Proof.
  split; [exact ex_reaches_pop|]. split; [reflexivity|].
  split; [intros f H; injection H as <-; reflexivity|].
  split; [apply nearest_here; reflexivity|]. eexists. reflexivity.
Qed.

(** A call that raised may be marked as having changed its object: by the result of another call. Here [x.m(z)]
    raises, which is caught, and then [fs[k]()] returns None. *)
Theorem C69_raised_refuted : exists E facts out b st s,
  run (has_handler E facts) (fst (events_block out b)) state0 = Ok st
  /\ completes out b = [Call Leaf 2 ANil CNil] /\ has_handler E facts 2 = false /\ out 1 = None
  /\ kind_of (resolve E true (facts 1)) = Some KStandard
  /\ flat_map (fun hs => map u_sym (handle_all E facts hs)) (done st) = [s].
Proof.
  exists ex_env,
    (fun i => if i =? 1 then ex_method
              else {| c_module := None; c_object := Some 11; c_function := None; c_method := None; c_base := None |}),
    (fun i => if i =? 1 then None else Some none),
    (BCons true (Call Leaf 1 (ACons None (6, [55]) Leaf ANil) CNil) (BCons false (Call Leaf 2 ANil CNil) BNil)).
  eexists. exists 50. repeat (split; [reflexivity|]). reflexivity.
Qed.
Print Assumptions C69_raised_refuted.

(** * C70: a call gets the handler that was annotated for it *)

(** A method whose function has no annotation of its own gets what was annotated for the nearest class of its
    object; nothing if that is NoopCallHandler; the standard handler if there is none. *)
Theorem C70_method_partial : forall E c o m n,
  reaches E c o m -> is_type E o = false ->
  (forall f, c_function c = Some f -> by_function E (canonical E f) = None) ->
  nearest (by_method E) m (mro E (type_of E o)) n ->
  kind_of (resolve E true c) = asked (option_map snd n)
  /\ forall t, resolve E true c = Some t -> t_caller t = Some o.
Proof.
  intros E c o m n R T F N. rewrite (nearest_fun _ _ _ _ _ N (find_method_nearest E m _)).
  assert (X : test (is_logging E) (c_module c) || test (is_main E) (c_module c)
              || test (is_print E) (option_map (canonical E) (c_function c)) = false).
  { destruct (c_module c) as [x|] eqn:M; cbn.
    - destruct (r_module _ _ _ _ R x M) as [-> ->]. cbn.
      destruct (c_function c) as [f|] eqn:Cf; cbn; [|reflexivity]. apply (r_function _ _ _ _ R f Cf).
    - destruct (c_function c) as [f|] eqn:Cf; cbn; [|reflexivity]. apply (r_function _ _ _ _ R f Cf). }
  assert (Y : test (fun g => negb (hashable E g)) (option_map (canonical E) (c_function c)) = false).
  { destruct (c_function c) as [f|] eqn:Cf; cbn; [|reflexivity].
    destruct (r_function _ _ _ _ R f Cf) as [_ ->]. reflexivity. }
  assert (W : existsb (is_class E) (aliases E (type_of E o)) = false).
  { apply not_true_is_false. intros Q. apply existsb_exists in Q. destruct Q as (s & S1 & S2).
    rewrite (r_no_notebook _ _ _ _ R s S1) in S2. discriminate. }
  assert (V : match option_map (canonical E) (c_function c) with Some g => by_function E g | None => None end = None).
  { destruct (c_function c) as [f|] eqn:Cf; cbn; [|reflexivity]. apply F. reflexivity. }
  unfold resolve. rewrite (r_object _ _ _ _ R), (r_method _ _ _ _ R). cbn [test].
  rewrite (r_no_module _ _ _ _ R), X. cbn [test].
  rewrite (r_no_logging _ _ _ _ R), (r_no_logger _ _ _ _ R), W, Y, V, T. cbn [orb andb negb].
  destruct (find_method E m (mro E (type_of E o))) as [[cls k]|]; cbn.
  - destruct k; cbn; (split; [reflexivity|]); intros t H; try discriminate; injection H as <-; reflexivity.
  - split; [reflexivity|]. intros t H. injection H as <-. reflexivity.
Qed.
Print Assumptions C70_method_partial.

(** A function that has an annotation gets what was annotated, however it is called. *)
Theorem C70_function_partial : forall E c f k,
  c_function c = Some f -> by_function E (canonical E f) = Some k ->
  is_print E (canonical E f) = false -> hashable E (canonical E f) = true ->
  (forall x, c_module c = Some x -> is_logging E x = false /\ is_main E x = false) ->
  (c_object c = None \/ exists o m, reaches E c o m) ->
  kind_of (resolve E true c) = asked (Some k).
Proof.
  intros E c f k Cf B Pr Ha M O. unfold resolve. rewrite Cf. cbn [option_map test]. rewrite B, Pr, Ha. cbn [negb].
  assert (X : test (is_logging E) (c_module c) || test (is_main E) (c_module c) = false).
  { destruct (c_module c) as [x|] eqn:Mx; cbn; [|reflexivity]. destruct (M x eq_refl) as [-> ->]. reflexivity. }
  destruct O as [O|(o & m & R)].
  - rewrite O. cbn [test orb andb]. rewrite X. cbn [orb]. destruct k; reflexivity.
  - rewrite (r_object _ _ _ _ R), (r_method _ _ _ _ R). cbn [test].
    rewrite (r_no_module _ _ _ _ R), X. cbn [test]. rewrite (r_no_logging _ _ _ _ R), (r_no_logger _ _ _ _ R).
    assert (W : existsb (is_class E) (aliases E (type_of E o)) = false).
    { apply not_true_is_false. intros Q. apply existsb_exists in Q. destruct Q as (s & S1 & S2).
      rewrite (r_no_notebook _ _ _ _ R s S1) in S2. discriminate. }
    rewrite W. cbn [orb andb negb]. destruct k; reflexivity.
Qed.
Print Assumptions C70_function_partial.

(** From the annotation files to the call: an annotation for a method of a class applies to every call of the
    method on an instance of the class, if no other annotation speaks of the same class and method, and
    none with another meaning speaks of the same function. *)
Theorem C70_registered_partial : forall E classes functions c o cls m k rest f,
  registered E classes functions ->
  In (cls, m, k) classes -> (forall k', In (cls, m, k') classes -> k' = k) ->
  (forall c' m' k' g, In (c', m', k') classes -> attr E c' m' = Some g -> c_function c = Some f ->
     canonical E f = g -> k' = k) ->
  (forall k', ~ In (canonical E f, k') functions) ->
  reaches E c o m -> is_type E o = false -> c_function c = Some f ->
  mro E (type_of E o) = cls :: rest ->
  kind_of (resolve E true c) = asked (Some k).
Proof.
  intros E classes functions c o cls m k rest f [RF RM] I U UF UG R T Cf Mr.
  assert (BM : by_method E cls m = Some k).
  { rewrite RM. unfold register. destruct (register_functions functions
      (fold_left (register_method (attr E)) classes (fun _ => None, fun _ _ => None))) as [A _].
    rewrite A. apply register_methods; auto. }
  destruct (by_function E (canonical E f)) as [k0|] eqn:B.
  - assert (k0 = k) as ->.
    { rewrite RF in B. unfold register in B.
      destruct (register_functions functions
        (fold_left (register_method (attr E)) classes (fun _ => None, fun _ _ => None))) as [_ A].
      rewrite A in B; [|exact UG].
      destruct (existsb (fun x : nat * nat * kind => let '(c', m', _) := x in
                  match attr E c' m' with Some g => g =? canonical E f | None => false end) classes) eqn:X.
      - apply existsb_exists in X. destruct X as (((c', m'), k') & X1 & X2).
        destruct (attr E c' m') as [g|] eqn:G; [|discriminate]. apply Nat.eqb_eq in X2. subst g.
        assert (k' = k) as -> by (apply (UF c' m' k' _ X1 G Cf eq_refl)).
        rewrite (register_methods_function (attr E) classes (fun _ => None, fun _ _ => None) (canonical E f) k) in B.
        + injection B as <-. reflexivity.
        + intros c1 m1 k1 I1 A1. apply (UF c1 m1 k1 _ I1 A1 Cf eq_refl).
        + left. exists c', m'. auto.
      - rewrite register_methods_no_function in B; [discriminate|].
        intros c1 m1 k1 I1 A1. assert (Y : existsb (fun x : nat * nat * kind => let '(c', m', _) := x in
                  match attr E c' m' with Some g => g =? canonical E f | None => false end) classes = true).
        { apply existsb_exists. exists (c1, m1, k1). split; [exact I1|]. rewrite A1. apply Nat.eqb_refl. }
        congruence. }
    destruct (r_function _ _ _ _ R f Cf) as [P1 P2].
    apply (C70_function_partial E c f k Cf B P1 P2 (r_module _ _ _ _ R)). right. exists o, m. exact R.
  - destruct (C70_method_partial E c o m (Some (cls, k)) R T) as [A _]; [|rewrite Mr; apply nearest_here; exact BM|exact A].
    intros g Cg. rewrite Cf in Cg. injection Cg as <-. exact B.
Qed.
Print Assumptions C70_registered_partial.

(** An annotation of a function applies to its calls as a function, if it is not a bound method. *)
Theorem C70_registered_function_partial : forall E classes functions c f k,
  registered E classes functions -> In (f, k) functions -> (forall k', In (f, k') functions -> k' = k) ->
  bound E f = None -> c_function c = Some f -> c_object c = None ->
  is_print E f = false -> hashable E f = true ->
  (forall x, c_module c = Some x -> is_logging E x = false /\ is_main E x = false) ->
  kind_of (resolve E true c) = asked (Some k).
Proof.
  intros E classes functions c f k [RF _] I U B Cf Co Pr Ha M.
  assert (X : canonical E f = f) by (unfold canonical; rewrite B; reflexivity).
  apply (C70_function_partial E c f k Cf); rewrite ?X; auto.
  rewrite RF. unfold register. apply register_functions_found; auto.
Qed.
Print Assumptions C70_registered_function_partial.

(** Nothing that the notebook defines, and no logger or [print], gets a handler. *)
Theorem C70_left_alone_partial : forall E d c,
  (exists o s, c_object c = Some o /\ is_module E o = false /\ In s (aliases E (type_of E o)) /\ is_class E s = true)
  \/ (exists m, c_module c = Some m /\ (is_main E m = true \/ is_logging E m = true))
  \/ (exists o, c_object c = Some o /\ is_module E o = false /\ is_logger E o = true)
  \/ (exists f, c_function c = Some f /\ is_print E (canonical E f) = true) ->
  resolve E d c = None.
Proof.
  intros E d c H. unfold resolve.
  destruct H as [(o & s & Co & Mo & S1 & S2)|[(m & Cm & H)|[(o & Co & Mo & L)|(f & Cf & P)]]].
  - rewrite Co. cbn [test]. rewrite Mo. cbn [test].
    replace (existsb (is_class E) (aliases E (type_of E o))) with true
      by (symmetry; apply existsb_exists; exists s; auto).
    repeat match goal with |- context [if ?x then None else _] => destruct x; [reflexivity|] end. discriminate || reflexivity.
  - rewrite Cm. replace (if test (is_module E) (c_object c) then Some m else Some m) with (Some m)
      by (destruct (test (is_module E) (c_object c)); reflexivity).
    cbn [test]. destruct H as [-> | ->]; rewrite ?orb_true_r; reflexivity.
  - rewrite Co. cbn [test]. rewrite Mo. cbn [test]. rewrite L, orb_true_r.
    destruct (_ || _ || _); reflexivity.
  - rewrite Cf. cbn [option_map test]. rewrite P, !orb_true_r. reflexivity.
Qed.
Print Assumptions C70_left_alone_partial.

(** Two classes with different annotations may share the function of a method, because one inherits it: then the
    annotation that was registered last applies to both. Classes 30 and 31 share function 60. *)
Definition shared_attr (c m : nat) : option nat := if m =? 40 then Some 60 else None.
Definition shared_classes : list (nat * nat * kind) := [(30, 40, KCallerMutation); (31, 40, KNoop)].
Definition shared_env : env := {|
  is_module := fun _ => false; is_logging := fun _ => false; is_main := fun _ => false;
  is_print := fun _ => false; is_logger := fun _ => false; is_type := fun o => 30 <=? o;
  type_of := fun o => match o with 10 => 30 | _ => 31 end;
  mro := fun c => match c with 30 => [30; 31] | _ => [c] end;
  bound := fun f => if f =? 61 then Some (30, 40) else None;
  attr := shared_attr;
  modname := fun _ => 99; hashable := fun _ => true; is_plain := fun _ => false; is_excepted := fun _ => false;
  by_function := fst (register shared_attr shared_classes []);
  by_method := snd (register shared_attr shared_classes []);
  aliases := fun _ => []; is_class := fun _ => false; sym_name := fun s => s;
  is_anonymous := fun _ => false; parents := fun _ => []
|}.

Theorem C70_shared_refuted : exists E classes c o m cls k,
  registered E classes [] /\ In (cls, m, k) classes /\ (forall k', In (cls, m, k') classes -> k' = k)
  /\ reaches E c o m /\ is_type E o = false /\ nearest (by_method E) m (mro E (type_of E o)) (Some (cls, k))
  /\ asked (Some k) = Some k /\ resolve E true c = None.
Proof.
  exists shared_env, shared_classes,
    {| c_module := None; c_object := Some 10; c_function := Some 61; c_method := Some 40; c_base := Some 1 |},
    10, 40, 30, KCallerMutation.
  split; [split; reflexivity|]. split; [left; reflexivity|].
  split; [intros k' [H|[H|[]]]; congruence|].
  split; [split; try reflexivity; try discriminate; [..|intros f H; injection H as <-; split; reflexivity]; intros s []|].
  split; [reflexivity|]. split; [apply nearest_here; reflexivity|]. split; reflexivity.
Qed.
Print Assumptions C70_shared_refuted.

(** The annotation of a function that is a bound method, like [random.seed], is never found: functions are registered
    as they are, but looked up as functions of the class of their object. *)
Theorem C70_bound_refuted : forall E classes functions c f g cls m k,
  registered E classes functions -> In (f, k) functions ->
  bound E f = Some (cls, m) -> attr E cls m = Some g ->
  (forall k', ~ In (g, k') functions) -> (forall c' m' k', In (c', m', k') classes -> attr E c' m' <> Some g) ->
  c_function c = Some f -> c_object c = None ->
  is_print E g = false -> hashable E g = true ->
  (forall x, c_module c = Some x -> is_logging E x = false /\ is_main E x = false) ->
  kind_of (resolve E true c) = Some KStandard.
Proof.
  intros E classes functions c f g cls m k [RF _] I B A N1 N2 Cf Co Pr Ha M.
  assert (X : canonical E f = g) by (unfold canonical; rewrite B, A; reflexivity).
  assert (Y : by_function E g = None).
  { rewrite RF. unfold register. destruct (register_functions functions
      (fold_left (register_method (attr E)) classes (fun _ => None, fun _ _ => None))) as [_ Z].
    rewrite Z by exact N1. rewrite register_methods_no_function by exact N2. reflexivity. }
  unfold resolve. rewrite Cf, Co. cbn [option_map test]. rewrite X, Pr, Ha, Y. cbn [negb orb andb].
  assert (W : test (is_logging E) (c_module c) || test (is_main E) (c_module c) = false).
  { destruct (c_module c) as [x|] eqn:Mx; cbn; [|reflexivity]. destruct (M x eq_refl) as [-> ->]. reflexivity. }
  rewrite W. reflexivity.
Qed.
Print Assumptions C70_bound_refuted.

(** [Mutate[__module__]] on a method that is found through the class marks nothing: the module is then the name of a
    module. *)
Theorem C70_module_refuted : forall E c o m cls h t,
  reaches E c o m -> is_type E o = false ->
  (forall f, c_function c = Some f -> by_function E (canonical E f) = None) ->
  nearest (by_method E) m (mro E (type_of E o)) (Some (cls, KModuleMutation)) ->
  aliases E (modname E cls) = [] -> resolve E true c = Some t -> handle E (c_base c) t h = [].
Proof.
  intros E c o m cls h t R T F N A H.
  unfold resolve in H. rewrite (r_object _ _ _ _ R), (r_method _ _ _ _ R) in H. cbn [test] in H.
  rewrite (r_no_module _ _ _ _ R) in H.
  repeat match type of H with (if ?x then _ else _) = _ => destruct x; [discriminate|] end.
  replace (match option_map (canonical E) (c_function c) with Some g => by_function E g | None => None end)
    with (@None kind) in H.
  - rewrite T in H. rewrite <- (nearest_fun _ _ _ _ _ N (find_method_nearest E m _)) in H.
    injection H as <-. cbn. rewrite A. reflexivity.
  - destruct (c_function c) as [f|] eqn:Cf; [|reflexivity]. cbn. symmetry. apply F. reflexivity.
Qed.
Print Assumptions C70_module_refuted.

(** The world above with one annotated method, one annotated function (62) and one annotated bound method (63) of a
    class that has no annotation. *)
Definition reg_attr (c m : nat) : option nat :=
  if (c =? 31) && (m =? 40) then Some 60 else if (c =? 34) && (m =? 43) then Some 64 else None.
Definition reg_classes : list (nat * nat * kind) := [(31, 40, KCallerMutation); (33, 44, KModuleMutation)].
Definition reg_functions : list (nat * kind) := [(62, KNoop); (63, KModuleMutation)].
Definition reg_env : env := {|
  is_module := fun o => o =? 12; is_logging := fun _ => false; is_main := fun o => o =? 13;
  is_print := fun _ => false; is_logger := fun o => o =? 14; is_type := fun o => 30 <=? o;
  type_of := fun o => match o with 10 => 30 | 11 => 31 | _ => 32 end;
  mro := fun c => [c; 33];
  bound := fun f => match f with 61 => Some (31, 40) | 63 => Some (34, 43) | _ => None end;
  attr := reg_attr;
  modname := fun _ => 99; hashable := fun _ => true; is_plain := fun _ => false; is_excepted := fun _ => false;
  by_function := fst (register reg_attr reg_classes reg_functions);
  by_method := snd (register reg_attr reg_classes reg_functions);
  aliases := fun o => match o with 10 => [50; 51] | 11 => [52] | 12 => [53] | 32 => [54] | _ => [] end;
  is_class := fun s => s =? 54; sym_name := fun s => s;
  is_anonymous := fun _ => false; parents := fun _ => []
|}.

Example C70_ex :
  registered reg_env reg_classes reg_functions
  /\ reaches reg_env ex_pop 11 40
  /\ kind_of (resolve reg_env true ex_pop) = Some KCallerMutation
  /\ kind_of (resolve reg_env true ex_method) = Some KStandard
  /\ resolve reg_env true {| c_module := Some 12; c_object := None; c_function := Some 62; c_method := None; c_base := None |} = None
  /\ bound reg_env 63 = Some (34, 43) /\ attr reg_env 34 43 = Some 64
  /\ kind_of (resolve reg_env true {| c_module := Some 12; c_object := None; c_function := Some 63; c_method := None; c_base := None |})
     = Some KStandard
  /\ nearest (by_method reg_env) 44 (mro reg_env 30) (Some (33, KModuleMutation))
  /\ resolve reg_env true {| c_module := None; c_object := Some 15; c_function := None; c_method := Some 44; c_base := None |} = None.
Proof.
  split; [split; reflexivity|].
  split; [split; try reflexivity; try discriminate; [..|intros f H; injection H as <-; split; reflexivity]; intros s []|].
  repeat (split; [reflexivity|]).
  split; [apply nearest_later; [reflexivity|apply nearest_here; reflexivity]|]. reflexivity.
Qed.
