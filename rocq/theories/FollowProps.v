(** C99, C100 and C101: what is recorded when chains of attributes,
    subscripts and calls are read, called and assigned to. *)
From Coq Require Import List Arith Bool.
From Verif Require Import Base FollowModel FollowSpec FollowProofs.
Import ListNotations.

(** ** An example: [x.a.f(y.b[i])[j].c] *)

(** Names: x = 1, y = 2, i = 3, j = 4.  Objects: x is 11, x.a 12, x.a.f 13, y
    21, y.b 22, y.b[i] 23, the result of the call 31, its j 32, of that c 33.
    The subscript 41 is of an unsupported type. *)
Definition W0 : world :=
  mkW (fun x => match x with 1 => Some 11 | 2 => Some 21 | 3 => Some 40 | 4 => Some 42 | 5 => Some 13 | 6 => Some 41 | _ => None end)
      (fun o k => match o, k with
                  | 11, KAttr 1 => Some 12
                  | 12, KAttr 2 => Some 13
                  | 21, KAttr 3 => Some 22
                  | 22, KSub 40 => Some 23
                  | 22, KSub 41 => Some 24
                  | 31, KSub 42 => Some 32
                  | 32, KAttr 4 => Some 33
                  | 12, KSub 22 => Some 34
                  | 12, KSub 31 => Some 35
                  | 33, KAttr 5 => Some 0
                  | _, _ => None
                  end)
      (fun f l => match f, l with 13, [23] => Some 31 | 13, [24] => Some 31 | _, _ => None end)
      (fun i => negb (i =? 41)).

Definition S0 : st := mkS [] None None None SFrame [] [] [] [].

Definition arg0 : expr := ELoad 102 (CSub (CAttr (CBase (EName 2)) 3) (EName 3)).
Definition call0 : chain := CCall (CAttr (CAttr (CBase (EName 1)) 1) 2) (ACons arg0 ANil).
Definition expr0 : expr := ELoad 101 (CAttr (CSub call0 (EName 4)) 4).

Lemma W0_bare : none_bare W0.
Proof. intros [k|k|k]; reflexivity. Qed.

(** * C99: reading *)

(** Following a chain changes nothing of what the program does: the value is
    the one Python gives, or the exception is the program's. *)
Theorem C99_value_partial : forall W e s,
  none_bare W -> plain e = true -> idle s ->
  fst (ev_expr W e s) =
  match py_expr W e with
  | Some (o, _, _) => Ok o
  | None => Err AttributeError
  end.
Proof.
  intros W e s NB PL I. pose proof (proj1 chain_main e W s NB PL I) as H.
  destruct (py_expr W e) as [[[o vs] cs]|].
  - destruct H as (s' & -> & _). reflexivity.
  - destruct H as (s' & ->). reflexivity.
Qed.
Print Assumptions C99_value_partial.

Example C99_value_case :
  none_bare W0 /\ plain expr0 = true /\ idle S0 /\ fst (ev_expr W0 expr0 S0) = Ok 33.
Proof. split; [exact W0_bare|]. repeat split. Qed.

(** Afterwards nothing of the chain is left over: the next one starts afresh. *)
Theorem C99_idle_partial : forall W e s o s',
  none_bare W -> plain e = true -> idle s ->
  ev_expr W e s = (Ok o, s') ->
  idle s' /\ lex s' = lex s /\ stored s' = stored s.
Proof.
  intros W e s o s' NB PL I EV. pose proof (proj1 chain_main e W s NB PL I) as H.
  destruct (py_expr W e) as [[[o1 vs] cs]|].
  - destruct H as (s1 & E & I1 & _ & _ & _ & X & T & _). rewrite E in EV.
    injection EV as _ <-. auto.
  - destruct H as (s1 & E). rewrite E in EV. discriminate.
Qed.
Print Assumptions C99_idle_partial.

Example C99_idle_case : exists s', ev_expr W0 expr0 S0 = (Ok 33, s') /\ syms s' <> [].
Proof. eexists. split; [vm_compute; reflexivity|discriminate]. Qed.

(** Every symbol keeps its object or gets the one it stands for; none is
    lost; and the symbol of everything read but not called at once is there,
    with the object that was read. *)
Theorem C99_objects_partial : forall W e s o vs cs s',
  none_bare W -> plain e = true -> idle s ->
  py_expr W e = Some (o, vs, cs) -> ev_expr W e s = (Ok o, s') ->
  (forall y, has_obj s' y = has_obj s y \/
             (denotes W y <> None /\ has_obj s' y = denotes W y)) /\
  (forall y, has_obj s y <> None -> has_obj s' y <> None) /\
  (forall v, In v vs -> vcalled v = false -> supported W (vk v) = true ->
     has_obj s' (SNs (vo v), vk v) = Some (vv v)).
Proof.
  intros W e s o vs cs s' NB PL I PY EV. pose proof (proj1 chain_main e W s NB PL I) as H.
  rewrite PY in H. destruct H as (s1 & E & _ & [K1 K2] & _ & _ & _ & _ & G).
  rewrite E in EV. injection EV as <-. split; [|split; [exact K2|]].
  - intros y. destruct (K1 y) as [H|(v & D & H)]; [now left|right].
    unfold has_obj. rewrite D, H. split; [discriminate|auto].
  - intros v IV C SK. rewrite Forall_forall in G. destruct (G v IV) as (_ & _ & B & _).
    now apply B.
Qed.
Print Assumptions C99_objects_partial.

Example C99_objects_case : exists s' vs cs,
  py_expr W0 expr0 = Some (33, vs, cs) /\ ev_expr W0 expr0 S0 = (Ok 33, s') /\
  length vs = 6 /\ has_obj s' (SNs 22, KSub 40) = Some 23 /\ has_obj s' (SNs 32, KAttr 4) = Some 33.
Proof. do 3 eexists. vm_compute. repeat split. Qed.

(** What is loaded at a node was read in its chain, or names the object of a
    method called in it. *)
Theorem C99_loaded_partial : forall W e s o vs cs s',
  none_bare W -> plain e = true -> idle s ->
  py_expr W e = Some (o, vs, cs) -> ev_expr W e s = (Ok o, s') ->
  exists new, loaded s' = loaded s ++ new /\ forall x, In x new -> reason vs x.
Proof.
  intros W e s o vs cs s' NB PL I PY EV. pose proof (proj1 chain_main e W s NB PL I) as H.
  rewrite PY in H. destruct H as (s1 & E & _ & _ & (new & L & F) & _).
  rewrite E in EV. injection EV as <-. exists new. split; [exact L|].
  now apply Forall_forall.
Qed.
Print Assumptions C99_loaded_partial.

Example C99_loaded_case : exists s', ev_expr W0 expr0 S0 = (Ok 33, s') /\
  loaded s' = [(101, (SNs 11, KAttr 1)); (102, (SNs 22, KSub 40)); (101, (SNs 32, KAttr 4))].
Proof. eexists. vm_compute. split; reflexivity. Qed.

(** The last thing read by a chain is always loaded at its node; what is read
    on the way is if its symbol was there, unless it was read from the result
    of a call or of an unsupported subscript, or from a name whose symbol has
    another object. *)
Theorem C99_found_partial : forall W e s o vs cs s' v,
  none_bare W -> plain e = true -> idle s ->
  py_expr W e = Some (o, vs, cs) -> ev_expr W e s = (Ok o, s') ->
  In v vs -> supported W (vk v) = true ->
  vlast v = true \/
  (has_obj s (SNs (vo v), vk v) <> None /\
   (vfrom v = FromStep \/
    exists x, vfrom v = FromName x /\ env W x <> None /\ has_obj s (SFrame, KAttr x) = env W x)) ->
  In (vn v, (SNs (vo v), vk v)) (loaded s').
Proof.
  intros W e s o vs cs s' v NB PL I PY EV IV SK H0. pose proof (proj1 chain_main e W s NB PL I) as H.
  rewrite PY in H. destruct H as (s1 & E & _ & _ & _ & _ & _ & _ & G).
  rewrite E in EV. injection EV as <-. rewrite Forall_forall in G.
  destruct (G v IV) as (_ & _ & _ & L & ER). destruct H0 as [H0|[H0 H1]]; [now apply L|].
  apply ER; [exact H0|]. destruct H1 as [->|(x & -> & A & B)]; [auto|].
  unfold has_obj in B. rewrite B. auto.
Qed.
Print Assumptions C99_found_partial.

Example C99_found_case : exists s1 s2 vs cs,
  ev_expr W0 expr0 S0 = (Ok 33, s1) /\ ev_expr W0 expr0 s1 = (Ok 33, s2) /\
  py_expr W0 expr0 = Some (33, vs, cs) /\
  In (mkV 101 32 (KAttr 4) 33 FromStep false true) vs /\
  In (mkV 102 22 (KSub 40) 23 FromStep false true) vs /\
  In (101, (SNs 32, KAttr 4)) (loaded s2).
Proof.
  exists (snd (ev_expr W0 expr0 S0)), (snd (ev_expr W0 expr0 (snd (ev_expr W0 expr0 S0)))).
  do 2 eexists. split; [vm_compute; reflexivity|]. split; [vm_compute; reflexivity|].
  split; [vm_compute; reflexivity|].
  split; [|split]; vm_compute; repeat (first [left; reflexivity|right]).
Qed.

(** [x.a[y.b]]: the symbol of [x.a] ends with the object of [y], and [y.b] is
    not loaded at its own node. *)
Definition sliced : expr :=
  ELoad 101 (CSub (CAttr (CBase (EName 1)) 1) (ELoad 102 (CAttr (CBase (EName 2)) 3))).

Theorem C99_slice_refuted :
  exists W e s o vs cs s' y v,
    none_bare W /\ idle s /\
    py_expr W e = Some (o, vs, cs) /\ ev_expr W e s = (Ok o, s') /\
    (has_obj s y = denotes W y /\ denotes W y <> None /\
     has_obj s' y <> denotes W y /\ has_obj s' y = env W 2) /\
    (In v vs /\ vlast v = true /\ ~ In (vn v, (SNs (vo v), vk v)) (loaded s')).
Proof.
  exists W0, sliced, (mkS [((SNs 11, KAttr 1), 12)] None None None SFrame [] [] [] []).
  do 4 eexists. exists (SNs 11, KAttr 1), (mkV 102 21 (KAttr 3) 22 (FromName 2) false true).
  split; [exact W0_bare|]. split; [repeat split|].
  split; [vm_compute; reflexivity|]. split; [vm_compute; reflexivity|].
  vm_compute. repeat split; try discriminate; auto.
  intros H. repeat (destruct H as [H|H]; [discriminate H|]). exact H.
Qed.
Print Assumptions C99_slice_refuted.

(** [x.a.__class__] where [x.a] is [None]: the symbol of [x.a] ends with the
    class as its object. *)
Theorem C99_none_refuted :
  exists W e s o s' y,
    plain e = true /\ idle s /\ ev_expr W e s = (Ok o, s') /\
    has_obj s y = Some 0 /\ denotes W y = Some 0 /\ has_obj s' y = Some o /\ o <> 0.
Proof.
  exists (mkW (fun x => if x =? 1 then Some 11 else None)
              (fun a k => match a, k with 11, KAttr 1 => Some 0 | 0, KAttr 2 => Some 50 | _, _ => None end)
              (fun _ _ => None) (fun _ => true)),
    (ELoad 101 (CAttr (CAttr (CBase (EName 1)) 1) 2)),
    (mkS [((SNs 11, KAttr 1), 0)] None None None SFrame [] [] [] []).
  do 2 eexists. exists (SNs 11, KAttr 1).
  split; [reflexivity|]. split; [repeat split|]. split; [vm_compute; reflexivity|].
  vm_compute. repeat split. discriminate.
Qed.
Print Assumptions C99_none_refuted.

(** [x.a.missing] fails and the failure is caught; then [y.b] is read: a
    symbol is made for [x.a.missing], with the object of [y]. *)
Theorem C99_caught_refuted :
  exists W e1 e2 s s1 o s2 y,
    none_bare W /\ plain e1 = true /\ plain e2 = true /\ idle s /\
    ev_expr W e1 s = (Err AttributeError, s1) /\ ev_expr W e2 s1 = (Ok o, s2) /\
    denotes W y = None /\ has_obj s y = None /\ has_obj s2 y = env W 2 /\ env W 2 <> None.
Proof.
  exists W0, (ELoad 101 (CAttr (CAttr (CBase (EName 1)) 1) 9)),
    (ELoad 102 (CAttr (CBase (EName 2)) 3)), S0,
    (snd (ev_expr W0 (ELoad 101 (CAttr (CAttr (CBase (EName 1)) 1) 9)) S0)).
  do 2 eexists. exists (SNs 12, KAttr 9).
  split; [exact W0_bare|]. split; [reflexivity|]. split; [reflexivity|]. split; [repeat split|].
  split; [vm_compute; reflexivity|]. split; [vm_compute; reflexivity|].
  vm_compute. repeat split. discriminate.
Qed.
Print Assumptions C99_caught_refuted.

(** * C100: calling *)

(** Every call is taken for a call of what is called: in order, the attribute
    or subscript of the object it was read from, if there is one, and the
    function. *)
Theorem C100_partial : forall W e s o vs cs s',
  none_bare W -> plain e = true -> idle s ->
  py_expr W e = Some (o, vs, cs) -> ev_expr W e s = (Ok o, s') ->
  calls s' = calls s ++ cs.
Proof.
  intros W e s o vs cs s' NB PL I PY EV. pose proof (proj1 chain_main e W s NB PL I) as H.
  rewrite PY in H. destruct H as (s1 & E & _ & _ & _ & C & _).
  rewrite E in EV. now injection EV as <-.
Qed.
Print Assumptions C100_partial.

Example C100_case : exists s' vs,
  py_expr W0 expr0 = Some (33, vs, [(Some (12, KAttr 2), 13)]) /\
  ev_expr W0 expr0 S0 = (Ok 33, s') /\ calls s' = [(Some (12, KAttr 2), 13)].
Proof. do 2 eexists. vm_compute. repeat split. Qed.

(** [x.a[f(y.b[i])]]: the call of [f] is taken for a call of the method [a]
    of [x]. *)
Theorem C100_refuted :
  exists W e s o vs cs s' p k f,
    none_bare W /\ idle s /\
    py_expr W e = Some (o, vs, cs) /\ ev_expr W e s = (Ok o, s') /\
    cs = [(None, f)] /\ calls s' = calls s ++ [(Some (p, k), f)] /\ fld W p k <> Some f.
Proof.
  exists W0, (ELoad 101 (CSub (CAttr (CBase (EName 1)) 1)
                (ELoad 103 (CCall (CBase (EName 5)) (ACons arg0 ANil))))), S0.
  do 4 eexists. exists 11, (KAttr 1), 13.
  split; [exact W0_bare|]. split; [repeat split|].
  split; [vm_compute; reflexivity|]. split; [vm_compute; reflexivity|].
  vm_compute. repeat split. discriminate.
Qed.
Print Assumptions C100_refuted.

(** * C101: assigning *)

(** Whatever the targets of an assignment, one after the other, each in the
    world it finds: what is kept for each is the object that was reached and
    the attribute or subscript assigned to. *)
Theorem C101_saved_partial : forall l ds s,
  saved s = None -> (first s <> None -> top s <> None) ->
  Forall2 (fun x d => none_bare (fst x) /\ plain_target (snd x) = true /\
                      py_target (fst x) (snd x) = Some d /\ storable (fst x) d) l ds ->
  NoDup (map fst ds) ->
  exists s', ev_targets l s = (Ok tt, s') /\
    forall n o k, In (n, (o, k)) ds -> slot n (stored s') = Some (o, k).
Proof.
  intros l ds s SV CO F ND. destruct (targets_calm l ds s SV CO F) as (s' & E & _ & _ & ST).
  exists s'. split; [exact E|]. intros n o k IN. rewrite ST. apply slot_In.
  - rewrite map_rev. now apply NoDup_rev.
  - now apply in_rev in IN.
Qed.
Print Assumptions C101_saved_partial.

(** [x.a.w, y.b[i] = ...] *)
Definition targets0 : list (world * target) :=
  [(W0, TAttr 201 (CAttr (CBase (EName 1)) 1) 7);
   (W0, TSub 202 (CAttr (CBase (EName 2)) 3) (EName 3))].

Example C101_saved_case :
  Forall2 (fun x d => none_bare (fst x) /\ plain_target (snd x) = true /\
                      py_target (fst x) (snd x) = Some d /\ storable (fst x) d)
    targets0 [(201, (12, KAttr 7)); (202, (22, KSub 40))].
Proof.
  repeat constructor; cbn; try exact W0_bare; try discriminate.
Qed.

(** Where the value is recorded: for the object itself if the value is [None]
    or no namespace above that of the object has it already. *)
Theorem C101_partial : forall above n v s o k,
  slot n (stored s) = Some (o, k) ->
  v = 0 \/ (forall p, In p (above o) -> ~ holds s p (is_sub k) v) ->
  resolve_store above n v s = Ok (o, k).
Proof.
  intros above n v s o k SL H. unfold resolve_store. rewrite SL.
  destruct (v =? 0) eqn:V; [auto|]. apply Nat.eqb_neq in V.
  destruct H as [H|H]; [contradiction|].
  pose proof (earliest_spec s (o :: above o) (is_sub k) v) as E.
  destruct (earliest s (o :: above o) (is_sub k) v) as [p|]; [|auto].
  destruct E as (a & b & L & HP & _). destruct a as [|q a]; cbn in L; injection L as L1 L2.
  - now subst.
  - exfalso. apply (H p); [rewrite L2; apply in_or_app; right; now left|exact HP].
Qed.
Print Assumptions C101_partial.

(** In general: under the same name, for the object itself or for the
    outermost namespace above it that has the value. *)
Theorem C101_where_partial : forall above n v s o k,
  slot n (stored s) = Some (o, k) ->
  exists p, resolve_store above n v s = Ok (p, k) /\
    (p = o \/ (v <> 0 /\ exists a b, above o = a ++ p :: b /\ holds s p (is_sub k) v /\
                forall q, In q b -> ~ holds s q (is_sub k) v)).
Proof.
  intros above n v s o k SL. unfold resolve_store. rewrite SL.
  destruct (v =? 0) eqn:V; [eauto|]. apply Nat.eqb_neq in V.
  pose proof (earliest_spec s (o :: above o) (is_sub k) v) as E.
  destruct (earliest s (o :: above o) (is_sub k) v) as [p|]; [|eauto].
  destruct E as (a & b & L & HP & HN). exists p. split; [auto|].
  destruct a as [|q a]; cbn in L; injection L as L1 L2; [auto|].
  right. split; [auto|]. eauto.
Qed.
Print Assumptions C101_where_partial.

Example C101_case : exists s', ev_targets targets0 S0 = (Ok tt, s') /\
  resolve_store (fun o => if o =? 12 then [11] else []) 201 77 s' = Ok (12, KAttr 7).
Proof. eexists. vm_compute. split; reflexivity. Qed.

Definition W1 : world :=
  mkW (fun x => if x =? 1 then Some 11 else None)
      (fun a k => match a, k with 11, KAttr 1 => Some 12 | 11, KAttr 2 => Some 5 | _, _ => None end)
      (fun _ _ => None) (fun _ => true).

(** [x.v] is 5 and was read; [x.y.w = 5]: the assignment is recorded as one
    to [x.w], for the value is an attribute of [x] already. *)
Theorem C101_refuted :
  exists W e t above s o s1 s2 n p q k v,
    none_bare W /\ plain e = true /\ plain_target t = true /\ idle s /\ v <> 0 /\
    ev_expr W e s = (Ok o, s1) /\ ev_target W t (after_stmt s1) = (Ok tt, s2) /\
    py_target W t = Some (n, (p, k)) /\
    above p = [q] /\ q <> p /\ fld W q k = None /\
    resolve_store above n v s2 = Ok (q, k).
Proof.
  exists W1, (ELoad 101 (CAttr (CBase (EName 1)) 2)),
    (TAttr 201 (CAttr (CBase (EName 1)) 1) 3),
    (fun a => if a =? 12 then [11] else []), S0, 5,
    (snd (ev_expr W1 (ELoad 101 (CAttr (CBase (EName 1)) 2)) S0)),
    (snd (ev_target W1 (TAttr 201 (CAttr (CBase (EName 1)) 1) 3)
       (after_stmt (snd (ev_expr W1 (ELoad 101 (CAttr (CBase (EName 1)) 2)) S0))))).
  exists 201, 12, 11, (KAttr 3), 5.
  split; [intros [k|k|k]; reflexivity|]. split; [reflexivity|]. split; [reflexivity|].
  split; [repeat split|]. split; [discriminate|].
  split; [vm_compute; reflexivity|]. split; [vm_compute; reflexivity|].
  split; [reflexivity|]. split; [reflexivity|]. split; [discriminate|]. split; reflexivity.
Qed.
Print Assumptions C101_refuted.
