(** C59: what the parameters of a called function depend on. *)
From Coq Require Import List Arith Bool.
From Verif Require Import Base ArgsModel ArgsSpec ArgsProofs.
Import ListNotations.

(** [def f(self, a, b=70)] and [o.f(80)], [o.f(80, b=90)]; names from 0 (self) on. *)
Definition method_def : fundef :=
  {| d_pos := []; d_args := [0; 1; 2]; d_kwonly := []; d_vararg := None; d_kwarg := None;
     d_defaults := [70] |}.
Definition method_call : call := {| c_args := [Plain 80]; c_keywords := [] |}.
Definition named_call : call := {| c_args := [Plain 80]; c_keywords := [(Some 2, 90)] |}.

(** A function with ordinary parameters, called in the conventional way: every parameter has its
    symbol, and depends on exactly the expression that Python binds to it. *)
Theorem C59_partial : forall method d c,
  valid_def d -> ordinary d -> self_first method d -> valid_call method d c ->
  conventional method d c ->
  dwf (parameters d c) /\
  (forall p, dget (parameters d c) p <> None <-> In p (d_args d)) /\
  (forall p e, dget (parameters d c) p = Some (Some e) <-> receives method d c p e).
Proof.
  intros m d c V O SF VC C. pose proof O as (P & K & VA & KA).
  refine (conj (dwf_parameters d c) (conj _ (ordinary_exact m d c V O SF VC C))).
  intros p. rewrite (names m d c V P SF p). unfold definition_args.
  rewrite K, VA, KA. simpl. now rewrite app_nil_r.
Qed.
Print Assumptions C59_partial.

Example C59_partial_ok :
  valid_def method_def /\ ordinary method_def /\ self_first true method_def /\
  valid_call true method_def named_call /\ conventional true method_def named_call /\
  valid_call true method_def method_call /\ conventional true method_def method_call /\
  parameters method_def named_call = [(1, Some 80); (2, Some 90); (0, None)] /\
  parameters method_def method_call = [(1, Some 80); (2, Some 70); (0, None)].
Proof.
  assert (NP : forall c p e e', c_args c = [Plain 80] -> default_of method_def p e ->
    ~ by_position true method_def c p e').
  { intros c p e e' A ([|[|i]] & D1 & D2) ([|[|j]] & B & C & _); cbn in *; try discriminate;
      rewrite A in C; try discriminate; try congruence;
      try (destruct i; discriminate); destruct j; discriminate. }
  repeat apply conj; try reflexivity.
  - cbn. repeat constructor; cbn; intuition discriminate.
  - cbn. repeat constructor.
  - intros _. exists [1; 2]. split; [reflexivity|]. cbn. repeat constructor.
  - intros a [<-|[]]. eauto.
  - intros k [<-|[]]. exists 2. cbn. auto.
  - intros _. cbn. repeat constructor.
  - cbn. repeat constructor; cbn; tauto.
  - intros p e e' B [[E|[]] _]. inversion E; subst.
    destruct B as ([|[|[|i]]] & B & C & _); cbn in *; discriminate.
  - intros p e e'. apply NP. reflexivity.
  - intros _ p e [[E|[]] _]. inversion E; subst. exists 70. exists 0. cbn. auto.
  - intros a [<-|[]]. eauto.
  - intros k [].
  - intros _. cbn. repeat constructor.
  - constructor.
  - intros p e e' B [[] _].
  - intros p e e'. apply NP. reflexivity.
  - intros _ p e [[] _].
Qed.

(** Without positional-only parameters, and whatever the call: every parameter has its symbol and
    nothing else has; and a parameter depends on nothing but what it is given or its default. *)
Theorem C59_sound_partial : forall method d c,
  valid_def d -> d_pos d = [] -> self_first method d ->
  (forall p, dget (parameters d c) p <> None <-> In p (definition_args d)) /\
  (forall p e, dget (parameters d c) p = Some (Some e) ->
     by_position method d c p e \/ by_keyword d c p e \/
     (default_of d p e /\ forall e', ~ by_keyword d c p e')).
Proof.
  intros m d c V P SF. split; [apply (names m d c V P SF) | apply (sound m d c V P SF)].
Qed.
Print Assumptions C59_sound_partial.

(** [def f(a, b=70, *rest, k)] and [f(80, *rest)]. *)
Definition mixed_def : fundef :=
  {| d_pos := []; d_args := [1; 2]; d_kwonly := [4]; d_vararg := Some 3; d_kwarg := None;
     d_defaults := [70] |}.
Definition starred_call : call := {| c_args := [Plain 80; Star 81]; c_keywords := [] |}.

Lemma mixed_valid : valid_def mixed_def /\ self_first false mixed_def.
Proof.
  repeat apply conj.
  - cbn. repeat constructor; cbn; intuition discriminate.
  - cbn. repeat constructor.
  - discriminate.
  - intros (ps & E & _). discriminate.
Qed.

Example C59_sound_partial_ok :
  valid_def mixed_def /\ d_pos mixed_def = [] /\ self_first false mixed_def /\
  parameters mixed_def starred_call = [(1, Some 80); (2, Some 70); (4, None); (3, None)].
Proof. repeat apply conj; try apply mixed_valid; reflexivity. Qed.

(** A positional argument for a parameter with a default is never seen: the parameter depends on
    the default that was not used. *)
Theorem C59_default_refuted : forall method d c,
  valid_def d -> ordinary d -> self_first method d -> valid_call method d c ->
  only_defaults_named d c ->
  forall p e e', default_of d p e' -> by_position method d c p e ->
  dget (parameters d c) p = Some (Some e').
Proof. exact default_wins. Qed.
Print Assumptions C59_default_refuted.

(** [o.f(80, 90)]. *)
Definition positional_call : call := {| c_args := [Plain 80; Plain 90]; c_keywords := [] |}.

Example C59_default_refuted_ok :
  valid_def method_def /\ ordinary method_def /\ self_first true method_def /\
  valid_call true method_def positional_call /\ only_defaults_named method_def positional_call /\
  default_of method_def 2 70 /\ by_position true method_def positional_call 2 90 /\
  ~ exists p, dget (parameters method_def positional_call) p = Some (Some 90).
Proof.
  destruct C59_partial_ok as (A & B & C & _).
  refine (conj A (conj B (conj C (conj _ (conj _ (conj _ (conj _ _))))))).
  - repeat apply conj.
    + intros a [<-|[<-|[]]]; eauto.
    + intros k [].
    + intros _. cbn. repeat constructor.
    + constructor.
    + intros p e e' G [[] _].
  - intros _ p e [[] _].
  - exists 0. cbn. auto.
  - exists 1. split; [reflexivity|]. split; [reflexivity|].
    intros [|j] L; [exists 80; reflexivity|]. inversion L. inversion H0.
  - intros [p G]. destruct p as [|[|[|p]]]; cbn in G; discriminate.
Qed.

(** One parameter given by keyword that is keyword-only, or that has no default while others have
    one, and no parameter depends on anything. *)
Theorem C59_keyword_refuted : forall d c p e, valid_def d -> d_pos d = [] -> by_keyword d c p e ->
  (In p (d_kwonly d) \/ (d_defaults d <> [] /\ forall e', ~ default_of d p e')) ->
  forall q x, dget (parameters d c) q <> Some (Some x).
Proof.
  intros d c p e V P B [K|[D N]].
  - exact (kwonly_drops d c p e V K B).
  - exact (plain_drops d c p e V P D B N).
Qed.
Print Assumptions C59_keyword_refuted.

(** [f(80, k=90)] and [f(a=80)], both of which Python accepts. *)
Definition kwonly_call : call := {| c_args := [Plain 80]; c_keywords := [(Some 4, 90)] |}.
Definition plain_named_call : call := {| c_args := []; c_keywords := [(Some 1, 80)] |}.

Example C59_keyword_refuted_ok :
  valid_def mixed_def /\ d_pos mixed_def = [] /\
  valid_call false mixed_def kwonly_call /\ by_keyword mixed_def kwonly_call 4 90 /\
  In 4 (d_kwonly mixed_def) /\ receives false mixed_def kwonly_call 1 80 /\
  valid_call false mixed_def plain_named_call /\ by_keyword mixed_def plain_named_call 1 80 /\
  d_defaults mixed_def <> [] /\ (forall e, ~ default_of mixed_def 1 e).
Proof.
  destruct mixed_valid as [A B]. refine (conj A (conj eq_refl _)).
  refine (conj _ (conj _ (conj _ (conj _ (conj _ (conj _ (conj _ _))))))).
  - repeat apply conj.
    + intros a [<-|[]]; eauto.
    + intros k [<-|[]]. exists 4. cbn. auto 6.
    + discriminate.
    + cbn. repeat constructor; cbn; tauto.
    + intros p e e' G [[E|[]] _]. inversion E; subst.
      destruct G as ([|[|[|i]]] & G & _); cbn in G; discriminate.
  - split; cbn; auto 6.
  - cbn; auto.
  - left. exists 0. split; [reflexivity|]. split; [reflexivity|]. intros j L. inversion L.
  - repeat apply conj.
    + intros a [].
    + intros k [<-|[]]. exists 1. cbn. auto 6.
    + discriminate.
    + cbn. repeat constructor; cbn; tauto.
    + intros p e e' (i & _ & G & _) _. destruct i; discriminate.
  - split; cbn; auto.
  - discriminate.
  - intros e ([|[|i]] & D1 & D2); cbn in *; try discriminate; destruct i; discriminate.
Qed.

(** With positional-only parameters: [def f(a, /, b)] and [f(80, 90)]. The first has no symbol, and
    the second depends on the argument of the first. *)
Theorem C59_posonly_refuted : exists d c, valid_def d /\ valid_call false d c /\
  self_first false d /\ conventional false d c /\ exists a b x y,
  x <> y /\ receives false d c a x /\ receives false d c b y /\
  dget (parameters d c) a = None /\ dget (parameters d c) b = Some (Some x).
Proof.
  exists {| d_pos := [1]; d_args := [2]; d_kwonly := []; d_vararg := None; d_kwarg := None;
            d_defaults := [] |}, positional_call.
  refine (conj _ (conj _ (conj _ (conj _ _)))).
  - split; cbn; repeat constructor; cbn; intuition discriminate.
  - repeat apply conj.
    + intros a [<-|[<-|[]]]; eauto.
    + intros k [].
    + intros _. cbn. repeat constructor.
    + constructor.
    + intros p e e' G [[] _].
  - split; [discriminate|]. intros (ps & E & _). discriminate.
  - split; [|intros D; destruct D; reflexivity].
    intros p e e' ([|i] & D & _); discriminate.
  - exists 1, 2, 80, 90. split; [discriminate|].
    refine (conj _ (conj _ (conj eq_refl eq_refl))).
    + left. exists 0. split; [reflexivity|]. split; [reflexivity|]. intros j L. inversion L.
    + left. exists 1. split; [reflexivity|]. split; [reflexivity|].
      intros [|j] L; [exists 80; reflexivity|]. inversion L. inversion H0.
Qed.
Print Assumptions C59_posonly_refuted.

(** A plain function whose first parameter is called self: [def f(self, a)] and [f(80, 90)]. *)
Theorem C59_self_refuted : exists d c, valid_def d /\ ordinary d /\ valid_call false d c /\
  conventional false d c /\ exists p x y, x <> y /\ receives false d c p y /\
  dget (parameters d c) p = Some (Some x).
Proof.
  exists {| d_pos := []; d_args := [0; 2]; d_kwonly := []; d_vararg := None; d_kwarg := None;
            d_defaults := [] |}, positional_call.
  refine (conj _ (conj _ (conj _ (conj _ _)))).
  - split; cbn; repeat constructor; cbn; intuition discriminate.
  - repeat apply conj; reflexivity.
  - repeat apply conj.
    + intros a [<-|[<-|[]]]; eauto.
    + intros k [].
    + intros _. cbn. repeat constructor.
    + constructor.
    + intros p e e' G [[] _].
  - split; [|intros D; destruct D; reflexivity].
    intros p e e' ([|i] & D & _); discriminate.
  - exists 2, 80, 90. split; [discriminate|]. split; [|reflexivity].
    left. exists 1. split; [reflexivity|]. split; [reflexivity|].
    intros [|j] L; [exists 80; reflexivity|]. inversion L. inversion H0.
Qed.
Print Assumptions C59_self_refuted.

(** What the variadic parameters collect is never recorded. *)
Theorem C59_variadic_refuted : forall method d c p,
  valid_def d -> d_pos d = [] -> self_first method d ->
  (d_vararg d = Some p \/ d_kwarg d = Some p) ->
  dget (parameters d c) p = Some None.
Proof.
  intros m d c p V P SF H. pose proof (names m d c V P SF p) as N.
  assert (I : In p (d_kwonly d ++ match d_vararg d with Some v => [v] | None => [] end ++
    match d_kwarg d with Some v => [v] | None => [] end)).
  { destruct H as [-> | ->]; rewrite !in_app_iff; cbn; auto. }
  destruct (dget (parameters d c) p) as [[e|]|] eqn:G; [exfalso | reflexivity |].
  - assert (J : In p (d_pos d ++ d_args d)).
    { destruct (sound m d c V P SF p e G) as [(i & A & _) | [[A B] | [A _]]].
      - apply nth_error_In in A. eapply takers_args, A.
      - apply in_app_iff in B. destruct B as [B|B]; [rewrite P; exact B|]. exfalso.
        exact (kwonly_drops d c p e V B (conj A (in_or_app _ _ _ (or_intror B))) p e G).
      - eapply default_args, A. }
    destruct V as [N' _]. unfold definition_args in N'. rewrite app_assoc in N'.
    revert J N' I. generalize (d_pos d ++ d_args d), (d_kwonly d ++
      match d_vararg d with Some v => [v] | None => [] end ++
      match d_kwarg d with Some v => [v] | None => [] end).
    intros l r. induction l as [|y l IH]; simpl; [tauto|]. intros J N' I. inversion N'; subst.
    destruct J as [->|J]; auto. apply H2, in_app_iff. auto.
  - exfalso. apply N; [|reflexivity]. unfold definition_args. apply in_app_iff. auto.
Qed.
Print Assumptions C59_variadic_refuted.

(** [f(80, 90, 91)] gives [rest] the third argument. *)
Example C59_variadic_refuted_ok : valid_def mixed_def /\ self_first false mixed_def /\
  let c := {| c_args := [Plain 80; Plain 90; Plain 91]; c_keywords := [] |} in
  collects false mixed_def c 3 91 /\ dget (parameters mixed_def c) 3 = Some None.
Proof.
  destruct mixed_valid as [A B]. refine (conj A (conj B (conj _ eq_refl))).
  left. split; [reflexivity|]. exists 2. split; [cbn; repeat constructor|].
  split; [reflexivity|]. intros [|[|j]] L; [exists 80 | exists 90 |]; try reflexivity.
  do 2 (apply le_S_n in L). inversion L.
Qed.
