(** C30: the parts of unpacking targets and of literals are matched with the right elements. *)
Require Import List Arith Bool Lia Permutation.
Import ListNotations.
Require Import Verif.Base Verif.UnpackModel Verif.UnpackSpec Verif.UnpackProofs.

(** C30, the matching: with at most one starred part, elements and parts are matched as Python does it
    exactly if the starred part gets an element or is the last one.
    Missing from C30: a starred part without elements that is not the last one; refuted below. *)
Theorem C30_match_partial : forall A E (starred : E -> bool) elts (l : list A) r,
  unpacks starred elts l r ->
  (match_nodes starred elts l = (tag 0 (takes r), None) <-> empty_only_last r).
Proof. intros A E. exact match_iff. Qed.
Print Assumptions C30_match_partial.

(** [a, *b, c, d = (1, 2, 3, 4, 5)] *)
Example C30_match_case :
  let ts := [TName 0; TStar 1; TName 2; TName 3] in
  let r := [(TName 0, [1]); (TStar 1, [2; 3]); (TName 2, [4]); (TName 3, [5])] in
  unpacks is_star ts [1; 2; 3; 4; 5] r /\ empty_only_last r /\
  match_nodes is_star ts [1; 2; 3; 4; 5] =
    ([(0, 1, TName 0); (1, 2, TStar 1); (2, 3, TStar 1); (3, 4, TName 2); (4, 5, TName 3)], None).
Proof.
  cbv zeta. split; [|split; [|reflexivity]].
  - apply U_one; auto. apply (U_star is_star (TStar 1) _ [2; 3] [4; 5]); auto. repeat constructor.
  - simpl. repeat split; auto; discriminate.
Qed.

(** Without an element for the starred part, each element goes to the part at its own position: all parts
    from the starred one on get the wrong element, the last one none. *)
Theorem C30_empty_star_refuted : forall A E (starred : E -> bool) pre s post (l : list A),
  length l = length pre + length post ->
  match_nodes starred (pre ++ s :: post) l = (tag 0 (combine l (pre ++ s :: post)), None).
Proof.
  intros A E starred pre s post l L. unfold match_nodes. rewrite match_diag; auto.
  rewrite app_length. simpl. lia.
Qed.
Print Assumptions C30_empty_star_refuted.
(** [a, *b, c = (1, 2)]: [c] gets nothing, [*b] gets the element of [c]. *)
Example C30_empty_star_case :
  unpacks is_star [TName 0; TStar 1; TName 2] [1; 2] [(TName 0, [1]); (TStar 1, []); (TName 2, [2])] /\
  match_nodes is_star [TName 0; TStar 1; TName 2] [1; 2] = ([(0, 1, TName 0); (1, 2, TStar 1)], None).
Proof.
  split; [|reflexivity]. apply U_one; auto. apply (U_star is_star (TStar 1) _ [] [2]); auto. repeat constructor.
Qed.

(** C30, assignments: if the containers that are taken apart are tracked, each name is recorded once, with
    a symbol of the object that Python binds it to; a starred name with a symbol for each of its objects.
    Missing: empty starred targets, untracked elements and dicts, refuted below. *)
Theorem C30_unpack_partial : forall items w ts rhs bs deps call,
  tracked items w (TSeq ts) rhs -> assigns items (TSeq ts) rhs bs ->
  exists out out', store_target w ts rhs deps call = (out, None) /\ Permutation out out' /\
    Forall2 (records w (if call then deps else [])) bs out'.
Proof.
  intros items w ts rhs bs deps call T A. assert (exists n, ns_of w rhs = Some n) as [n N] by (inversion T; eauto).
  unfold store_target. rewrite N.
  destruct (from_ns_ok items w (if call then deps else []) (depth (TSeq ts)) ts rhs n bs) as (out & E & out' & P & F); auto.
  exists out, out'. auto.
Qed.
Print Assumptions C30_unpack_partial.

(** Object 10 is [(1, 11)], object 11 is [(2, 3, 4)]; the symbol of object [o] is [100 + o]. *)
Definition ex_items (o : nat) : option (list nat) :=
  match o with 10 => Some [1; 11] | 11 => Some [2; 3; 4] | 12 => Some [1] | _ => None end.
Definition ex_ns (o : nat) : option nspace :=
  match ex_items o with Some l => Some (mkNs false (fun i => option_map (plus 100) (nth_error l i))) | None => None end.
Definition ex_world : world :=
  mkWorld (fun y => y - 100) (fun o => match ex_items o with Some l => length l | None => 0 end) ex_ns.
(** [a, (b, *c) = x] *)
Definition ex_target : list target := [TName 0; TSeq [TName 1; TStar 2]].
Lemma ex_syms o l : ex_items o = Some l -> forall i a, nth_error l i = Some a -> exists y,
  option_map (plus 100) (nth_error l i) = Some y /\ so ex_world y = a.
Proof. intros _ i a ->. simpl option_map. eexists. split; [reflexivity|]. cbn [so ex_world]. lia. Qed.
Example C30_unpack_case :
  tracked ex_items ex_world (TSeq ex_target) 10 /\
  assigns ex_items (TSeq ex_target) 10 [One 0 1; One 1 2; Many 2 [3; 4]] /\
  store_target ex_world ex_target 10 [7] false = ([ROne 0 [101]; ROne 1 [102]; RMany 2 [Some 103; Some 104]], None).
Proof.
  assert (U1 : unpacks is_star [TName 1; TStar 2] [2; 3; 4] [(TName 1, [2]); (TStar 2, [3; 4])]).
  { apply U_one; auto. apply (U_star is_star (TStar 2) [] [3; 4] []); constructor. }
  assert (U2 : unpacks is_star ex_target [1; 11] [(TName 0, [1]); (TSeq [TName 1; TStar 2], [11])]).
  { repeat constructor. }
  split; [|split; [|reflexivity]].
  - eapply T_seq with (l := [1; 11]); try reflexivity; try exact U2.
    + apply (ex_syms 10). reflexivity.
    + intros t os [J|[J|[]]]; injection J as <- <-; discriminate.
    + intros t a [J|[J|[]]] _; injection J as <- <-; [constructor|].
      eapply T_seq with (l := [2; 3; 4]); try reflexivity; try exact U1.
      * apply (ex_syms 11). reflexivity.
      * intros t os [J|[J|[]]]; injection J as <- <-; discriminate.
      * intros t a [J|[J|[]]] K; [injection J as <- <-; constructor|]. injection J as <- J. discriminate.
  - eapply A_seq; [reflexivity|exact U2|].
    change [One 0 1; One 1 2; Many 2 [3; 4]] with ([One 0 1] ++ [One 1 2; Many 2 [3; 4]]).
    apply AA_one; [reflexivity|constructor|].
    change [One 1 2; Many 2 [3; 4]] with ([One 1 2; Many 2 [3; 4]] ++ []).
    apply AA_one; [reflexivity| |constructor].
    eapply A_seq; [reflexivity|exact U1|].
    change [One 1 2; Many 2 [3; 4]] with ([One 1 2] ++ [Many 2 [3; 4]]).
    apply AA_one; [reflexivity|constructor|]. repeat constructor.
Qed.

(** A starred target at the end that stays empty is not recorded at all: [a, *b = x]. *)
Theorem C30_lost_star_refuted :
  assigns ex_items (TSeq [TName 0; TStar 1]) 12 [One 0 1; Many 1 []] /\
  store_target ex_world [TName 0; TStar 1] 12 [7] false = ([ROne 0 [101]], None).
Proof.
  split; [|reflexivity].
  apply (A_seq ex_items [TName 0; TStar 1] 12 [1] [(TName 0, [1]); (TStar 1, [])]); [reflexivity| |].
  - apply U_one; auto. apply (U_star is_star (TStar 1) [] [] []); constructor.
  - change [One 0 1; Many 1 []] with ([One 0 1] ++ [Many 1 []]).
    apply AA_one; [reflexivity|constructor|]. repeat constructor.
Qed.
Print Assumptions C30_lost_star_refuted.

(** A nested target for an element without a symbol raises inside the tracer, whatever comes after is not
    recorded: [(a, b), c = x]. *)
Theorem C30_untracked_refuted : forall w rhs n deps call a b c,
  ns_of w rhs = Some n -> n_dict n = false -> len_of w rhs = 2 -> n_syms n 0 = None ->
  store_target w [TSeq [TName a; TName b]; TName c] rhs deps call = ([], Some AttributeError).
Proof.
  intros w rhs n deps call a b c N D L S. unfold store_target. rewrite N. simpl. rewrite D.
  unfold entries. rewrite L. simpl. rewrite S. reflexivity.
Qed.
Print Assumptions C30_untracked_refuted.
(** So does a dict on the right-hand side: [a, b = d]. *)
Theorem C30_dict_refuted : forall w rhs n ts deps call,
  ns_of w rhs = Some n -> n_dict n = true -> store_target w ts rhs deps call = ([], Some AssertionError).
Proof. intros w rhs n ts deps call N D. unfold store_target. rewrite N. simpl. rewrite D. reflexivity. Qed.
Print Assumptions C30_dict_refuted.
Example C30_raise_case : exists w n, ns_of w 0 = Some n /\ n_dict n = false /\ len_of w 0 = 2 /\ n_syms n 0 = None /\
  exists n', ns_of w 1 = Some n' /\ n_dict n' = true.
Proof.
  exists (mkWorld (fun y => y) (fun _ => 2) (fun o => Some (mkNs (o =? 1) (fun i => if i =? 1 then Some 5 else None)))).
  eexists. repeat split; try reflexivity. eexists. split; reflexivity.
Qed.

(** C30, literals: with at most one starred part that gets an element or is the last one, each element
    depends on the symbols of its own part, and an element that the starred part brings on the symbol of that very
    element of the starred container. *)
Theorem C30_literal_partial : forall w parts literal r,
  unpacks part_star parts literal r -> empty_only_last r ->
  after_literal w parts literal = (tag 0 (flat_map (part_deps w) r), None).
Proof.
  intros w parts literal r U Q. unfold after_literal. rewrite (proj2 (match_iff _ _ _ _ U) Q).
  rewrite (literal_ok w parts literal r U). reflexivity.
Qed.
Print Assumptions C30_literal_partial.

(** [[y, *x, z]] with [x] as object 11 *)
Example C30_literal_case :
  let parts := [PPlain [5]; PStar [111]; PPlain [6]] in
  let r := [(PPlain [5], [50]); (PStar [111], [2; 3; 4]); (PPlain [6], [60])] in
  unpacks part_star parts [50; 2; 3; 4; 60] r /\ empty_only_last r /\
  after_literal ex_world parts [50; 2; 3; 4; 60] =
    ([(0, 50, [5]); (1, 2, [102]); (2, 3, [103]); (3, 4, [104]); (4, 60, [6])], None).
Proof.
  cbv zeta. split; [|split; [simpl; repeat split; auto; discriminate|reflexivity]].
  apply U_one; auto. apply (U_star part_star (PStar [111]) _ [2; 3; 4] [60]); auto. repeat constructor.
Qed.
(** Two starred parts, [[*x, *y]] with objects 12 and 11: the element 2 counts as the second element of
    the first container, 3 too, and 4 as the fourth element of the first one. *)
Theorem C30_two_stars_refuted :
  after_literal ex_world [PStar [112]; PStar [111]] [1; 2; 3; 4] =
    ([(0, 1, [101]); (1, 2, []); (2, 3, []); (3, 4, [])], None).
Proof. reflexivity. Qed.
Print Assumptions C30_two_stars_refuted.

(** Dict literals without [**] and with distinct keys: each item is matched with its own value. *)
Theorem C30_dict_literal_partial : forall es : list (nat * nat * nat),
  NoDup (map (fun e => fst (fst e)) es) ->
  match_dict (dict_of (map (fun e => (KV (fst (fst e)) (snd (fst e)), snd e)) es)) (map snd es) =
  map (fun e => (fst e, snd e)) es.
Proof.
  intros es N. unfold dict_of. rewrite dict_of_distinct; auto. simpl. unfold match_dict. apply combine_map.
Qed.
Print Assumptions C30_dict_literal_partial.
Example C30_dict_literal_case : NoDup (map (fun e => fst (fst e)) [((1, 10), 5); ((2, 20), 6)]).
Proof. repeat constructor; simpl; intuition discriminate. Qed.
(** [{1: a, 1: b, 2: c}]: the item of key 2 is matched with [b]. [{**d, 3: a}]: the items of [d] after
    the first are matched with the following values. *)
Theorem C30_dict_literal_refuted :
  match_dict (dict_of [(KV 1 10, 5); (KV 1 11, 6); (KV 2 12, 7)]) [5; 6; 7] = [((1, 11), 5); ((2, 12), 6)] /\
  match_dict (dict_of [(Spread [(1, 10); (2, 11)], 5); (KV 3 12, 6)]) [5; 6] = [((1, 10), 5); ((2, 11), 6)].
Proof. split; reflexivity. Qed.
Print Assumptions C30_dict_literal_refuted.
