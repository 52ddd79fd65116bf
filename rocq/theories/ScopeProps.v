(** C46: name lookup follows Python's scoping. C52: references denote what their expressions denote. C53: stores go to
    the scope that Python stores to. *)
Require Import List Arith ZArith Bool Lia.
Import ListNotations.
Require Import Verif.Base Verif.RefModel Verif.ScopeModel Verif.ScopeSpec Verif.ScopeProofs.
Local Open Scope nat_scope.

(** The global scope 0 binds x (10) and z (12); function 1 is in it and binds z; class 2 is in function 1 and binds x; method 3
    is in class 2. *)
Definition plain (p : option nat) (ns : bool) (d : dict nat) : scp := mkScope p ns d [] None [] None None.
Definition nested : state := mkSt
  [(0, plain None false [(10, 100); (12, 101)]); (1, plain (Some 0) false [(12, 102)]); (2, plain (Some 1) true [(10, 103)]); (3, plain (Some 2) false [])] [] [].
Lemma nested_around : around nested 3 [3; 2; 1; 0].
Proof.
  eapply around_in; [reflexivity|reflexivity|]. eapply around_in; [reflexivity|reflexivity|]. eapply around_in; [reflexivity|reflexivity|].
  eapply around_top; reflexivity.
Qed.

(** In every scope that is not a class body: lookup succeeds, and returns exactly what Python's rule says. *)
Theorem C46_lookup : forall st s l x f, around st s l -> ~ class_like st s -> length l + 2 <= f ->
  exists r, lookup f st s (VOne (CStr x)) = Ok r /\ match r with Some y => python_binding st s l x y | None => unbound st s l x end.
Proof. intros st s l x f A N L. apply lookup_rule; auto. Qed.
Print Assumptions C46_lookup.
Example C46_lookup_case : around nested 3 [3; 2; 1; 0] /\ ~ class_like nested 3 /\
  lookup 6 nested 3 (VOne (CStr 10)) = Ok (Some 100) /\ lookup 6 nested 3 (VOne (CStr 12)) = Ok (Some 102) /\ lookup 6 nested 3 (VOne (CStr 11)) = Ok None.
Proof. split; [exact nested_around|]. split; [intros (sc & E & F); injection E as <-; discriminate|]. repeat split. Qed.

(** Never a binding from elsewhere: what is found is bound by a scope around. *)
Theorem C46_related : forall st s l x f y, around st s l -> ~ class_like st s -> length l + 2 <= f -> lookup f st s (VOne (CStr x)) = Ok (Some y) ->
  exists t, In t l /\ ~ class_like st t /\ binds st t x y.
Proof.
  intros st s l x f y A N L H. destruct (lookup_rule f st s l x A N L) as (r & E & R). rewrite H in E. injection E as <-.
  destruct R as (l1 & t & l2 & -> & S & B & _). exists t. split; [apply in_app_iff; right; left; auto|]. split; auto.
  destruct S as [->|S]; auto.
Qed.
Print Assumptions C46_related.
Example C46_related_case : lookup 6 nested 3 (VOne (CStr 10)) = Ok (Some 100) /\ ~ (exists t, In t [3; 2; 1] /\ binds nested t 10 100).
Proof.
  split; [reflexivity|]. intros (t & [<-|[<-|[<-|[]]]] & sc & E & F); injection E as <-; discriminate.
Qed.

(** Attributes of an object, if asked for as such: exactly its own, or those of its class unless it has its own. *)
Theorem C46_attribute : forall st s x y, (forall t, origin st s t -> class_like st t) ->
  (exists f, lookup_here f st s (VOne (CStr x)) (Some false) = Ok (Some y)) <-> attribute st s x y.
Proof.
  intros st s x y K. split.
  - intros (f & H). eapply attribute_found; eauto.
  - intros A. destruct (attribute_complete _ _ _ _ A K) as (n & H). exists n. apply H. lia.
Qed.
Print Assumptions C46_attribute.
(** Namespace 5 is cloned from 4. *)
Definition instance : state := mkSt [(4, plain None true [(10, 100); (11, 101)]); (5, mkScope None true [(10, 200)] [] (Some 4) [10] None None)] [] [].
Example C46_attribute_case : (forall t, origin instance 5 t -> class_like instance t) /\ attribute instance 5 11 101 /\ attribute instance 5 10 200.
Proof.
  split.
  - intros t O. inversion O as [|a sc c b D C O']; subst; [eexists; split; reflexivity|]. injection D as <-. injection C as <-.
    inversion O' as [|a sc c b D C O'']; subst; [eexists; split; reflexivity|]. injection D as <-. discriminate.
  - split; [|eapply own; reflexivity]. eapply inherited; try reflexivity; [intros [H|[]]; discriminate|]. eapply own; reflexivity.
Qed.

(** In the body of a class, which Python lets see the scopes around, nothing outside is found: [x = 1] and [class A: y = x]. *)
Theorem C46_class_body_refuted : exists st s l x y, around st s l /\ class_like st s /\ python_binding st s l x y /\
  forall f, 2 <= f -> lookup f st s (VOne (CStr x)) = Ok None.
Proof.
  exists (mkSt [(0, plain None false [(10, 100)]); (1, make_child_namespace 0)] [] []), 1, [1; 0], 10, 100.
  split; [eapply around_in; [reflexivity|reflexivity|eapply around_top; reflexivity]|]. split; [eexists; split; reflexivity|]. split.
  - exists [1], 0, []. split; auto. split; [right; intros (sc & E & F); injection E as <-; discriminate|]. split; [eexists; split; reflexivity|].
    intros u [<-|[]] _ z (sc & E & F). injection E as <-. discriminate.
  - intros [|[|f]] L; try lia. reflexivity.
Qed.
Print Assumptions C46_class_body_refuted.

(** References. If a reference to an expression that references can follow (see [followed]) resolves to a symbol, then the
    symbol is that of the value of the expression.
    Missing: the expressions of the refutations below. *)
Theorem C52_value_partial : forall str_of index_of f st h env s e ch y o, mirrors st h -> distinct st h ->
  (forall x y, lookup f st s (VOne (CStr x)) = Ok (Some y) -> exists o, env x = Some o /\ refers st y o) ->
  (forall y o v, refers st y o -> index_of y = Some v -> as_key h o = Some v) ->
  followed (fun x => lookup f st s (VOne (CStr x))) index_of e ->
  chain_of str_of index_of (Some (fun x => lookup f st s (VOne (CStr x)))) e = Ok ch -> fully_resolve f st s ch = Ok (Some y) ->
  evaluates env h e o -> refers st y o.
Proof.
  intros str_of index_of f st h env s e ch y o M D En Ix F C R E.
  destruct (followed_chain str_of index_of _ e F) as (l & V & _ & _). unfold chain_of in C. rewrite V in C. injection C as <-.
  eapply reference_value; eauto.
Qed.
Print Assumptions C52_value_partial.
(** [x = [..., C(), ...]; i = 1], where the object in the list has an attribute a: symbols 1 (x), 2 (i), 3 (x[1]), 4 (x[1].a), each of the
    object with its own number. Names: x is 10, i is 11, a is 12, h is 13 (a global with symbol and object 5). *)
Definition one : value := VOne (CInt 1).
Definition small : state := mkSt
  [(0, plain None false [(10, 1); (11, 2); (13, 5)]); (1, mkScope None true [] [(one, 3)] None [] (Some 3) None); (2, plain None true [(12, 4)])]
  [(1, mkSym 1); (2, mkSym 2); (3, mkSym 3); (4, mkSym 4); (5, mkSym 5)] [(1, 1); (3, 2)].
Definition small_env (x : nat) : option nat := if x =? 10 then Some 1 else if x =? 11 then Some 2 else if x =? 13 then Some 5 else None.
(** The list has three items: objects 6, 3 and 10. *)
Definition small_item (o : nat) (v : value) : option nat :=
  if o =? 1 then match int_of v with
                 | Some z => if ((z =? 1) || (z =? -2))%Z then Some 3 else if ((z =? 2) || (z =? -1))%Z then Some 10 else if ((z =? 0) || (z =? -3))%Z then Some 6 else None
                 | None => None
                 end else None.
(** Objects 3 and 7 have attributes: a (object 4) and h (object 8). Other expressions: 0 is [i + 1], 1 is one whose value
    is object 7. Objects 5 and 7 return object 7 when they are called. *)
Definition small_heap : heap := mkHeap
  (fun o a => if (o =? 3) && (a =? 12) then Some 4 else if (o =? 7) && (a =? 13) then Some 8 else None) small_item
  (fun o => if o =? 2 then Some one else if o =? 9 then Some (VOne (CInt 2)) else None)
  (fun o => if o =? 5 then Some 7 else if o =? 7 then Some 7 else None) (fun n => if n =? 0 then Some 9 else if n =? 1 then Some 7 else None).
Definition small_index (y : nat) : option value := if y =? 2 then Some one else None.
Definition small_look (x : nat) : res (option nat) := lookup 3 small 0 (VOne (CStr x)).

Lemma small_attribute : forall a y, attribute small 2 a y -> a = 12 /\ y = 4.
Proof.
  intros a y A. inversion A as [s sc x z D E|s sc c x z D E C N A']; subst; injection D as <-; [|discriminate].
  change (dget [(12, 4)] a = Some y) in E. cbn [dget] in E. destruct (Nat.eqb_spec a 12); [injection E as <-; auto|discriminate].
Qed.
Lemma small_no_attribute : forall a y, ~ attribute small 1 a y.
Proof. intros a y A. inversion A as [s sc x z D E|s sc c x z D E C N A']; subst; injection D as <-; discriminate. Qed.
Lemma small_namespace : forall o ns, dget (namespaces small) o = Some ns -> o = 1 /\ ns = 1 \/ o = 3 /\ ns = 2.
Proof.
  intros o ns H. change (dget [(1, 1); (3, 2)] o = Some ns) in H. cbn [dget] in H. destruct (Nat.eqb_spec o 1); [injection H as <-; auto|].
  destruct (Nat.eqb_spec o 3); [injection H as <-; auto|discriminate].
Qed.
Lemma small_mirrors : mirrors small small_heap.
Proof.
  split.
  - intros o ns a y D A. destruct (small_namespace _ _ D) as [(-> & ->)|(-> & ->)]; [destruct (small_no_attribute _ _ A)|].
    destruct (small_attribute _ _ A) as (-> & ->). exists 4. split; [eexists; split; reflexivity|reflexivity].
  - intros o ns sc v y D Ds V. destruct (small_namespace _ _ D) as [(-> & ->)|(-> & ->)]; injection Ds as <-; [|discriminate].
    cbn [subs vget] in V. destruct (value_eqb v one) eqn:E; [|discriminate]. injection V as <-. exists 3. split; [eexists; split; reflexivity|].
    destruct v as [[x|z|b|]|l]; try discriminate; cbn in E.
    + apply Z.eqb_eq in E. subst z. reflexivity.
    + destruct b; [reflexivity|discriminate].
  - intros o ns sc k v z D Ds Sz Iv Neg NN. destruct (small_namespace _ _ D) as [(-> & ->)|(-> & ->)]; injection Ds as <-; [|discriminate].
    injection Sz as <-. cbn [item small_heap] in *. unfold small_item in *. cbn [Nat.eqb] in *. rewrite Iv in *. cbn [int_of].
    destruct (Z.eqb_spec z 1); [lia|]. destruct (Z.eqb_spec z 2); [lia|]. destruct (Z.eqb_spec z 0); [lia|]. cbn [orb] in *.
    destruct (Z.eqb_spec z (-2)); [subst z; reflexivity|]. destruct (Z.eqb_spec z (-1)); [subst z; reflexivity|].
    destruct (Z.eqb_spec z (-3)); [subst z; reflexivity|]. exfalso. apply NN. reflexivity.
  - intros o ns D. destruct (small_namespace _ _ D) as [(-> & ->)|(-> & ->)]; eexists; split; reflexivity.
Qed.
Lemma small_distinct : distinct small small_heap.
Proof.
  split.
  - intros o a. right. cbn. unfold small_item. destruct (o =? 1); reflexivity.
  - intros s sc c cc D C. change (dget [(0, plain None false [(10, 1); (11, 2); (13, 5)]); (1, mkScope None true [] [(one, 3)] None [] (Some 3) None); (2, plain None true [(12, 4)])] s = Some sc) in D.
    cbn [dget] in D. destruct (s =? 0); [injection D as <-; discriminate|]. destruct (s =? 1); [injection D as <-; discriminate|].
    destruct (s =? 2); [injection D as <-; discriminate|discriminate].
Qed.
Lemma small_names : forall x y, lookup 3 small 0 (VOne (CStr x)) = Ok (Some y) -> exists o, small_env x = Some o /\ refers small y o.
Proof.
  intros x y H. assert (E : dget [(10, 1); (11, 2); (13, 5)] x = Some y).
  { cbn [lookup lookup_here] in H. change (scope_of small 0) with (Ok (plain None false [(10, 1); (11, 2); (13, 5)])) in H.
    cbn [rbind is_ns plain negb lookup_name names] in H. destruct (dget [(10, 1); (11, 2); (13, 5)] x) eqn:E; [congruence|].
    cbn in H. discriminate. }
  clear H. cbn [dget] in E. unfold small_env. destruct (x =? 10); [injection E as <-; eexists; split; [reflexivity|eexists; split; reflexivity]|].
  destruct (x =? 11); [injection E as <-; eexists; split; [reflexivity|eexists; split; reflexivity]|].
  destruct (x =? 13); [injection E as <-; eexists; split; [reflexivity|eexists; split; reflexivity]|discriminate].
Qed.
Lemma small_keys : forall y o v, refers small y o -> small_index y = Some v -> as_key small_heap o = Some v.
Proof.
  intros y o v (sy & D & <-) H. unfold small_index in H. destruct (Nat.eqb_spec y 2); [|discriminate]. subst y. injection D as <-. exact H.
Qed.
(** The world above meets the conditions, with [x[i].a] and [x[-2].a]. *)
Example C52_value_case : mirrors small small_heap /\ distinct small small_heap /\
  followed small_look small_index (EAttr (ESub (EName 10) (EName 11)) 12) /\
  followed small_look small_index (EAttr (ESub (EName 10) (ENeg (EConst (VOne (CInt 2))))) 12) /\
  (exists ch, chain_of (fun _ => 0) small_index (Some small_look) (EAttr (ESub (EName 10) (EName 11)) 12) = Ok ch /\ length ch = 3 /\ fully_resolve 3 small 0 ch = Ok (Some 4)) /\
  evaluates small_env small_heap (EAttr (ESub (EName 10) (EName 11)) 12) 4.
Proof.
  split; [apply small_mirrors|]. split; [apply small_distinct|].
  split; [apply f_attr; eapply f_index; [apply f_name|reflexivity|reflexivity]|].
  split; [apply f_attr; eapply f_neg; [apply f_name|reflexivity]|].
  split; [eexists; split; [reflexivity|]; split; reflexivity|].
  eapply ev_attr; [eapply ev_sub; [apply ev_name; reflexivity|eapply key_name; reflexivity|reflexivity]|reflexivity].
Qed.

(** And it does resolve, to the symbol at the end of the path, if every step has a symbol.
    Missing: attributes of the class of an object, negative indices of items recorded at their place; C52_called_item_refuted. *)
Theorem C52_found_partial : forall str_of index_of f st s e y, 2 <= f ->
  (forall y' e', tracked st (fun x => lookup f st s (VOne (CStr x))) index_of e' y' -> dget (symbols st) y' <> None) ->
  tracked st (fun x => lookup f st s (VOne (CStr x))) index_of e y ->
  exists ch, chain_of str_of index_of (Some (fun x => lookup f st s (VOne (CStr x)))) e = Ok ch /\ fully_resolve f st s ch = Ok (Some y).
Proof.
  intros str_of index_of f st s e y L All T. destruct (tracked_found str_of index_of f st s L e y T All) as (l & V & _ & R).
  exists (rev l). unfold chain_of. rewrite V. auto.
Qed.
Print Assumptions C52_found_partial.
Example C52_found_case : tracked small small_look small_index (EAttr (ESub (EName 10) (EName 11)) 12) 4 /\
  (forall y' e', tracked small small_look small_index e' y' -> dget (symbols small) y' <> None).
Proof.
  split.
  - eapply (t_attr _ _ _ _ _ 3 3 2); [|exists (mkSym 3); split; reflexivity|reflexivity|reflexivity|reflexivity|reflexivity].
    eapply (t_item _ _ _ _ _ one 1 1 1); [eapply t_name; reflexivity|exists (mkSym 1); split; reflexivity|reflexivity|reflexivity|reflexivity|eapply l_name; reflexivity|reflexivity|intros; discriminate].
  - intros y' e' T. destruct T as [x y L|e a y' o ns sc y T R Ns Sc N E|e k v y' o ns sc y T R Ns Sc N K E Cl].
    + destruct (small_names x y L) as (o & _ & sy & D & _). congruence.
    + destruct (m_attr _ _ small_mirrors _ _ a y Ns) as (o' & (sy & D & _) & _); [eapply own; eauto|congruence].
    + destruct (m_item _ _ small_mirrors _ _ _ _ _ Ns Sc E) as (o' & (sy & D & _) & _). congruence.
Qed.

(** The ways in which a reference goes wrong. [goes_wrong e]: in some world that meets all other conditions of C52_value_partial,
    the reference to [e] resolves to a symbol that is not that of the value of [e]. *)
Definition goes_wrong (e : expr) : Prop := exists str_of index_of f st h env s ch y o, mirrors st h /\ distinct st h /\
  (forall x y, lookup f st s (VOne (CStr x)) = Ok (Some y) -> exists o, env x = Some o /\ refers st y o) /\
  (forall y o v, refers st y o -> index_of y = Some v -> as_key h o = Some v) /\
  chain_of str_of index_of (Some (fun x => lookup f st s (VOne (CStr x)))) e = Ok ch /\ fully_resolve f st s ch = Ok (Some y) /\
  evaluates env h e o /\ ~ refers st y o.
Lemma small_wrong : forall e ch y o, chain_of (fun _ => 0) small_index (Some small_look) e = Ok ch -> fully_resolve 3 small 0 ch = Ok (Some y) ->
  evaluates small_env small_heap e o -> (forall sy, dget (symbols small) y = Some sy -> obj sy <> o) -> goes_wrong e.
Proof.
  intros e ch y o C R E N. exists (fun _ => 0), small_index, 3, small, small_heap, small_env, 0, ch, y, o.
  split; [apply small_mirrors|]. split; [apply small_distinct|]. split; [exact small_names|]. split; [apply small_keys|].
  split; [exact C|]. split; [exact R|]. split; [exact E|]. intros (sy & D & Eo). exact (N sy D Eo).
Qed.

(** [x[-i]]: the sign is dropped, and the reference is to [x[i]]. *)
Theorem C52_negative_refuted : goes_wrong (ESub (EName 10) (ENeg (EName 11))).
Proof.
  eapply (small_wrong _ _ 3 10); [reflexivity|reflexivity| |intros sy D; injection D as <-; discriminate].
  eapply ev_sub; [apply ev_name; reflexivity|eapply key_neg; [eapply key_name; reflexivity|reflexivity]|reflexivity].
Qed.
Print Assumptions C52_negative_refuted.

(** [x[i + 1]]: a subscript that is not understood is left out, and the reference is to [x]. *)
Theorem C52_computed_refuted : goes_wrong (ESub (EName 10) (EOther 0)).
Proof.
  eapply (small_wrong _ _ 1 10); [reflexivity|reflexivity| |intros sy D; injection D as <-; discriminate].
  eapply ev_sub; [apply ev_name; reflexivity|eapply key_other; reflexivity|reflexivity].
Qed.
Print Assumptions C52_computed_refuted.

(** [(a or b).h]: what is before the dot is left out, and the reference is to the global variable [h]. *)
Theorem C52_other_refuted : goes_wrong (EAttr (EOther 1) 13).
Proof.
  eapply (small_wrong _ _ 5 8); [reflexivity|reflexivity| |intros sy D; injection D as <-; discriminate].
  eapply ev_attr; [apply ev_other; reflexivity|reflexivity].
Qed.
Print Assumptions C52_other_refuted.

(** [h()().h]: likewise. *)
Theorem C52_call_refuted : goes_wrong (EAttr (ECall (ECall (EName 13))) 13).
Proof.
  eapply (small_wrong _ _ 5 8); [reflexivity|reflexivity| |intros sy D; injection D as <-; discriminate].
  eapply ev_attr; [eapply ev_call; [eapply ev_call; [apply ev_name; reflexivity|reflexivity]|reflexivity]|reflexivity].
Qed.
Print Assumptions C52_call_refuted.

(** Attributes and items are confused: [d.a] is taken for [d["a"]]. All conditions of C52_value_partial but [distinct] hold. *)
Theorem C52_item_refuted : exists str_of index_of f st h env s ch y o, mirrors st h /\
  (forall x y, lookup f st s (VOne (CStr x)) = Ok (Some y) -> exists o, env x = Some o /\ refers st y o) /\
  (forall y o v, refers st y o -> index_of y = Some v -> as_key h o = Some v) /\
  followed (fun x => lookup f st s (VOne (CStr x))) index_of (EAttr (EName 10) 12) /\
  chain_of str_of index_of (Some (fun x => lookup f st s (VOne (CStr x)))) (EAttr (EName 10) 12) = Ok ch /\ fully_resolve f st s ch = Ok (Some y) /\
  evaluates env h (EAttr (EName 10) 12) o /\ ~ refers st y o.
Proof.
  set (st := mkSt [(0, plain None false [(10, 1)]); (1, mkScope None true [] [(VOne (CStr 12), 2)] None [] None None)] [(1, mkSym 1); (2, mkSym 2)] [(1, 1)]).
  set (h := mkHeap (fun o a => if (o =? 1) && (a =? 12) then Some 3 else None) (fun o v => if (o =? 1) && value_eqb v (VOne (CStr 12)) then Some 2 else None)
              (fun _ => None) (fun _ => None) (fun _ => None)).
  exists (fun _ => 0), (fun _ => None), 3, st, h, (fun x => if x =? 10 then Some 1 else None), 0.
  exists [plain_atom (VOne (CStr 10)) false false; plain_atom (VOne (CStr 12)) false false], 2, 3.
  assert (Ns : forall o ns, dget (namespaces st) o = Some ns -> o = 1 /\ ns = 1).
  { intros o ns H. change (dget [(1, 1)] o = Some ns) in H. cbn [dget] in H. destruct (Nat.eqb_spec o 1); [injection H as <-; auto|discriminate]. }
  split.
  { split.
    - intros o ns a y D A. destruct (Ns _ _ D) as (-> & ->). exfalso. inversion A as [s sc x z D' E|s sc c x z D' E C N A']; subst; injection D' as <-; discriminate.
    - intros o ns sc v y D Ds V. destruct (Ns _ _ D) as (-> & ->). injection Ds as <-. cbn [subs vget] in V.
      destruct (value_eqb v (VOne (CStr 12))) eqn:E; [|discriminate]. injection V as <-. exists 2. split; [exists (mkSym 2); split; reflexivity|].
      cbn [item h Nat.eqb andb]. rewrite E. reflexivity.
    - intros o ns sc n v z D Ds Sz. destruct (Ns _ _ D) as (-> & ->). injection Ds as <-. discriminate.
    - intros o ns D. destruct (Ns _ _ D) as (-> & ->). eexists. split; reflexivity. }
  split.
  { intros x y H. cbn [lookup lookup_here] in H. change (scope_of st 0) with (Ok (plain None false [(10, 1)])) in H.
    cbn [rbind is_ns plain negb lookup_name names dget] in H. destruct (x =? 10).
    - injection H as <-. exists 1. split; [reflexivity|exists (mkSym 1); split; reflexivity].
    - cbn in H. discriminate. }
  split; [intros; discriminate|]. split; [apply f_attr; apply f_name|]. split; [reflexivity|]. split; [reflexivity|].
  split; [eapply ev_attr; [apply ev_name; reflexivity|reflexivity]|]. intros (sy & D & E). injection D as <-. discriminate.
Qed.
Print Assumptions C52_item_refuted.

(** A call of an item, [x[1]()], is never found, though the item has a symbol: the index is made a string. *)
Theorem C52_called_item_refuted : tracked small small_look small_index (ESub (EName 10) (EConst one)) 3 /\
  forall str_of, exists ch, chain_of str_of small_index (Some small_look) (ECall (ESub (EName 10) (EConst one))) = Ok ch /\ fully_resolve 3 small 0 ch = Ok None.
Proof.
  split.
  - eapply (t_item _ _ _ _ _ one 1 1 1); [eapply t_name; reflexivity|exists (mkSym 1); split; reflexivity|reflexivity|reflexivity|reflexivity|eapply l_const; discriminate|reflexivity|intros; discriminate].
  - intros str_of. eexists. split; reflexivity.
Qed.
Print Assumptions C52_called_item_refuted.

(** Stores. In every scope, with its own symbol table or none, the store of a name goes where Python stores it, unless it is a
    nonlocal one that is not bound by the very next scope.
    Missing: C53_outer_refuted, C53_method_refuted, C53_twice_refuted. *)
Theorem C53_store_partial : forall st code glob s x local global_ sc t, dget (scopes st) s = Some sc ->
  (symtab sc = None \/ s <> glob /\ symtab sc = code s) -> frame_after code glob s x local global_ ->
  (s <> glob -> says code s x DNonlocal -> symtab sc <> None /\ parent sc = Some t) ->
  stores_to st code glob s x t -> store_scope st glob s x local global_ = Ok t.
Proof. exact store_rule. Qed.
Print Assumptions C53_store_partial.
(** [def f(): n = 0; def g(): nonlocal n; n = 1; def k(): nonlocal n; n = 2], in the global scope 0. f (20) has scope 1,
    g (21) scope 2, and k (22), which is in g, scope 3; n is 10. *)
Definition table_k : table := Tab [(10, DNonlocal)] [].
Definition table_g : table := Tab [(10, DNonlocal); (22, DLocal)] [(22, table_k)].
Definition table_f : table := Tab [(10, DLocal); (21, DLocal)] [(21, table_g)].
Definition table_cell : table := Tab [(20, DLocal)] [(20, table_f)].
Definition functions : state := mkSt
  [(0, plain None false []); (1, mkScope (Some 0) false [] [] None [] None (Some table_f)); (2, mkScope (Some 1) false [] [] None [] None (Some table_g));
   (3, mkScope (Some 2) false [] [] None [] None (Some table_k))] [] [].
Definition functions_code (s : nat) : option table := dget [(0, table_cell); (1, table_f); (2, table_g); (3, table_k)] s.
Lemma functions_around : around functions 3 [3; 2; 1; 0].
Proof.
  eapply around_in; [reflexivity|reflexivity|]. eapply around_in; [reflexivity|reflexivity|]. eapply around_in; [reflexivity|reflexivity|].
  eapply around_top; reflexivity.
Qed.
Example C53_store_case : stores_to functions functions_code 0 2 10 1 /\ frame_after functions_code 0 2 10 true false /\ store_scope functions 0 2 10 true false = Ok 1.
Proof.
  split; [|split; [|reflexivity]].
  - eapply (to_outer _ _ _ _ _ [] 1 [0]); [discriminate|exists table_g; split; reflexivity| |discriminate|intros (sc & D & E); injection D as <-; discriminate|exists table_f; split; reflexivity|intros u []].
    assert (A := functions_around). inversion A as [|a sc p l D P A']; subst. injection D as <-. injection P as <-. exact A'.
  - split; [discriminate|]. split; [|auto]. intros _ (t & C & D). injection C as <-. discriminate.
Qed.

(** The scopes of functions get their own symbol tables, if the names of functions are unique in their blocks and there
    is no class in between.
    Missing: C53_method_refuted, C53_twice_refuted. *)
Theorem C53_table_partial : forall st cell glob p s b, function_scope st cell glob p s -> p <> [] -> block_at cell p b ->
  exists sc, dget (scopes st) s = Some sc /\ symtab sc = Some b.
Proof. intros st cell glob p s b F N B. destruct (table_rule _ _ _ _ _ F N _ B) as (sc & D & _ & S). eauto. Qed.
Print Assumptions C53_table_partial.
Example C53_table_case : function_scope functions table_cell 0 [20; 21; 22] 3 /\ block_at table_cell [20; 21; 22] table_k.
Proof.
  split.
  - eapply (the_function _ _ _ [20; 21] 2); [eapply (the_function _ _ _ [20] 1); [eapply (the_function _ _ _ [] 0); [eapply the_module; reflexivity| |]| |]| |]; reflexivity.
  - eapply (inside _ _ _ _ _ [] []); [reflexivity|intros []|left; reflexivity|]. eapply (inside _ _ _ _ _ [] []); [reflexivity|intros []|right; left; reflexivity|].
    eapply (inside _ _ _ _ _ [] []); [reflexivity|intros []|right; left; reflexivity|]. apply here.
Qed.
(** And a later call keeps it. *)
Theorem C53_call : forall st cell prev x pc sc t, dget (scopes st) prev = Some pc -> symtab pc = Some t -> call_scope st cell prev x = Ok sc ->
  symtab sc = Some t /\ parent sc = parent pc /\ is_ns sc = false /\ names sc = [].
Proof.
  intros st cell prev x pc sc t D T H. unfold call_scope in H. rewrite (scope_of_some _ _ _ D) in H. cbn [rbind] in H.
  destruct (parent pc) as [p|]; [|discriminate]. cbn [rbind of_option] in H. unfold make_child_scope in H.
  destruct (scope_of st p); [|discriminate]. cbn [rmap] in H. rewrite T in H. injection H as <-. auto.
Qed.
Print Assumptions C53_call.
Example C53_call_case : exists sc, call_scope functions None 2 21 = Ok sc /\ symtab sc = Some table_g.
Proof. eexists. split; reflexivity. Qed.

(** A nonlocal name that is bound two functions further out is stored in the next one. *)
Theorem C53_outer_refuted : exists st code glob s x t u, stores_to st code glob s x t /\ frame_after code glob s x true false /\
  (exists sc, dget (scopes st) s = Some sc /\ symtab sc = code s) /\ store_scope st glob s x true false = Ok u /\ u <> t.
Proof.
  exists functions, functions_code, 0, 3, 10, 1, 2. split.
  { eapply (to_outer _ _ _ _ _ [2] 1 [0]); [discriminate|exists table_k; split; reflexivity|exact functions_around|discriminate|
      intros (sc & D & E); injection D as <-; discriminate|exists table_f; split; reflexivity|].
    intros u [<-|[]]. right. intros (t & C & D). injection C as <-. discriminate. }
  split. { split; [discriminate|]. split; [|auto]. intros _ (t & C & D). injection C as <-. discriminate. }
  split; [eexists; split; reflexivity|]. split; [reflexivity|discriminate].
Qed.
Print Assumptions C53_outer_refuted.

(** A method has no symbol table, so that a nonlocal name is stored in its own scope: [def f(): n = 0; class A: def m(self): nonlocal n; n = 1]. *)
Definition table_m : table := Tab [(10, DNonlocal)] [].
Definition table_A : table := Tab [(22, DLocal)] [(22, table_m)].
Definition table_f2 : table := Tab [(10, DLocal); (21, DLocal)] [(21, table_A)].
Definition method_base : state := mkSt
  [(0, plain None false []); (1, mkScope (Some 0) false [] [] None [] None (Some table_f2)); (2, make_child_namespace 1)] [] [].
Theorem C53_method_refuted : exists code m t u, make_child_scope method_base None 2 22 = Ok m /\
  let st := mkSt (scopes method_base ++ [(3, m)]) [] [] in
  stores_to st code 0 3 10 t /\ frame_after code 0 3 10 true false /\ store_scope st 0 3 10 true false = Ok u /\ u <> t.
Proof.
  exists (fun s => dget [(1, table_f2); (2, table_A); (3, table_m)] s), (plain (Some 2) false []), 1, 3. split; [reflexivity|]. cbv zeta. split.
  { eapply (to_outer _ _ _ _ _ [2] 1 [0]); [discriminate|exists table_m; split; reflexivity| |discriminate|
      intros (sc & D & E); injection D as <-; discriminate|exists table_f2; split; reflexivity|].
    - eapply around_in; [reflexivity|reflexivity|]. eapply around_in; [reflexivity|reflexivity|]. eapply around_in; [reflexivity|reflexivity|].
      eapply around_top; reflexivity.
    - intros u [<-|[]]. left. eexists. split; reflexivity. }
  split. { split; [discriminate|]. split; [|auto]. intros _ (t & C & D). injection C as <-. discriminate. }
  split; [reflexivity|discriminate].
Qed.
Print Assumptions C53_method_refuted.

(** Nor has a function whose name is defined twice in its block: [if c: def g(): ... else: def g(): nonlocal n; n = 1]. *)
Definition table_g2 : table := Tab [(10, DNonlocal)] [].
Definition table_f3 : table := Tab [(10, DLocal); (21, DLocal)] [(21, Tab [] []); (21, table_g2)].
Definition twice_base : state := mkSt [(0, plain None false []); (1, mkScope (Some 0) false [] [] None [] None (Some table_f3))] [] [].
Theorem C53_twice_refuted : exists code m t u, make_child_scope twice_base None 1 21 = Ok m /\
  let st := mkSt (scopes twice_base ++ [(2, m)]) [] [] in
  stores_to st code 0 2 10 t /\ frame_after code 0 2 10 true false /\ store_scope st 0 2 10 true false = Ok u /\ u <> t.
Proof.
  exists (fun s => dget [(1, table_f3); (2, table_g2)] s), (plain (Some 1) false []), 1, 2. split; [reflexivity|]. cbv zeta. split.
  { eapply (to_outer _ _ _ _ _ [] 1 [0]); [discriminate|exists table_g2; split; reflexivity| |discriminate|
      intros (sc & D & E); injection D as <-; discriminate|exists table_f3; split; reflexivity|intros u []].
    eapply around_in; [reflexivity|reflexivity|]. eapply around_in; [reflexivity|reflexivity|]. eapply around_top; reflexivity. }
  split. { split; [discriminate|]. split; [|auto]. intros _ (t & C & D). injection C as <-. discriminate. }
  split; [reflexivity|discriminate].
Qed.
Print Assumptions C53_twice_refuted.
