(** C93: the function made of a slice. *)
Require Import String List Bool Arith Permutation.
Import ListNotations.
Require Import Verif.Base Verif.LiveModel Verif.LiveSpec Verif.LiveSound Verif.FuncModel Verif.FuncSpec
  Verif.FuncProofs.
Local Open Scope string_scope.
Local Open Scope list_scope.

(** For the programs of the examples: [-], and everything but [0] is true. *)
Definition arith : ops :=
  mkOps (fun a b => match a, b with VNum a, VNum b => Some (VNum (a - b)) | _, _ => None end)
    (fun _ => None) (fun _ => None) (fun v => match v with VNum 0 => false | _ => true end).
Definition known (x : string) : bool := existsb (String.eqb x) ["sys"; "max"; "string"].
Definition vars (l : list (string * val)) : env := assoc l.
Definition nothing : env := fun _ => None.
Definition names_of (o : fault + func) : option (list string) :=
  match o with inr f => Some (params f) | inl _ => None end.
Definition asg (x : string) (e : expr) : stmt := SAssign [EName x] e.
Definition num (n : nat) : expr := EConst (CNum n).

(** The parameters: every variable that some path reads before it assigns it, but for those with
    the name of a builtin or of a loaded module; and they differ from each other. *)
Theorem C93_params_partial n excluded order text f tr out x : (forall l, Permutation (order l) l) ->
  to_function n excluded order text = inr f -> all simple (stmts_of text) -> ends_well text ->
  runs (body f) tr out -> exposed x tr -> (In x (params f) <-> excluded x = false).
Proof.
  intros P H Hs Hw Hr Hx. destruct (params_are _ _ _ _ _ P H) as (st & H1 & H2 & H3 & _).
  destruct (ends_well_shape text Hw) as (pre & s & E1 & E2). rewrite H1 in E2. injection E2 as E2.
  rewrite E1 in Hs. pose proof (body_fine pre s Hs) as Fi. rewrite <- E2 in Fi.
  destruct (analyze_sound n (body f) st tr out H2 Fi Hr) as (L & _). rewrite H3. split; [tauto|].
  intros E. split; [now apply L|exact E].
Qed.
Print Assumptions C93_params_partial.

Theorem C93_distinct n excluded order text f : (forall l, Permutation (order l) l) ->
  to_function n excluded order text = inr f -> NoDup (params f).
Proof. intros P H. destruct (params_are _ _ _ _ _ P H) as (st & _ & _ & _ & N). exact N. Qed.
Print Assumptions C93_distinct.

(** Calling the function gives what the slice gives, as the notebook shows it, if it is run with the
    arguments in place of the variables of their names; and the variables of the notebook remain as
    they are. Provided that the slice ends with a line of its own, is made of assignments to names,
    expressions without effects, [if] and [while]; that no name clashes with a builtin or a module;
    that no argument is [None]; and that the caller is the notebook, with the other parameters
    defined. *)
Theorem C93_partial n k o bi excluded order text f pos kw G C :
  (forall l, Permutation (order l) l) -> to_function n excluded order text = inr f ->
  all simple (stmts_of text) -> ends_well text -> excluded "sys" = true ->
  no_clash excluded (stmts_of text) -> accepts (params f) pos kw = true ->
  (forall x v, given (params f) pos kw x = Some v -> v <> VNone) ->
  (forall x, In x (params f) -> given (params f) pos kw x = None ->
     exists v, C x = Some v /\ G x = Some v) ->
  call k o bi f pos kw G C =
  (cell_value k o bi (mkS (fun _ => None) (override G (given (params f) pos kw))) (stmts_of text), G).
Proof. apply call_ok. Qed.
Print Assumptions C93_partial.

(** [# Cell 1] / [t = a] / [while t: t -= b; r = t] / [a - (c or string)]: *)
Definition slice1 : list block :=
  [Note; Line [asg "t" (EName "a")];
   Multi (SWhile (EName "t") [SAug (EName "t") (EName "b"); asg "r" (EName "t")] []) None;
   Line [SExpr (EBin (EName "a") (ECond [EName "c"; EName "string"]))]].
Definition G1 : env := vars [("a", VNum 5); ("b", VNum 2); ("c", VNum 0); ("string", VNum 1)].
Example C93_case : exists f, to_function 30 known (fun l => l) slice1 = inr f /\
  all simple (stmts_of slice1) /\ ends_well slice1 /\ no_clash known (stmts_of slice1) /\
  Permutation (params f) ["a"; "b"; "c"] /\
  fst (call 9 arith nothing f [] [] G1 G1) = inr (VNum 4) /\
  fst (call 9 arith nothing f [] [("a", VNum 9); ("c", VNum 3)] G1 G1) = inr (VNum 6).
Proof.
  eexists. split; [vm_compute; reflexivity|]. split.
  { cbn. repeat split; try (eexists; reflexivity); discriminate. }
  split. { left. exists [Note; Line [asg "t" (EName "a")];
   Multi (SWhile (EName "t") [SAug (EName "t") (EName "b"); asg "r" (EName "t")] []) None]. eexists. reflexivity. }
  split.
  { intros x E I. cbn in I. repeat (destruct I as [<- |I]; [try discriminate E|]); [|destruct I].
    split; [discriminate|]. intros J. cbn in J. repeat (destruct J as [J|J]; [discriminate J|]). destruct J. }
  split.
  { apply NoDup_Permutation; [| |].
    - apply (NoDup_count_occ' string_dec). intros x I. vm_compute in I.
      repeat (destruct I as [<- |I]; [reflexivity|]). destruct I.
    - apply (NoDup_count_occ' string_dec). intros x I. vm_compute in I.
      repeat (destruct I as [<- |I]; [reflexivity|]). destruct I.
    - intros x. vm_compute. tauto. }
  split; reflexivity.
Qed.

(** ** Where it fails *)

(** [a - b], called with [5] and [3] by position: the order of the parameters is that of a set. *)
Definition slice2 : list block := [Line [SExpr (EBin (EName "a") (EName "b"))]].
Theorem C93_order_refuted : exists f g, 
  to_function 30 known (fun l => l) slice2 = inr f /\ to_function 30 known (@rev string) slice2 = inr g /\
  (forall l : list string, Permutation (rev l) l) /\
  fst (call 9 arith nothing f [VNum 5; VNum 3] [] nothing nothing) <>
  fst (call 9 arith nothing g [VNum 5; VNum 3] [] nothing nothing).
Proof.
  eexists. eexists. split; [vm_compute; reflexivity|]. split; [vm_compute; reflexivity|].
  split; [intros l; apply Permutation_sym, Permutation_rev|]. vm_compute. discriminate.
Qed.
Print Assumptions C93_order_refuted.

(** [None] as an argument stands for the variable. *)
Theorem C93_none_refuted : exists f, to_function 30 known (fun l => l) [Line [SExpr (EName "a")]] = inr f /\
  fst (call 9 arith nothing f [] [("a", VNone)] G1 G1) = inr (VNum 5) /\
  cell_value 9 arith nothing (mkS nothing (override G1 (vars [("a", VNone)]))) [SExpr (EName "a")] = inr VNone.
Proof. eexists. split; [vm_compute; reflexivity|]. split; reflexivity. Qed.
Print Assumptions C93_none_refuted.

(** The last line. [a; b] gives [a]. An expression of several lines gives [None]. There is no
    function of [x = a; b]; nor of [x = a + \ ] / [b]; nor of a slice that ends with a comment. *)
Theorem C93_last_line_refuted :
  (exists f, to_function 30 known (fun l => l) [Line [SExpr (EName "a"); SExpr (EName "b")]] = inr f /\
     fst (call 9 arith nothing f [] [] G1 G1) = inr (VNum 5) /\
     cell_value 9 arith nothing (mkS nothing G1) [SExpr (EName "a"); SExpr (EName "b")] = inr (VNum 2)) /\
  (exists f, to_function 30 known (fun l => l) [Multi (SExpr (EName "a")) None] = inr f /\
     fst (call 9 arith nothing f [] [] G1 G1) = inr VNone /\
     cell_value 9 arith nothing (mkS nothing G1) [SExpr (EName "a")] = inr (VNum 5)) /\
  to_function 30 known (fun l => l) [Line [asg "x" (EName "a"); SExpr (EName "b")]] = inl SyntaxFault /\
  to_function 30 known (fun l => l)
    [Multi (asg "x" (EBin (EName "a") (EName "b"))) (Some (SExpr (EName "b")))] = inl SyntaxFault /\
  to_function 30 known (fun l => l) [Line [SExpr (EName "a")]; Note] = inl IndexFault.
Proof.
  split; [eexists; split; [vm_compute; reflexivity|]; split; reflexivity|].
  split; [eexists; split; [vm_compute; reflexivity|]; split; reflexivity|].
  repeat split; vm_compute; reflexivity.
Qed.
Print Assumptions C93_last_line_refuted.

(** Names. A variable [max] that the slice reads and then assigns is unbound in the function; it
    cannot be passed as an argument either. A variable [sys] is taken for the module. *)
Theorem C93_names_refuted :
  let G := vars [("max", VNum 5); ("sys", VNum 7)] in
  (let text := [Line [asg "max" (EBin (EName "max") (num 1))]; Line [SExpr (EName "max")]] in
   exists f, to_function 30 known (fun l => l) text = inr f /\
     fst (call 9 arith nothing f [] [] G G) = inl (UnboundLocalError "max") /\
     fst (call 9 arith nothing f [] [("max", VNum 5)] G G) = inl TypeError /\
     cell_value 9 arith nothing (mkS nothing G) (stmts_of text) = inr (VNum 4)) /\
  exists f, to_function 30 known (fun l => l) [Line [SExpr (EName "sys")]] = inr f /\
    fst (call 9 arith nothing f [] [] G G) = inr (VMod "sys") /\
    cell_value 9 arith nothing (mkS nothing G) [SExpr (EName "sys")] = inr (VNum 7).
Proof.
  split; (eexists; split; [vm_compute; reflexivity|]; repeat split; reflexivity).
Qed.
Print Assumptions C93_names_refuted.

(** Callers. Called from a function of another module, it looks for the variables in that module.
    And a variable that is not defined is missed even if this run does not read it:
    [if 0: r = x] / [1]. *)
Theorem C93_globals_refuted :
  (exists f, to_function 30 known (fun l => l) slice2 = inr f /\
     (forall b, In b (params f) -> G1 b <> None) /\
     fst (call 9 arith nothing f [] [] G1 G1) = inr (VNum 3) /\
     exists b, fst (call 9 arith nothing f [] [] G1 nothing) = inl (KeyError b)) /\
  let text := [Multi (SIf (num 0) [asg "r" (EName "x")] []) None; Line [SExpr (num 1)]] in
  exists f, to_function 30 known (fun l => l) text = inr f /\
    fst (call 9 arith nothing f [] [] G1 G1) = inl (KeyError "x") /\
    cell_value 9 arith nothing (mkS nothing G1) (stmts_of text) = inr (VNum 1).
Proof.
  split.
  - eexists. split; [vm_compute; reflexivity|]. split.
    { intros b I. vm_compute in I. repeat (destruct I as [<- |I]; [discriminate|]). destruct I. }
    split; [reflexivity|]. eexists. reflexivity.
  - eexists. split; [vm_compute; reflexivity|]. split; reflexivity.
Qed.
Print Assumptions C93_globals_refuted.
