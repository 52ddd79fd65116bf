(** Properties of the static analysis of cells. *)
Require Import String List Bool Arith Lia.
Import ListNotations.
Require Import Verif.Base Verif.Loops Verif.LiveModel Verif.LiveSpec Verif.LiveProofs Verif.LiveSound
  Verif.LiveTerm Verif.LiveWrites Verif.LiveCases.
Local Open Scope string_scope.
Local Open Scope list_scope.

(** ** C26: what is reported live and dead *)

(** For the cells in [fine]: every global variable that some path reads before it assigns to it is
    reported live, and every variable that is reported dead is assigned on every path that
    completes. Missing: the cells in the refutations below, and those whose functions read a
    global variable that has the name of a local one of another function. *)
Theorem C26_sound_partial n prog st tr out : analyze n prog = Ok st -> fine prog -> runs prog tr out ->
  (forall x, exposed x tr -> reported_live x st) /\
  (out = Normal -> forall x, reported_dead x st -> In (Write x) tr).
Proof. apply analyze_sound. Qed.
Print Assumptions C26_sound_partial.

(** [def f(y): return y + g]
    [for i in xs:]
    [    if p: t = f(i)]
    [    else: t, u = i, i]
    [x = [t for v in ys if v]]
    [x.append(z)]: *)
Definition cell_fine : list stmt :=
  [SFunc (Fn "f" ["y"] [] [] [] [] [] [SReturn [EBin (EName "y") (EName "g")]]);
   SFor (EName "i") (EName "xs")
     [SIf (EName "p") [SAssign [EName "t"] (ECall (EName "f") [EName "i"])]
                      [SAssign [EList [EName "t"; EName "u"]] (EList [EName "i"; EName "i"])]] [];
   SAssign [EName "x"] (EComp [EName "t"] [Gen (EName "v") (EName "ys") [EName "v"]]);
   SExpr (ECall (EAttr (EName "x") "append") [EName "z"])].
Example C26_fine : fine cell_fine.
Proof.
  exists ["f"], ["g"]. repeat split; simpl; try tauto; try (intros y; simpl; intuition congruence).
Qed.
Example C26_reports : exists st, analyze 30 cell_fine = Ok st /\
  (forall x, In x ["g"; "xs"; "p"; "ys"; "t"; "z"] -> reported_live x st) /\
  reported_dead "x" st /\ reported_dead "f" st.
Proof.
  eexists. split; [vm_compute; reflexivity|]. repeat split.
  - intros x J. apply live_by.
    repeat (destruct J as [<-|J]; [vm_compute; reflexivity|]). destruct J.
  - vm_compute. tauto.
  - vm_compute. tauto.
Qed.
(** A path that reads [t] although no round of the loop has assigned to it. *)
Example C26_path : exists tr, runs cell_fine tr Normal /\ exposed "t" tr.
Proof.
  eexists. split.
  - unfold cell_fine. go.
    + eapply ex_for; [go|apply loop_for_end|apply after_end; go].
    + eapply ev_comp_run; [go|]. simpl. eapply evany_cons; [left; reflexivity|go|]. apply evany_nil.
  - apply exposedb_exposed. vm_compute. reflexivity.
Qed.

(** Blocks that may end early:
    [try: x = g()] / [except: pass] / [x];
    [with suppress(E): x = g()] / [x];
    [for i in xs:] / [    if i: break] / [    x = 1] / [else: x = 2] / [x];
    [c and (x := 1)] / [x]. *)
Definition cell_try : list stmt :=
  [STry [SAssign [EName "x"] (ECall (EName "g") [])] [Handler None None [SPass]] [] [];
   SExpr (EName "x")].
Definition cell_suppress : list stmt :=
  [SWith true [(ECall (EName "suppress") [EName "E"], None)] [SAssign [EName "x"] (ECall (EName "g") [])];
   SExpr (EName "x")].
Definition cell_else : list stmt :=
  [SFor (EName "i") (EName "xs")
     [SIf (EName "i") [SBreak] []; SAssign [EName "x"] (EConst (CNum 1))]
     [SAssign [EName "x"] (EConst (CNum 2))];
   SExpr (EName "x")].
Definition cell_and : list stmt :=
  [SExpr (ECond [EName "c"; ENamed "x" (EConst (CNum 1))]); SExpr (EName "x")].
Theorem C26_blocks_refuted :
  (misses cell_try "x" /\ claims cell_try "x") /\ (misses cell_suppress "x" /\ claims cell_suppress "x") /\
  (misses cell_else "x" /\ claims cell_else "x") /\ (misses cell_and "x" /\ claims cell_and "x").
Proof.
  assert (R1 : exists tr, runs cell_try tr Normal /\ tr = [Read "x"]).
  { eexists. split.
    { unfold cell_try; go.
    eapply (ex_try _ _ _ _ _ _ _ _ _ _ Normal); [|apply exs_nil].
    eapply guarded_caught; [|eapply handle_here; go].
    eapply exs_stop; [|discriminate]. apply ex_assign_raise. apply ev_raise. }
    reflexivity. }
  assert (R2 : exists tr, runs cell_suppress tr Normal /\ tr = [Read "suppress"; Read "E"; Read "x"]).
  { eexists. split.
    { unfold cell_suppress; go.
    eapply ex_with_suppress; [eapply enter_none; [go|apply enter_nil]|].
    eapply exs_stop; [|discriminate]. apply ex_assign_raise. apply ev_raise. }
    reflexivity. }
  assert (R3 : exists tr, runs cell_else tr Normal /\ tr = [Read "xs"; Write "i"; Read "i"; Read "x"]).
  { eexists. split.
    { unfold cell_else; go.
    eapply ex_for; [go| |apply after_break].
    eapply loop_for_exit; [go| |auto]. eapply exs_stop; [|discriminate].
    eapply ex_if_then; [go|]. eapply exs_stop; [go|discriminate]. }
    reflexivity. }
  assert (R4 : exists tr, runs cell_and tr Normal /\ tr = [Read "c"; Read "x"]).
  { eexists. split.
    { unfold cell_and; go. }
    reflexivity. }
  destruct R1 as (t1 & R1 & E1), R2 as (t2 & R2 & E2), R3 as (t3 & R3 & E3), R4 as (t4 & R4 & E4).
  subst t1 t2 t3 t4.
  repeat split; (missed eassumption || claimed eassumption).
Qed.
Print Assumptions C26_blocks_refuted.

(** Expressions: [[x for x in x]]; [lambda y=x: y]; [f[x]]; [g()()]; [(a or b).c];
    [(df.a > 3).sum()]. *)
Theorem C26_expressions_refuted :
  misses [SExpr (EComp [EName "x"] [Gen (EName "x") (EName "x") []])] "x" /\
  misses [SExpr (ELambda [EName "x"])] "x" /\
  misses [SExpr (ESub (EName "f") (EName "x"))] "x" /\
  misses [SExpr (ECall (ECall (EName "g") []) [])] "g" /\
  misses [SExpr (EAttr (ECond [EName "a"; EName "b"]) "c")] "a" /\
  misses [SExpr (ECall (EAttr (EOp [EAttr (EName "df") "a"; EConst (CNum 3)]) "sum") [])] "df".
Proof.
  repeat split; missed ltac:(go; try (eapply ev_comp_run; [go|apply evany_nil])).
Qed.
Print Assumptions C26_expressions_refuted.

(** Definitions: [class C: y = x]; [def h( *, y=x): pass]; [y: x = 1];
    [def f(): return x] / [f().real]. *)
Theorem C26_definitions_refuted :
  misses [SClass "C" [] [] [] [SAssign [EName "y"] (EName "x")]] "x" /\
  misses [SFunc (Fn "h" [] ["y"] [] [EName "x"] [] [] [SPass])] "x" /\
  misses [SAnn (EName "y") (EName "x") (Some (EConst (CNum 1)))] "x" /\
  misses [SFunc (Fn "f" [] [] [] [] [] [] [SReturn [EName "x"]]);
          SExpr (EAttr (ECall (EName "f") []) "real")] "x".
Proof.
  split; [|split; [|split]].
  - missed go.
  - missed go.
  - missed ltac:(go; eapply (ex_ann _ _ _ _ [EName "x"] _ _ _ _ true); [go|go|auto|go]).
  - eapply (misses_by 30); [vm_compute; reflexivity| | |].
    + eexists. eapply exs_cons; [go|]. eapply exs_cons; [|apply exs_nil]. apply ex_expr, ev_attr.
      refine (ev_call_body _ _ _ _ _ _ _ Return _ _ _ _ _); [go|reflexivity|reflexivity|].
      eapply exs_stop; [go|discriminate].
    + vm_compute. reflexivity.
    + vm_compute. reflexivity.
Qed.
Print Assumptions C26_definitions_refuted.

(** Targets: [x: int] / [x]; [a[i], b = c] / [a]; [del a[i]]. *)
Definition cell_bare : list stmt := [SAnn (EName "x") (EConst (CStr "int")) None; SExpr (EName "x")].
Definition cell_item : list stmt :=
  [SAssign [EList [ESub (EName "a") (EName "i"); EName "b"]] (EName "c"); SExpr (EName "a")].
Definition cell_del : list stmt := [SDelete [ESub (EName "a") (EName "i")]].
Theorem C26_targets_refuted :
  misses cell_bare "x" /\ claims cell_bare "x" /\ misses cell_item "a" /\ claims cell_item "a" /\
  misses cell_del "a" /\ misses cell_del "i".
Proof.
  assert (R1 : exists tr, runs cell_bare tr Normal /\ tr = [Read "x"]).
  { eexists. split.
    { unfold cell_bare; go.
    eapply (ex_ann_none _ _ _ _ [] _ true); [auto|go]. }
    reflexivity. }
  assert (R2 : exists tr, runs cell_item tr Normal /\ tr = [Read "c"; Read "a"; Read "i"; Write "b"; Read "a"]).
  { eexists. split.
    { unfold cell_item; go. }
    reflexivity. }
  assert (R3 : exists tr, runs cell_del tr Normal /\ tr = [Read "a"; Read "i"]).
  { eexists. split.
    { unfold cell_del; go. }
    reflexivity. }
  destruct R1 as (t1 & R1 & E1), R2 as (t2 & R2 & E2), R3 as (t3 & R3 & E3).
  subst t1 t2 t3. repeat split; (missed eassumption || claimed eassumption).
Qed.
Print Assumptions C26_targets_refuted.

(** ** C27: the analysis ends *)

(** It ends, with a report, for every cell none of whose functions calls itself, directly or
    through others, or has keyword-only parameters. Missing: the two cases of the refutations. *)
Theorem C27_ends_partial prog : acyclic prog -> no_kwonly prog -> exists st, ends prog (Ok st).
Proof.
  intros A K. destruct (analyze_ends prog A) as (N & H).
  destruct (H N (le_n N)) as (r & E & H1 & H2). destruct (H1 K) as (st & ->). exists st.
  apply (ends_at N); auto.
Qed.
Print Assumptions C27_ends_partial.
(** [def f(y): return g(y)] / [def g(y): return len(y)] / [f(x)] *)
Definition cell_calls : list stmt :=
  [SFunc (Fn "f" ["y"] [] [] [] [] [] [SReturn [ECall (EName "g") [EName "y"]]]);
   SFunc (Fn "g" ["y"] [] [] [] [] [] [SReturn [ECall (EName "len") [EName "y"]]]);
   SExpr (ECall (EName "f") [EName "x"])].
Example C27_acyclic : acyclic cell_calls /\ no_kwonly cell_calls.
Proof.
  split.
  - exists (fun x => if String.eqb x "f" then 1 else 0). simpl.
    intros fn g [<-|[<-|[]]] J; simpl in J; destruct J as [<-|[]]; intros (fn' & J' & E); simpl; auto.
    destruct J' as [<-|[<-|[]]]; discriminate.
  - intros fn J. simpl in J. destruct J as [<-|[<-|[]]]; reflexivity.
Qed.

(** [def fact(n):] / [    if n: return n * fact(n - 1)] / [    return 1] / [fact(5)]: no depth of
    recursion is enough. *)
Definition fact_def : fndef :=
  Fn "fact" ["n"] [] [] [] [] []
    [SIf (EName "n")
       [SReturn [EBin (EName "n") (ECall (EName "fact") [EBin (EName "n") (EConst (CNum 1))])]] [];
     SReturn [EConst (CNum 1)]].
Theorem C27_recursion_refuted n :
  analyze n [SFunc fact_def; SExpr (ECall (EName "fact") [EConst (CNum 5)])] = Err OutOfFuel.
Proof.
  apply (recursive_loops [fact_def] "fact").
  - repeat constructor.
  - intros fn [<-|[]]. reflexivity.
  - intros h fn H. cbn -[String.eqb leads] in H. destruct (String.eqb h "fact"); [|discriminate].
    injection H as <-. exists "fact". eexists. eexists. split; [reflexivity|]. split; [|eexists; reflexivity].
    apply leads_if, leads_return.
  - eexists. reflexivity.
Qed.
Print Assumptions C27_recursion_refuted.
(** The same with two functions that call each other. *)
Definition even_def : fndef :=
  Fn "even" ["n"] [] [] [] [] []
    [SIf (EName "n") [SReturn [ECall (EName "odd") [EBin (EName "n") (EConst (CNum 1))]]] [];
     SReturn [EConst (CNum 1)]].
Definition odd_def : fndef :=
  Fn "odd" ["n"] [] [] [] [] []
    [SIf (EName "n") [SReturn [ECall (EName "even") [EBin (EName "n") (EConst (CNum 1))]]] [];
     SReturn [EConst (CNum 0)]].
Theorem C27_mutual_refuted n :
  analyze n [SFunc even_def; SFunc odd_def; SExpr (ECall (EName "even") [EConst (CNum 4)])] =
  Err OutOfFuel.
Proof.
  apply (recursive_loops [even_def; odd_def] "even").
  - repeat constructor.
  - intros fn [<-|[<-|[]]]; reflexivity.
  - intros h fn H. cbn -[String.eqb leads] in H. destruct (String.eqb h "odd").
    + injection H as <-. exists "even". eexists. eexists. split; [reflexivity|].
      split; [|eexists; reflexivity]. apply leads_if, leads_call.
    + destruct (String.eqb h "even"); [|discriminate].
      injection H as <-. exists "odd". eexists. eexists. split; [reflexivity|].
      split; [|eexists; reflexivity]. apply leads_if, leads_call.
  - eexists. reflexivity.
Qed.
Print Assumptions C27_mutual_refuted.
(** [def f( *, a=1): return a] / [f()]: an exception. *)
Theorem C27_kwonly_refuted :
  ends [SFunc (Fn "f" [] ["a"] [] [EConst (CNum 1)] [] [] [SReturn [EName "a"]]);
        SExpr (ECall (EName "f") [])] (Err AttributeError).
Proof. apply (ends_at 10); [reflexivity|discriminate]. Qed.
Print Assumptions C27_kwonly_refuted.

(** ** C51: what is reported modified *)

(** Every global variable that some path assigns to is reported as modified, or as live itself.
    Missing: [:=] and the names of exceptions. *)
Theorem C51_writes_partial n prog st tr out x : analyze n prog = Ok st -> all plain prog ->
  runs prog tr out -> In (Write x) tr -> reported_modified x st \/ In [nm x] (live st).
Proof. apply analyze_writes. Qed.
Print Assumptions C51_writes_partial.
Example C51_plain : all plain (cell_fine ++ cell_try ++ cell_else) /\
  exists st, analyze 30 (cell_fine ++ cell_try ++ cell_else) = Ok st /\
    forall x, In x ["f"; "i"; "t"; "u"; "x"] -> reported_modified x st.
Proof.
  split; [simpl; tauto|]. eexists. split; [vm_compute; reflexivity|]. intros x J.
  apply cmem_In. repeat (destruct J as [<-|J]; [vm_compute; reflexivity|]). destruct J.
Qed.

(** [x = x + 1] is not reported as modified; nor is [e] in [try: g()] / [except E as e: pass], nor
    [x] in [f[(x := 1)]], as anything. *)
Theorem C51_refuted :
  let unreported prog x := exists st tr, ends prog (Ok st) /\ runs prog tr Normal /\ In (Write x) tr /\
    ~ reported_modified x st in
  let unseen prog x := exists st tr, ends prog (Ok st) /\ runs prog tr Normal /\ In (Write x) tr /\
    ~ reported_modified x st /\ ~ reported_live x st /\ ~ reported_dead x st in
  unreported [SAssign [EName "x"] (EBin (EName "x") (EConst (CNum 1)))] "x" /\
  unseen [STry [SExpr (ECall (EName "g") [])] [Handler (Some (EName "E")) (Some "e") [SPass]] [] []] "e" /\
  unseen [SExpr (ESub (EName "f") (ENamed "x" (EConst (CNum 1))))] "x".
Proof.
  split; [|split].
  - eexists. eexists. split; [apply (ends_at 20); [reflexivity|discriminate]|]. split; [go|].
    split; [simpl; tauto|]. intros X. apply cmem_In in X. vm_compute in X. discriminate.
  - eexists. eexists. split; [apply (ends_at 20); [reflexivity|discriminate]|]. split.
    { eexists. eapply exs_cons; [|apply exs_nil].
      eapply (ex_try _ _ _ _ _ _ _ _ _ _ Normal); [|apply exs_nil].
      eapply guarded_caught; [|eapply handle_here; go].
      eapply exs_stop; [|discriminate]. apply ex_expr_raise, ev_raise. }
    split; [simpl; tauto|]. split; [|split].
    + intros X. apply cmem_In in X. vm_compute in X. discriminate.
    + intros (c & J & R). apply rootedb_rooted in R. simpl in J.
      repeat (destruct J as [<-|J]; [vm_compute in R; discriminate|]). destruct J.
    + intros X. apply cmem_In in X. vm_compute in X. discriminate.
  - eexists. eexists. split; [apply (ends_at 20); [reflexivity|discriminate]|]. split; [go|].
    split; [simpl; tauto|]. split; [|split].
    + intros X. apply cmem_In in X. vm_compute in X. discriminate.
    + intros (c & J & R). apply rootedb_rooted in R. simpl in J.
      repeat (destruct J as [<-|J]; [vm_compute in R; discriminate|]). destruct J.
    + intros X. apply cmem_In in X. vm_compute in X. discriminate.
Qed.
Print Assumptions C51_refuted.
