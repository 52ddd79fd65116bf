(** What running a cell reads and writes, and what the analysis of it should report. *)
Require Import String List Bool Arith.
Import ListNotations.
Require Import Verif.Base Verif.LiveModel.
Local Open Scope list_scope.

(** ** Running a cell

    Independent of the visitor: the events of one execution path, in order. Values are not
    modelled, so a test may come out either way, a loop may run any number of times, and every
    expression may raise. *)
Inductive event := Read (x : string) | Write (x : string).

(** [x] is read before anything is assigned to it. *)
Definition exposed (x : string) (tr : list event) : Prop :=
  exists pre post, tr = pre ++ Read x :: post /\ ~ In (Write x) pre.

Fixpoint exposed_reads (done : list string) (tr : list event) : list event :=
  match tr with
  | [] => []
  | Read x :: tr =>
      if existsb (String.eqb x) done then exposed_reads done tr
      else Read x :: exposed_reads done tr
  | Write x :: tr => exposed_reads (x :: done) tr
  end.

Inductive outcome := Normal | Break | Continue | Return | Raise.

(** Names bound by a target. *)
Fixpoint tnames (t : expr) : list string :=
  match t with
  | EName x => [x]
  | EList es => flat_map tnames es
  | EStar e => tnames e
  | _ => []
  end.

(** Names bound by [:=] in an expression. *)
Fixpoint ebinds (e : expr) : list string :=
  match e with
  | EConst _ | EName _ => []
  | EAttr b _ => ebinds b
  | ESub b s => ebinds b ++ ebinds s
  | ECall f args => ebinds f ++ flat_map ebinds args
  | EBin l r => ebinds l ++ ebinds r
  | EList es | EStr es | EOp es | ECond es => flat_map ebinds es
  | EDict ks vs => flat_map ebinds ks ++ flat_map ebinds vs
  | EStar e => ebinds e
  | ENamed x e => x :: ebinds e
  | EComp elts gens =>
      flat_map ebinds elts ++
      flat_map (fun g => let 'Gen t i ifs := g in ebinds t ++ ebinds i ++ flat_map ebinds ifs) gens
  | ELambda ds => flat_map ebinds ds
  end.
Definition oebinds (o : option expr) : list string :=
  match o with Some e => ebinds e | None => [] end.

(** Names that a statement binds in the scope it stands in. *)
Fixpoint sbinds (s : stmt) : list string :=
  match s with
  | SPass | SBreak | SContinue => []
  | SExpr e => ebinds e
  | SReturn es | SRaise es => flat_map ebinds es
  | SAssign ts e => flat_map ebinds ts ++ flat_map tnames ts ++ ebinds e
  | SAnn t ann e => ebinds t ++ tnames t ++ ebinds ann ++ oebinds e
  | SAug t e => ebinds t ++ tnames t ++ ebinds e
  | SImport xs => xs
  | SDelete ts => flat_map ebinds ts
  | SFunc (Fn x _ _ ds kds anns decos _) =>
      x :: flat_map ebinds ds ++ flat_map ebinds kds ++ flat_map ebinds anns ++
      flat_map ebinds decos
  | SClass x bs ks decos _ => x :: flat_map ebinds bs ++ flat_map ebinds ks ++ flat_map ebinds decos
  | SIf e a b | SWhile e a b => ebinds e ++ flat_map sbinds a ++ flat_map sbinds b
  | SFor t e a b =>
      ebinds t ++ tnames t ++ ebinds e ++ flat_map sbinds a ++ flat_map sbinds b
  | SWith _ items b =>
      flat_map (fun i => ebinds (fst i) ++
                  match snd i with Some t => ebinds t ++ tnames t | None => [] end) items ++
      flat_map sbinds b
  | STry b hs o f =>
      flat_map sbinds b ++
      flat_map (fun h => let 'Handler t x b := h in
                  oebinds t ++ match x with Some x => [x] | None => [] end ++
                  flat_map sbinds b) hs ++
      flat_map sbinds o ++ flat_map sbinds f
  end.

(** The names that are local while the body of a function runs. *)
Definition fn_locals (fn : fndef) : list string :=
  fn_params fn ++ fn_kwonly fn ++ flat_map sbinds (fn_body fn).

(** A name that is not local is global. *)
Definition read (L : list string) (x : string) : list event :=
  if existsb (String.eqb x) L then [] else [Read x].
Definition write (L : list string) (x : string) : list event :=
  if existsb (String.eqb x) L then [] else [Write x].

(** [ev L F e tr ok]: with the local names [L], and the functions [F] that were defined so far, [e]
    may be evaluated with the events [tr]; [ok]: to its end, not up to an exception.
    [store]: the same for an assignment to a target. [ex]: for a statement, with the functions
    that are defined afterwards.

    Calling a name that a [def] of the cell has bound may run the body; so it may if the name has
    been bound anew since. Any other callee does nothing that is seen here. *)
Inductive ev : list string -> list (string * fndef) -> expr -> list event -> bool -> Prop :=
| ev_raise L F e : ev L F e [] false
| ev_fail L F e tr : ev L F e tr true -> ev L F e tr false
| ev_const L F c : ev L F (EConst c) [] true
| ev_name L F x : ev L F (EName x) (read L x) true
| ev_attr L F e a tr ok : ev L F e tr ok -> ev L F (EAttr e a) tr ok
| ev_sub L F e s tr ok : evs L F [e; s] tr ok -> ev L F (ESub e s) tr ok
| ev_call L F f args tr ok : evs L F (f :: args) tr ok -> ev L F (ECall f args) tr ok
| ev_call_body L F g fn args tr trb out F' :
    evs L F (EName g :: args) tr true -> existsb (String.eqb g) L = false ->
    fget F g = Some fn -> exs (fn_locals fn) F (fn_body fn) trb out F' ->
    ev L F (ECall (EName g) args) (tr ++ trb) (match out with Raise => false | _ => true end)
| ev_bin L F l r tr ok : evs L F [l; r] tr ok -> ev L F (EBin l r) tr ok
| ev_list L F es tr ok : evs L F es tr ok -> ev L F (EList es) tr ok
| ev_dict L F ks vs tr ok : evs L F (flat_map (fun p => [fst p; snd p]) (combine ks vs)) tr ok ->
    ev L F (EDict ks vs) tr ok
| ev_str L F es tr ok : evs L F es tr ok -> ev L F (EStr es) tr ok
| ev_op L F es tr ok : evs L F es tr ok -> ev L F (EOp es) tr ok
| ev_cond L F e es tr ok : evsome L F (e :: es) tr ok -> ev L F (ECond (e :: es)) tr ok
| ev_star L F e tr ok : ev L F e tr ok -> ev L F (EStar e) tr ok
| ev_named L F x e tr : ev L F e tr true -> ev L F (ENamed x e) (tr ++ write L x) true
| ev_named_raise L F x e tr : ev L F e tr false -> ev L F (ENamed x e) tr false
| ev_comp L F elts t i ifs gens tr : ev L F i tr false ->
    ev L F (EComp elts (Gen t i ifs :: gens)) tr false
| ev_comp_run L F elts t i ifs gens tr tr' ok : ev L F i tr true ->
    (* the iterations: the outermost iterable is evaluated outside; whatever they evaluate, in
       any order and number *)
    evany (flat_map tnames (map gen_target (Gen t i ifs :: gens)) ++ L) F
      (elts ++ ifs ++ flat_map (fun g => gen_iter g :: gen_ifs g) gens) tr' ok ->
    ev L F (EComp elts (Gen t i ifs :: gens)) (tr ++ tr') ok
| ev_lambda L F ds tr ok : evs L F ds tr ok -> ev L F (ELambda ds) tr ok

(** All of them, from left to right. *)
with evs : list string -> list (string * fndef) -> list expr -> list event -> bool -> Prop :=
| evs_nil L F : evs L F [] [] true
| evs_stop L F e es tr : ev L F e tr false -> evs L F (e :: es) tr false
| evs_cons L F e es tr tr' ok : ev L F e tr true -> evs L F es tr' ok ->
    evs L F (e :: es) (tr ++ tr') ok

(** The first, and some of the others, from left to right. *)
with evsome : list string -> list (string * fndef) -> list expr -> list event -> bool -> Prop :=
| evsome_one L F e es tr ok : ev L F e tr ok -> evsome L F (e :: es) tr ok
| evsome_skip L F e e' es tr ok : evsome L F (e :: es) tr ok -> evsome L F (e :: e' :: es) tr ok
| evsome_next L F e e' es tr tr' ok : ev L F e tr true -> evsome L F (e' :: es) tr' ok ->
    evsome L F (e :: e' :: es) (tr ++ tr') ok

(** Any of them, any number of times. *)
with evany : list string -> list (string * fndef) -> list expr -> list event -> bool -> Prop :=
| evany_nil L F es : evany L F es [] true
| evany_stop L F es e tr : In e es -> ev L F e tr false -> evany L F es tr false
| evany_cons L F es e tr tr' ok : In e es -> ev L F e tr true -> evany L F es tr' ok ->
    evany L F es (tr ++ tr') ok

with store : list string -> list (string * fndef) -> expr -> list event -> bool -> Prop :=
| store_raise L F t : store L F t [] false
| store_name L F x : store L F (EName x) (write L x) true
| store_attr L F b a tr ok : ev L F b tr ok -> store L F (EAttr b a) tr ok
| store_sub L F b s tr ok : evs L F [b; s] tr ok -> store L F (ESub b s) tr ok
| store_list L F ts tr ok : stores L F ts tr ok -> store L F (EList ts) tr ok
| store_star L F t tr ok : store L F t tr ok -> store L F (EStar t) tr ok

with stores : list string -> list (string * fndef) -> list expr -> list event -> bool -> Prop :=
| stores_nil L F : stores L F [] [] true
| stores_stop L F t ts tr : store L F t tr false -> stores L F (t :: ts) tr false
| stores_cons L F t ts tr tr' ok : store L F t tr true -> stores L F ts tr' ok ->
    stores L F (t :: ts) (tr ++ tr') ok

with ex : list string -> list (string * fndef) -> stmt -> list event -> outcome ->
          list (string * fndef) -> Prop :=
| ex_pass L F : ex L F SPass [] Normal F
| ex_break L F : ex L F SBreak [] Break F
| ex_continue L F : ex L F SContinue [] Continue F
| ex_expr L F e tr : ev L F e tr true -> ex L F (SExpr e) tr Normal F
| ex_expr_raise L F e tr : ev L F e tr false -> ex L F (SExpr e) tr Raise F
| ex_return L F es tr ok : evs L F es tr ok ->
    ex L F (SReturn es) tr (if ok then Return else Raise) F
| ex_raise L F es tr ok : evs L F es tr ok -> ex L F (SRaise es) tr Raise F
| ex_assign_raise L F ts e tr : ev L F e tr false -> ex L F (SAssign ts e) tr Raise F
| ex_assign L F ts e tr tr' ok : ev L F e tr true -> stores L F ts tr' ok ->
    ex L F (SAssign ts e) (tr ++ tr') (if ok then Normal else Raise) F
(* an annotation is evaluated at the top of a cell *)
| ex_ann_raise L F t ann e tr : ev L F e tr false -> ex L F (SAnn t ann (Some e)) tr Raise F
| ex_ann L F t ann anns e tr tr' tr2 ok : ev L F e tr true -> store L F t tr' true ->
    anns = [] \/ anns = [ann] -> evs L F anns tr2 ok ->
    ex L F (SAnn t ann (Some e)) (tr ++ tr' ++ tr2) (if ok then Normal else Raise) F
| ex_ann_store L F t ann e tr tr' : ev L F e tr true -> store L F t tr' false ->
    ex L F (SAnn t ann (Some e)) (tr ++ tr') Raise F
| ex_ann_none L F t ann anns tr ok : anns = [] \/ anns = [ann] -> evs L F anns tr ok ->
    ex L F (SAnn t ann None) tr (if ok then Normal else Raise) F
| ex_aug_raise L F t e tr : evs L F [t; e] tr false -> ex L F (SAug t e) tr Raise F
| ex_aug L F t e tr : evs L F [t; e] tr true ->
    ex L F (SAug t e) (tr ++ match t with EName x => write L x | _ => [] end) Normal F
| ex_import_raise L F xs ys zs : xs = ys ++ zs ->
    ex L F (SImport xs) (flat_map (write L) ys) Raise F
| ex_import L F xs : ex L F (SImport xs) (flat_map (write L) xs) Normal F
| ex_delete L F ts tr ok :
    evs L F (flat_map (fun t => match t with EAttr b _ => [b] | ESub b s => [b; s] | _ => [] end) ts)
      tr ok ->
    ex L F (SDelete ts) tr (if ok then Normal else Raise) F
| ex_func_raise L F x ps kos ds kds anns decos b tr :
    evs L F (decos ++ ds ++ kds ++ anns) tr false ->
    ex L F (SFunc (Fn x ps kos ds kds anns decos b)) tr Raise F
| ex_func L F x ps kos ds kds anns decos b tr :
    evs L F (decos ++ ds ++ kds ++ anns) tr true ->
    ex L F (SFunc (Fn x ps kos ds kds anns decos b)) (tr ++ write L x) Normal
      ((x, Fn x ps kos ds kds anns decos b) :: F)
| ex_class_head L F x bs ks decos b tr : evs L F (decos ++ bs ++ ks) tr false ->
    ex L F (SClass x bs ks decos b) tr Raise F
(* what the body assigns belongs to the class *)
| ex_class L F x bs ks decos b tr trb F' : evs L F (decos ++ bs ++ ks) tr true ->
    exs L F b trb Normal F' ->
    ex L F (SClass x bs ks decos b) (tr ++ exposed_reads [] trb ++ write L x) Normal F
| ex_class_raise L F x bs ks decos b tr trb out F' : evs L F (decos ++ bs ++ ks) tr true ->
    exs L F b trb out F' ->
    ex L F (SClass x bs ks decos b) (tr ++ exposed_reads [] trb) Raise F
| ex_if_raise L F e a b tr : ev L F e tr false -> ex L F (SIf e a b) tr Raise F
| ex_if_then L F e a b tr tr' out F' : ev L F e tr true -> exs L F a tr' out F' ->
    ex L F (SIf e a b) (tr ++ tr') out F'
| ex_if_else L F e a b tr tr' out F' : ev L F e tr true -> exs L F b tr' out F' ->
    ex L F (SIf e a b) (tr ++ tr') out F'
| ex_while L F e a b tr out F' tr' out' F'' :
    loop L F (SWhile e a b) tr out F' -> after L F' b out tr' out' F'' ->
    ex L F (SWhile e a b) (tr ++ tr') out' F''
| ex_for_raise L F t i a b tr : ev L F i tr false -> ex L F (SFor t i a b) tr Raise F
| ex_for L F t i a b tri tr out F' tr' out' F'' : ev L F i tri true ->
    loop L F (SFor t i a b) tr out F' -> after L F' b out tr' out' F'' ->
    ex L F (SFor t i a b) (tri ++ tr ++ tr') out' F''
| ex_with_raise L F sup items b tr : enter L F items tr false -> ex L F (SWith sup items b) tr Raise F
| ex_with L F sup items b tr tr' out F' : enter L F items tr true -> exs L F b tr' out F' ->
    ex L F (SWith sup items b) (tr ++ tr') out F'
| ex_with_suppress L F items b tr tr' F' : enter L F items tr true -> exs L F b tr' Raise F' ->
    ex L F (SWith true items b) (tr ++ tr') Normal F'
| ex_try L F b hs o f tr out F' trf outf F'' :
    guarded L F b hs o tr out F' -> exs L F' f trf outf F'' ->
    ex L F (STry b hs o f) (tr ++ trf) (match outf with Normal => out | _ => outf end) F''

(** The statements of a block. *)
with exs : list string -> list (string * fndef) -> list stmt -> list event -> outcome ->
           list (string * fndef) -> Prop :=
| exs_nil L F : exs L F [] [] Normal F
| exs_stop L F s ss tr out F' : ex L F s tr out F' -> out <> Normal -> exs L F (s :: ss) tr out F'
| exs_cons L F s ss tr F' tr' out F'' : ex L F s tr Normal F' -> exs L F' ss tr' out F'' ->
    exs L F (s :: ss) (tr ++ tr') out F''

(** The rounds of a loop, to its end ([Normal]), or left by [break], [return] or an exception. *)
with loop : list string -> list (string * fndef) -> stmt -> list event -> outcome ->
            list (string * fndef) -> Prop :=
| loop_while_test L F e a b tr : ev L F e tr false -> loop L F (SWhile e a b) tr Raise F
| loop_while_end L F e a b tr : ev L F e tr true -> loop L F (SWhile e a b) tr Normal F
| loop_while_next L F e a b tr tr' out F' tr2 out2 F2 : ev L F e tr true ->
    exs L F a tr' out F' -> out = Normal \/ out = Continue ->
    loop L F' (SWhile e a b) tr2 out2 F2 ->
    loop L F (SWhile e a b) (tr ++ tr' ++ tr2) out2 F2
| loop_while_exit L F e a b tr tr' out F' : ev L F e tr true ->
    exs L F a tr' out F' -> out = Break \/ out = Return \/ out = Raise ->
    loop L F (SWhile e a b) (tr ++ tr') out F'
| loop_for_end L F t i a b : loop L F (SFor t i a b) [] Normal F
| loop_for_target L F t i a b tr : store L F t tr false -> loop L F (SFor t i a b) tr Raise F
| loop_for_next L F t i a b tr tr' out F' tr2 out2 F2 : store L F t tr true ->
    exs L F a tr' out F' -> out = Normal \/ out = Continue ->
    loop L F' (SFor t i a b) tr2 out2 F2 ->
    loop L F (SFor t i a b) (tr ++ tr' ++ tr2) out2 F2
| loop_for_exit L F t i a b tr tr' out F' : store L F t tr true ->
    exs L F a tr' out F' -> out = Break \/ out = Return \/ out = Raise ->
    loop L F (SFor t i a b) (tr ++ tr') out F'

(** The [else] of a loop that was left with the given outcome. *)
with after : list string -> list (string * fndef) -> list stmt -> outcome ->
             list event -> outcome -> list (string * fndef) -> Prop :=
| after_end L F b tr out F' : exs L F b tr out F' -> after L F b Normal tr out F'
| after_break L F b : after L F b Break [] Normal F
| after_exit L F b out : out = Return \/ out = Raise -> after L F b out [] out F

with enter : list string -> list (string * fndef) -> list (expr * option expr) ->
             list event -> bool -> Prop :=
| enter_nil L F : enter L F [] [] true
| enter_raise L F e t items tr : ev L F e tr false -> enter L F ((e, t) :: items) tr false
| enter_none L F e items tr tr' ok : ev L F e tr true -> enter L F items tr' ok ->
    enter L F ((e, None) :: items) (tr ++ tr') ok
| enter_store L F e t items tr tr' : ev L F e tr true -> store L F t tr' false ->
    enter L F ((e, Some t) :: items) (tr ++ tr') false
| enter_some L F e t items tr tr' tr2 ok : ev L F e tr true -> store L F t tr' true ->
    enter L F items tr2 ok -> enter L F ((e, Some t) :: items) (tr ++ tr' ++ tr2) ok

(** [try] before [finally]. *)
with guarded : list string -> list (string * fndef) -> list stmt -> list handler -> list stmt ->
               list event -> outcome -> list (string * fndef) -> Prop :=
| guarded_else L F b hs o tr F' tr' out F'' : exs L F b tr Normal F' -> exs L F' o tr' out F'' ->
    guarded L F b hs o (tr ++ tr') out F''
| guarded_exit L F b hs o tr out F' : exs L F b tr out F' -> out <> Normal -> guarded L F b hs o tr out F'
| guarded_caught L F b hs o tr F' tr' out F'' : exs L F b tr Raise F' ->
    handle L F' hs tr' out F'' -> guarded L F b hs o (tr ++ tr') out F''

with handle : list string -> list (string * fndef) -> list handler -> list event -> outcome ->
              list (string * fndef) -> Prop :=
| handle_none L F : handle L F [] [] Raise F
| handle_type L F e x b hs tr : ev L F e tr false -> handle L F (Handler (Some e) x b :: hs) tr Raise F
| handle_next L F e x b hs tr tr' out F' : ev L F e tr true -> handle L F hs tr' out F' ->
    handle L F (Handler (Some e) x b :: hs) (tr ++ tr') out F'
| handle_here L F t x b hs tr tr' out F' :
    evs L F (match t with Some e => [e] | None => [] end) tr true ->
    exs L F b tr' out F' ->
    handle L F (Handler t x b :: hs)
      (tr ++ match x with Some x => write L x | None => [] end ++ tr') out F'.

(** A run of a cell. *)
Definition runs (prog : list stmt) (tr : list event) (out : outcome) : Prop :=
  exists F, exs [] [] prog tr out F.

(** ** What is reported *)

(** [x] is the variable at the root of the chain. *)
Definition rooted (x : string) (c : chain) : Prop :=
  exists a l, c = a :: l /\ a_val a = CStr x.
Definition reported_live (x : string) (st : vst) : Prop := exists c, In c (live st) /\ rooted x c.
Definition reported_dead (x : string) (st : vst) : Prop := In [nm x] (dead st).
Definition reported_modified (x : string) (st : vst) : Prop := In [nm x] (modified st).

(** ** The cells for which the analysis is right *)

(** Targets made of names only. *)
Fixpoint pattern (t : expr) : Prop :=
  match t with
  | EName _ => True
  | EList es => fold_right (fun e P => pattern e /\ P) True es
  | EStar e => pattern e
  | _ => False
  end.

(** Names that an expression reads itself. *)
Fixpoint enames (e : expr) : list string :=
  match e with
  | EConst _ => []
  | EName x => [x]
  | EAttr b _ => enames b
  | ESub b s => enames b ++ enames s
  | ECall f args => enames f ++ flat_map enames args
  | EBin l r => enames l ++ enames r
  | EList es | EStr es | EOp es | ECond es => flat_map enames es
  | EDict ks vs => flat_map enames ks ++ flat_map enames vs
  | EStar e => enames e
  | ENamed x e => enames e
  | EComp elts gens =>
      flat_map enames elts ++
      flat_map (fun g => let 'Gen t i ifs := g in enames i ++ flat_map enames ifs) gens
  | ELambda ds => flat_map enames ds
  end.

(** Names that a statement reads, or may read. *)
Fixpoint snames (s : stmt) : list string :=
  match s with
  | SPass | SBreak | SContinue | SImport _ => []
  | SExpr e => enames e
  | SReturn es | SRaise es | SDelete es => flat_map enames es
  | SAssign ts e => flat_map enames ts ++ enames e
  | SAnn t ann e => enames t ++ enames ann ++ match e with Some e => enames e | None => [] end
  | SAug t e => enames t ++ enames e
  | SFunc (Fn _ _ _ ds kds anns decos _) => flat_map enames (decos ++ ds ++ kds ++ anns)
  | SClass _ bs ks decos b => flat_map enames (decos ++ bs ++ ks) ++ flat_map snames b
  | SIf e a b | SWhile e a b => enames e ++ flat_map snames a ++ flat_map snames b
  | SFor t e a b => enames t ++ enames e ++ flat_map snames a ++ flat_map snames b
  | SWith _ items b =>
      flat_map (fun i => enames (fst i) ++ match snd i with Some t => enames t | None => [] end)
        items ++ flat_map snames b
  | STry b hs o f =>
      flat_map snames b ++
      flat_map (fun h => let 'Handler t _ b := h in
                  match t with Some e => enames e | None => [] end ++ flat_map snames b) hs ++
      flat_map snames o ++ flat_map snames f
  end.

(** [chainy]: what may stand before [.a], [[i]] or [(...)]. *)
Fixpoint chainy (fs : list string) (e : expr) : Prop :=
  match e with
  | EConst _ | EName _ | EBin _ _ | EList _ | EDict _ _ => True
  | EAttr b _ | ESub b _ => chainy fs b
  | ECall f _ =>
      match f with
      | EAttr b _ | ESub b _ => chainy fs b
      | EName g => ~ In g fs
      | _ => False
      end
  | _ => False
  end.
(** A callee. *)
Definition callee (fs : list string) (f : expr) : Prop :=
  match f with
  | EAttr b _ | ESub b _ => chainy fs b
  | EName _ | EConst _ | EBin _ _ => True
  | _ => False
  end.

Definition all {A} (P : A -> Prop) (l : list A) : Prop := fold_right (fun a Q => P a /\ Q) True l.

(** [fs]: the names of the functions that the cell defines. *)
Fixpoint fine_expr (fs : list string) (e : expr) : Prop :=
  match e with
  | EConst _ | EName _ => True
  | EAttr b _ => fine_expr fs b /\ chainy fs b
  | ESub b s => fine_expr fs b /\ chainy fs b /\ quoted b = false /\ fine_expr fs s
  | ECall f args =>
      fine_expr fs f /\ callee fs f /\ fold_right (fun a Q => fine_expr fs a /\ Q) True args /\
      ebinds (ECall f args) = []
  | EBin l r => fine_expr fs l /\ fine_expr fs r
  | EList es | EStr es | EOp es => fold_right (fun a Q => fine_expr fs a /\ Q) True es
  | EDict ks vs =>
      fold_right (fun a Q => fine_expr fs a /\ Q) True ks /\
      fold_right (fun a Q => fine_expr fs a /\ Q) True vs /\ ebinds (EDict ks vs) = []
  | ECond es =>
      fold_right (fun a Q => fine_expr fs a /\ Q) True es /\
      match es with [] => False | _ :: es => flat_map ebinds es = [] end
  | EStar e => fine_expr fs e
  | ENamed _ e => fine_expr fs e
  | EComp elts gens =>
      fold_right (fun a Q => fine_expr fs a /\ Q) True elts /\
      fold_right (fun g Q => (let 'Gen t i ifs := g in
                   pattern t /\ fine_expr fs i /\
                   fold_right (fun a Q => fine_expr fs a /\ Q) True ifs) /\ Q) True gens /\
      ebinds (EComp elts gens) = [] /\
      match gens with
      | [] => False
      | Gen _ i _ :: _ =>
          forall x, In x (enames i) -> ~ In x (flat_map tnames (map gen_target gens))
      end
  | ELambda ds => all (fun d => match d with EConst _ => True | _ => False end) ds
  end.

(** The name that a chain of [.a], [[i]] and [(...)] starts with. *)
Fixpoint root (e : expr) : option string :=
  match e with
  | EName x => Some x
  | EAttr b _ | ESub b _ => root b
  | ECall f _ => root f
  | _ => None
  end.

(** Targets of assignments. *)
Definition fine_target (fs : list string) (t : expr) : Prop :=
  match t with
  | EAttr b _ => fine_expr fs b /\ chainy fs b /\ root b <> None /\ ebinds t = []
  | ESub b s =>
      fine_expr fs b /\ chainy fs b /\ root b <> None /\ quoted b = false /\ fine_expr fs s /\
      ebinds t = []
  | _ => pattern t
  end.

(** Whether the statement contains a [break] of the loop that it stands in. *)
Fixpoint breaks (s : stmt) : bool :=
  match s with
  | SBreak => true
  | SIf _ a b => existsb breaks a || existsb breaks b
  | SWhile _ _ b | SFor _ _ _ b => existsb breaks b
  | SWith _ _ b => existsb breaks b
  | STry b hs o f =>
      existsb breaks b || existsb (fun h => let 'Handler _ _ b := h in existsb breaks b) hs ||
      existsb breaks o || existsb breaks f
  | _ => false
  end%bool.

(** A class body that reads nothing. *)
Definition inert (s : stmt) : Prop :=
  match s with
  | SPass => True
  | SExpr (EConst _) => True
  | SAssign [EName _] (EConst _) => True
  | SFunc (Fn _ _ _ [] [] [] [] _) => True
  | _ => False
  end.

(** [top]: the statement stands at the top of the cell. [gs]: the names that functions of the cell
    read as global ones; none of them is local in another function. *)
Fixpoint fine_stmt (fs gs : list string) (top : bool) (s : stmt) : Prop :=
  match s with
  | SPass | SBreak | SContinue => True
  | SExpr e => fine_expr fs e
  | SReturn es | SRaise es => all (fine_expr fs) es
  | SAssign ts e => all (fine_target fs) ts /\ fine_expr fs e
  | SAnn t (EConst _) (Some e) => fine_target fs t /\ fine_expr fs e
  | SAnn _ _ _ => False
  | SAug t e => fine_expr fs t /\ fine_expr fs e
  | SImport _ => True
  | SDelete ts => all pattern ts
  | SFunc (Fn x ps kos ds kds anns decos b) =>
      (forall y, In y (flat_map snames b) ->
         In y (fn_locals (Fn x ps kos ds kds anns decos b)) \/ In y gs) /\
      (forall y, In y gs -> ~ In y (fn_locals (Fn x ps kos ds kds anns decos b))) /\
      top = true /\ In x fs /\ all (fine_expr fs) ds /\ all (fine_expr fs) decos /\
      kds = [] /\ anns = [] /\ flat_map ebinds (decos ++ ds) = [] /\
      fold_right (fun s Q => fine_stmt fs gs false s /\ Q) True b
  | SClass _ bs ks decos b =>
      all (fine_expr fs) bs /\ all (fine_expr fs) decos /\ ks = [] /\
      flat_map ebinds (decos ++ bs) = [] /\ all inert b
  | SIf e a b =>
      fine_expr fs e /\ fold_right (fun s Q => fine_stmt fs gs false s /\ Q) True a /\
      fold_right (fun s Q => fine_stmt fs gs false s /\ Q) True b
  | SWhile e a b =>
      fine_expr fs e /\ fold_right (fun s Q => fine_stmt fs gs false s /\ Q) True a /\
      fold_right (fun s Q => fine_stmt fs gs false s /\ Q) True b /\
      (b = [] \/ existsb breaks a = false)
  | SFor t i a b =>
      pattern t /\ fine_expr fs i /\ fold_right (fun s Q => fine_stmt fs gs false s /\ Q) True a /\
      fold_right (fun s Q => fine_stmt fs gs false s /\ Q) True b /\
      (b = [] \/ existsb breaks a = false)
  | SWith sup items b =>
      sup = false /\
      all (fun i => fine_expr fs (fst i) /\ match snd i with Some t => pattern t | None => True end)
        items /\
      fold_right (fun s Q => fine_stmt fs gs false s /\ Q) True b
  | STry _ _ _ _ => False
  end.

(** The cells that the soundness theorem is about; what they leave out is in the refutations. *)
Definition fine (prog : list stmt) : Prop :=
  exists fs gs, all (fine_stmt fs gs true) prog.

(** ** Ends and failures of the analysis *)

(** The analysis of the cell ends with [st]. *)
Definition ends (prog : list stmt) (r : res vst) : Prop :=
  exists N, forall n, N <= n -> analyze n prog = r.

(** A variable that some path reads first is not reported. *)
Definition misses (prog : list stmt) (x : string) : Prop :=
  exists st tr out, ends prog (Ok st) /\ runs prog tr out /\ exposed x tr /\ ~ reported_live x st.
(** A variable is reported dead that some path to the end does not write. *)
Definition claims (prog : list stmt) (x : string) : Prop :=
  exists st tr, ends prog (Ok st) /\ runs prog tr Normal /\ reported_dead x st /\ ~ In (Write x) tr.

(** Functions called by name in an expression, or in a statement, without those that the functions
    it defines call. *)
Fixpoint ecalls (e : expr) : list string :=
  match e with
  | EConst _ | EName _ => []
  | EAttr b _ => ecalls b
  | ESub b s => ecalls b ++ ecalls s
  | ECall f args =>
      match f with EName g => [g] | _ => [] end ++ ecalls f ++ flat_map ecalls args
  | EBin l r => ecalls l ++ ecalls r
  | EList es | EStr es | EOp es | ECond es => flat_map ecalls es
  | EDict ks vs => flat_map ecalls ks ++ flat_map ecalls vs
  | EStar e => ecalls e
  | ENamed _ e => ecalls e
  | EComp elts gens =>
      flat_map ecalls elts ++
      flat_map (fun g => let 'Gen t i ifs := g in ecalls t ++ ecalls i ++ flat_map ecalls ifs) gens
  | ELambda ds => flat_map ecalls ds
  end.
Definition oecalls (o : option expr) : list string :=
  match o with Some e => ecalls e | None => [] end.
Fixpoint scalls (s : stmt) : list string :=
  match s with
  | SPass | SBreak | SContinue | SImport _ => []
  | SExpr e => ecalls e
  | SReturn es | SRaise es | SDelete es => flat_map ecalls es
  | SAssign ts e => flat_map ecalls ts ++ ecalls e
  | SAnn t ann e => ecalls t ++ ecalls ann ++ oecalls e
  | SAug t e => ecalls t ++ ecalls e
  | SFunc (Fn _ _ _ ds kds anns decos _) => flat_map ecalls (decos ++ ds ++ kds ++ anns)
  | SClass _ bs ks decos b => flat_map ecalls (decos ++ bs ++ ks) ++ flat_map scalls b
  | SIf e a b | SWhile e a b => ecalls e ++ flat_map scalls a ++ flat_map scalls b
  | SFor t e a b => ecalls t ++ ecalls e ++ flat_map scalls a ++ flat_map scalls b
  | SWith _ items b =>
      flat_map (fun i => ecalls (fst i) ++ oecalls (snd i)) items ++ flat_map scalls b
  | STry b hs o f =>
      flat_map scalls b ++
      flat_map (fun h => let 'Handler t _ b := h in oecalls t ++ flat_map scalls b) hs ++
      flat_map scalls o ++ flat_map scalls f
  end.

(** The functions that a statement defines, at any depth. *)
Fixpoint sdefs (s : stmt) : list fndef :=
  match s with
  | SFunc fn =>
      let 'Fn _ _ _ _ _ _ _ b := fn in fn :: flat_map sdefs b
  | SClass _ _ _ _ b => flat_map sdefs b
  | SIf _ a b | SWhile _ a b | SFor _ _ a b => flat_map sdefs a ++ flat_map sdefs b
  | SWith _ _ b => flat_map sdefs b
  | STry b hs o f =>
      flat_map sdefs b ++ flat_map (fun h => let 'Handler _ _ b := h in flat_map sdefs b) hs ++
      flat_map sdefs o ++ flat_map sdefs f
  | _ => []
  end.

(** No function of the cell calls itself, directly or through others: the names can be numbered so
    that each calls only lower ones. *)
Definition acyclic (prog : list stmt) : Prop :=
  exists rank : string -> nat, forall fn g, In fn (flat_map sdefs prog) ->
    In g (flat_map scalls (fn_body fn)) ->
    (exists fn', In fn' (flat_map sdefs prog) /\ fn_name fn' = g) -> rank g < rank (fn_name fn).
Definition no_kwonly (prog : list stmt) : Prop :=
  forall fn, In fn (flat_map sdefs prog) -> fn_kwonly fn = [].

(** ** What is reported as modified *)

(** No [:=], and no names for exceptions. *)
Fixpoint plain (s : stmt) : Prop :=
  match s with
  | SPass | SBreak | SContinue | SImport _ => True
  | SExpr e => ebinds e = []
  | SReturn es | SRaise es | SDelete es => flat_map ebinds es = []
  | SAssign ts e => flat_map ebinds ts = [] /\ ebinds e = []
  | SAnn t ann e => ebinds t = [] /\ ebinds ann = [] /\ oebinds e = []
  | SAug t e => ebinds t = [] /\ ebinds e = []
  | SFunc (Fn _ _ _ ds kds anns decos _) => flat_map ebinds (decos ++ ds ++ kds ++ anns) = []
  | SClass _ bs ks decos _ => flat_map ebinds (decos ++ bs ++ ks) = []
  | SIf e a b | SWhile e a b =>
      ebinds e = [] /\ fold_right (fun s Q => plain s /\ Q) True a /\
      fold_right (fun s Q => plain s /\ Q) True b
  | SFor t e a b =>
      ebinds t = [] /\ ebinds e = [] /\ fold_right (fun s Q => plain s /\ Q) True a /\
      fold_right (fun s Q => plain s /\ Q) True b
  | SWith _ items b =>
      all (fun i => ebinds (fst i) = [] /\ oebinds (snd i) = []) items /\
      fold_right (fun s Q => plain s /\ Q) True b
  | STry b hs o f =>
      fold_right (fun s Q => plain s /\ Q) True b /\
      fold_right (fun h Q => (let 'Handler t x b := h in
                    oebinds t = [] /\ x = None /\ fold_right (fun s Q => plain s /\ Q) True b) /\ Q)
        True hs /\
      fold_right (fun s Q => plain s /\ Q) True o /\ fold_right (fun s Q => plain s /\ Q) True f
  end.
