(** What Python does when a statement runs: which names it binds, to which values. And the classes
    of statements that the claims are about. *)
From Coq Require Import List Arith Bool.
From Verif Require Import Base BindModel.
Import ListNotations.

(** The values of expressions are numbers, and operators, calls, lambdas, function and class objects,
    modules are whatever [op] says; 0 is false. *)
Definition interp := nat -> nat -> nat -> nat.

Definition env := dict nat.

(** Evaluation: the value, the names as they are afterwards, and the names bound on the way, in order.
    [None]: a name is not bound. *)
Fixpoint eval (I : interp) (e : expr) (g : env) : option (nat * env * list nat) :=
  match e with
  | EName x => match dget g x with Some v => Some (v, g, []) | None => None end
  | EConst k => Some (k, g, [])
  | EOp k a b =>
    match eval I a g with
    | Some (v, g1, l1) =>
      match eval I b g1 with
      | Some (w, g2, l2) => Some (I k v w, g2, l1 ++ l2)
      | None => None
      end
    | None => None
    end
  | EAnd a b =>
    match eval I a g with
    | Some (v, g1, l1) =>
      if v =? 0 then Some (v, g1, l1)
      else match eval I b g1 with
           | Some (w, g2, l2) => Some (w, g2, l1 ++ l2)
           | None => None
           end
    | None => None
    end
  | EIf c a b =>
    match eval I c g with
    | Some (v, g1, l1) =>
      match eval I (if v =? 0 then b else a) g1 with
      | Some (w, g2, l2) => Some (w, g2, l1 ++ l2)
      | None => None
      end
    | None => None
    end
  | ENamed x e =>
    match eval I e g with
    | Some (v, g1, l1) => Some (v, dset g1 x v, l1 ++ [x])
    | None => None
    end
  | ELambda k ds _ =>
    match eval I ds g with
    | Some (v, g1, l1) => Some (I k v 0, g1, l1)
    | None => None
    end
  end.

Definition bind_all (xs : list nat) (v : nat) (g : env) : env := fold_left (fun g x => dset g x v) xs g.

(** What a statement does before its body, if it has one. A for loop takes the first element. For a
    class, its decorators are evaluated first, then its bases and keywords; for a def, decorators
    and defaults. An annotation is evaluated after the name is bound. *)
Definition head (I : interp) (s : stmt) (g : env) : option (env * list nat) :=
  match s with
  | SSkip | SSeq _ _ => Some (g, [])
  | SExpr e | SIf e _ _ | SWhile e _ =>
    match eval I e g with Some (_, g1, l) => Some (g1, l) | None => None end
  | SAssign xs e =>
    match eval I e g with Some (v, g1, l) => Some (bind_all xs v g1, l ++ xs) | None => None end
  | SAug x k e =>
    match dget g x with
    | Some u =>
      match eval I e g with
      | Some (v, g1, l) => Some (dset g1 x (I k u v), l ++ [x])
      | None => None
      end
    | None => None
    end
  | SAnn x ann (Some e) =>
    match eval I e g with
    | Some (v, g1, l) =>
      match eval I ann (dset g1 x v) with
      | Some (_, g2, l2) => Some (g2, l ++ [x] ++ l2)
      | None => None
      end
    | None => None
    end
  | SAnn x ann None =>
    match eval I ann g with Some (_, g1, l) => Some (g1, l) | None => None end
  | SFor x e _ =>
    match eval I e g with Some (v, g1, l) => Some (dset g1 x (I 0 v 0), l ++ [x]) | None => None end
  | SWith e (Some x) _ =>
    match eval I e g with Some (v, g1, l) => Some (dset g1 x (I 1 v 0), l ++ [x]) | None => None end
  | SWith e None _ =>
    match eval I e g with Some (_, g1, l) => Some (g1, l) | None => None end
  | SDef x k ds dec =>
    match eval I dec g with
    | Some (v, g1, l1) =>
      match eval I ds g1 with
      | Some (w, g2, l2) => Some (dset g2 x (I k v w), l1 ++ l2 ++ [x])
      | None => None
      end
    | None => None
    end
  | SClass x k bases kws dec =>
    match eval I dec g with
    | Some (v, g1, l1) =>
      match eval I bases g1 with
      | Some (w, g2, l2) =>
        match eval I kws g2 with
        | Some (u, g3, l3) => Some (dset g3 x (I k v (I k w u)), l1 ++ l2 ++ l3 ++ [x])
        | None => None
        end
      | None => None
      end
    | None => None
    end
  | SImport x m => Some (dset g x (I m 0 0), [x])
  end.

Definition live (g : env) (x : nat) : bool := match dget g x with Some _ => true | None => false end.

(** A statement with its body, run and recorded. A for loop has one element here, and a while loop that
    goes around at most once; [None] also if it would go on. The test of an if, a with, and the
    head of a for loop are recorded before the body ([early]). *)
Fixpoint run (I : interp) (now : nat) (s : stmt) (g : env) (t : dict sym)
  : option (env * dict sym * list nat) :=
  match s with
  | SSkip => Some (g, t, [])
  | SSeq a b =>
    match run I now a g t with
    | Some (g1, t1, l1) =>
      match run I now b g1 t1 with
      | Some (g2, t2, l2) => Some (g2, t2, l1 ++ l2)
      | None => None
      end
    | None => None
    end
  | SIf e a b =>
    match eval I e g with
    | Some (v, g1, l1) =>
      let t1 := finish now (live g1) s t in
      match run I now (if v =? 0 then b else a) g1 t1 with
      | Some (g2, t2, l2) => Some (g2, t2, l1 ++ l2)
      | None => None
      end
    | None => None
    end
  | SFor _ _ body | SWith _ _ body =>
    match head I s g with
    | Some (g1, l1) =>
      let t1 := finish now (live g1) s t in
      match run I now body g1 t1 with
      | Some (g2, t2, l2) => Some (g2, t2, l1 ++ l2)
      | None => None
      end
    | None => None
    end
  | SWhile e body =>
    match eval I e g with
    | Some (v, g1, l1) =>
      if v =? 0 then Some (g1, finish now (live g1) s t, l1)
      else
        match run I now body g1 t with
        | Some (g2, t2, l2) =>
          match eval I e g2 with
          | Some (v3, g3, l3) =>
            if v3 =? 0 then Some (g3, finish now (live g3) s t2, l1 ++ l2 ++ l3) else None
          | None => None
          end
        | None => None
        end
    | None => None
    end
  | _ =>
    match head I s g with
    | Some (g1, l1) => Some (g1, finish now (live g1) s t, l1)
    | None => None
    end
  end.

(** A session: top level statements, numbered from 1, from nothing. The log has the number of the
    statement and the name for every binding made. *)
Fixpoint session (I : interp) (now : nat) (ss : list stmt) (g : env) (t : dict sym)
  : option (env * dict sym * list (nat * nat)) :=
  match ss with
  | [] => Some (g, t, [])
  | s :: ss =>
    match run I now s g t with
    | Some (g1, t1, l1) =>
      match session I (S now) ss g1 t1 with
      | Some (g2, t2, l2) => Some (g2, t2, map (pair now) l1 ++ l2)
      | None => None
      end
    | None => None
    end
  end.

(** No [:=] at all. *)
Fixpoint plain (e : expr) : Prop :=
  match e with
  | EName _ | EConst _ => True
  | EOp _ a b | EAnd a b => plain a /\ plain b
  | EIf c a b => plain c /\ plain a /\ plain b
  | ENamed _ _ => False
  | ELambda _ ds body => plain ds /\ plain body
  end.

(** [:=] only where it is evaluated whenever the expression is. *)
Fixpoint sure (e : expr) : Prop :=
  match e with
  | EName _ | EConst _ => True
  | EOp _ a b => sure a /\ sure b
  | EAnd a b => sure a /\ plain b
  | EIf c a b => sure c /\ plain a /\ plain b
  | ENamed _ e => sure e
  | ELambda _ ds body => sure ds /\ plain body
  end.

(** Statements with [:=] only in the places that are looked at: in expression statements, in tests of
    if, on the right of augmented and annotated assignments. No while loop. *)
Fixpoint seen (s : stmt) : Prop :=
  match s with
  | SSkip | SExpr _ | SAug _ _ _ | SImport _ _ => True
  | SSeq a b => seen a /\ seen b
  | SAssign _ e => plain e
  | SAnn _ ann _ => plain ann
  | SFor _ e body => plain e /\ seen body
  | SIf _ a b => seen a /\ seen b
  | SWhile _ _ => False
  | SWith e _ body => plain e /\ seen body
  | SDef _ _ ds dec => plain ds /\ plain dec
  | SClass _ _ bases kws dec => plain bases /\ plain kws /\ plain dec
  end.

(** And there only where it is surely evaluated; and no annotation without a value. *)
Fixpoint firm (s : stmt) : Prop :=
  match s with
  | SSkip | SImport _ _ => True
  | SExpr e | SAug _ _ e => sure e
  | SSeq a b => firm a /\ firm b
  | SAssign _ e => plain e
  | SAnn _ ann (Some e) => plain ann /\ sure e
  | SAnn _ _ None => False
  | SFor _ e body => plain e /\ firm body
  | SIf e a b => sure e /\ firm a /\ firm b
  | SWhile _ _ => False
  | SWith e _ body => plain e /\ firm body
  | SDef _ _ ds dec => plain ds /\ plain dec
  | SClass _ _ bases kws dec => plain bases /\ plain kws /\ plain dec
  end.

(** * What a value is computed from *)

(** The names written in an expression, inside lambdas too. *)
Fixpoint mentions (e : expr) (x : nat) : Prop :=
  match e with
  | EName y => x = y
  | EConst _ => False
  | EOp _ a b | EAnd a b => mentions a x \/ mentions b x
  | EIf c a b => mentions c x \/ mentions a x \/ mentions b x
  | ENamed y e => x = y \/ mentions e x
  | ELambda _ ds body => mentions ds x \/ mentions body x
  end.

(** The expressions that set a name, in the head of a statement. *)
Fixpoint sets_in (e : expr) (x : nat) (d : expr) : Prop :=
  match e with
  | EName _ | EConst _ => False
  | EOp _ a b | EAnd a b => sets_in a x d \/ sets_in b x d
  | EIf c a b => sets_in c x d \/ sets_in a x d \/ sets_in b x d
  | ENamed y e => (x = y /\ d = e) \/ sets_in e x d
  | ELambda _ ds _ => sets_in ds x d
  end.

Definition sets (s : stmt) (x : nat) (d : expr) : Prop :=
  match s with
  | SSkip | SSeq _ _ | SImport _ _ => False
  | SExpr e | SIf e _ _ | SWhile e _ => sets_in e x d
  | SAssign xs e => (In x xs /\ d = e) \/ sets_in e x d
  | SAug y _ e => (x = y /\ d = e) \/ sets_in e x d
  | SAnn y ann (Some e) => (x = y /\ d = e) \/ sets_in e x d \/ sets_in ann x d
  | SAnn _ ann None => sets_in ann x d
  | SFor y e _ => (x = y /\ d = e) \/ sets_in e x d
  | SWith e (Some y) _ => (x = y /\ d = e) \/ sets_in e x d
  | SWith e None _ => sets_in e x d
  | SDef y _ ds dec => (x = y /\ (d = ds \/ d = dec)) \/ sets_in ds x d \/ sets_in dec x d
  | SClass y _ bases kws dec =>
    (x = y /\ (d = bases \/ d = kws \/ d = dec)) \/ sets_in bases x d \/ sets_in kws x d \/ sets_in dec x d
  end.

(** Is the old value of the name needed for the new one? *)
Definition needs_self (s : stmt) (x : nat) : Prop :=
  match s with SAug y _ _ => x = y | _ => False end \/ exists d, sets s x d /\ mentions d x.

(** What the table says a name is computed from: what it depends on and, where that was set by the
    same statement, what that depends on in turn. *)
Inductive source (t : dict sym) (s : stmt) : nat -> nat -> Prop :=
| src_dep : forall x r d, dget t x = Some r -> In d (deps r) -> source t s x d
| src_via : forall x r d y, dget t x = Some r -> In d (deps r) -> (exists e, sets s d e) ->
    source t s d y -> source t s x y.

Definition tracks (t : dict sym) (g : env) : Prop := forall x, dget g x <> None <-> dget t x <> None.

(** No lambda. *)
Fixpoint no_lambda (e : expr) : Prop :=
  match e with
  | EName _ | EConst _ => True
  | EOp _ a b | EAnd a b => no_lambda a /\ no_lambda b
  | EIf c a b => no_lambda c /\ no_lambda a /\ no_lambda b
  | ENamed _ e => no_lambda e
  | ELambda _ _ _ => False
  end.

Definition heads_ok (s : stmt) : Prop :=
  match s with
  | SClass _ _ bases kws dec => no_lambda bases /\ no_lambda dec /\ forall x, ~ mentions kws x
  | SDef _ _ ds dec => no_lambda ds /\ no_lambda dec
  | SExpr e | SIf e _ _ | SAssign _ e | SAug _ _ e | SAnn _ _ (Some e) | SFor _ e _ | SWith e _ _ =>
    no_lambda e
  | _ => True
  end.

(** The names of [:=] and the target, in order. *)
Fixpoint targets (e : expr) : list nat :=
  match e with
  | EName _ | EConst _ => []
  | EOp _ a b | EAnd a b => targets a ++ targets b
  | EIf c a b => targets c ++ targets a ++ targets b
  | ENamed y e => y :: targets e
  | ELambda _ ds _ => targets ds
  end.

Definition stmt_targets (s : stmt) : list nat :=
  match s with
  | SSkip | SSeq _ _ => []
  | SExpr e | SIf e _ _ | SWhile e _ => targets e
  | SAssign xs e => xs ++ targets e
  | SAug y _ e | SAnn y _ (Some e) | SFor y e _ => y :: targets e
  | SAnn _ _ None => []
  | SWith e (Some y) _ => y :: targets e
  | SWith e None _ => targets e
  | SDef y _ ds dec => y :: targets ds ++ targets dec
  | SClass y _ bases kws dec => y :: targets bases ++ targets kws ++ targets dec
  | SImport y _ => [y]
  end.

(** No name is set twice; and where an expression that sets a name mentions a name that the statement
    itself sets, then that name has a symbol already or is set within the expression. *)
Definition tidy (t : dict sym) (s : stmt) : Prop :=
  NoDup (stmt_targets s)
  /\ forall x d y e, sets s x d -> mentions d y -> sets s y e ->
       dget t y <> None \/ sets_in d y e.
