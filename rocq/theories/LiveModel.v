(** Model of the static analysis of a cell: [ComputeLiveSymbolRefs],
    core/ipyflow/analysis/live_refs.py:54-467, with the references it collects,
    core/ipyflow/analysis/symbol_ref.py. *)
Require Import String List Bool Arith.
Import ListNotations.
Require Import Verif.Base.
Local Open Scope string_scope.
Local Open Scope list_scope.

(** ** The syntax that is analysed

    The classes of [ast] that the visitor tells apart, and those it does not, gathered. *)

(** Literals; a number stands for any literal that is not a string. *)
Inductive const := CStr (s : string) | CNum (n : nat).

(** [EConst]: also names of builtins that are not rebound.
    [ECall]: the values of keyword arguments come after the positional ones.
    [EList]: list, set and tuple displays. [EStr]: an f-string with its parts.
    [EOp]: an expression of a class without a method of its own whose parts are all evaluated, in
    the order of the fields: unary operators, simple comparisons, slices, [await], [yield].
    [ECond]: one of which some parts may be skipped: [and], [or], conditional expressions, chained
    comparisons. [EComp]: comprehensions. [ELambda]: with the default values; the body is not
    visited and left out. *)
Inductive expr :=
| EConst (c : const)
| EName (x : string)
| EAttr (e : expr) (a : string)
| ESub (e s : expr)
| ECall (f : expr) (args : list expr)
| EBin (l r : expr)
| EList (es : list expr)
| EDict (ks vs : list expr)
| EStr (es : list expr)
| EOp (es : list expr)
| ECond (es : list expr)
| EStar (e : expr)
| ENamed (x : string) (e : expr)
| EComp (elts : list expr) (gens : list gen)
| ELambda (defaults : list expr)
with gen := Gen (target iter : expr) (ifs : list expr).

(** [SExpr]: an expression or [assert] statement. [SWith]: the flag says whether the context
    manager suppresses exceptions, which the visitor does not know. [Fn]: [params] are all names
    in the parameter list but the keyword-only ones. *)
Inductive stmt :=
| SPass
| SBreak
| SContinue
| SExpr (e : expr)
| SReturn (es : list expr)
| SRaise (es : list expr)
| SAssign (ts : list expr) (e : expr)
| SAnn (t ann : expr) (e : option expr)
| SAug (t e : expr)
| SImport (xs : list string)
| SDelete (ts : list expr)
| SFunc (fn : fndef)
| SClass (name : string) (bases keywords decos : list expr) (body : list stmt)
| SIf (test : expr) (body orelse : list stmt)
| SWhile (test : expr) (body orelse : list stmt)
| SFor (target iter : expr) (body orelse : list stmt)
| SWith (suppress : bool) (items : list (expr * option expr)) (body : list stmt)
| STry (body : list stmt) (handlers : list handler) (orelse final : list stmt)
with handler := Handler (type : option expr) (name : option string) (body : list stmt)
with fndef := Fn (name : string) (params kwonly : list string)
                 (defaults kwdefaults anns decos : list expr) (body : list stmt).

Definition fn_name (f : fndef) : string := let 'Fn x _ _ _ _ _ _ _ := f in x.
Definition fn_params (f : fndef) : list string := let 'Fn _ p _ _ _ _ _ _ := f in p.
Definition fn_kwonly (f : fndef) : list string := let 'Fn _ _ k _ _ _ _ _ := f in k.
Definition fn_body (f : fndef) : list stmt := let 'Fn _ _ _ _ _ _ _ b := f in b.

(** ** References *)

(** [Atom], symbol_ref.py:87-160. The flags of reactive and blocking references are left out:
    no name is marked with [$]. *)
Record atom := mkAtom { a_val : const; a_call : bool; a_sub : bool }.
Definition chain := list atom.

Definition const_eqb (c d : const) : bool :=
  match c, d with
  | CStr s, CStr t => String.eqb s t
  | CNum n, CNum m => Nat.eqb n m
  | _, _ => false
  end.
Definition atom_eqb (a b : atom) : bool :=
  (const_eqb (a_val a) (a_val b) && Bool.eqb (a_call a) (a_call b)
   && Bool.eqb (a_sub a) (a_sub b))%bool.

(** [SymbolRef.__eq__], symbol_ref.py:393-413, where one side has neither a range nor a scope, as
    is the case in every test of the visitor. *)
Fixpoint chain_eqb (c d : chain) : bool :=
  match c, d with
  | [], [] => true
  | a :: c, b :: d => (atom_eqb a b && chain_eqb c d)%bool
  | _, _ => false
  end.
Definition cmem (c : chain) (l : list chain) : bool := existsb (chain_eqb c) l.
Definition cdiff (l m : list chain) : list chain := filter (fun c => negb (cmem c m)) l.

Definition nm (x : string) : atom := mkAtom (CStr x) false false.

(** [resolve_slice_to_constant], symbol_ref.py:32-84, with [visit_Subscript] 256-277 for the
    scope [None] that cells are checked with. Negative and tuple indices are left out. *)
Definition slice_atom (call : bool) (s : expr) : list atom :=
  match s with EConst c => [mkAtom c call true] | _ => [] end.

(** [SymbolRefVisitor], symbol_ref.py:163-319: the atoms in the order in which they are found, the
    last one first; [None]: the [ValueError] for a literal in the chain. *)
Fixpoint rev_chain (e : expr) : option (list atom) :=
  match e with
  | EName x => Some [nm x]
  | EAttr b a => option_map (cons (nm a)) (rev_chain b)
  | ESub b s => option_map (app (slice_atom false s)) (rev_chain b)
  | ECall f _ =>
      match f with
      | EAttr b a => option_map (cons (mkAtom (CStr a) true false)) (rev_chain b)
      | ESub b s => option_map (app (slice_atom true s)) (rev_chain b)
      | EName x => Some [mkAtom (CStr x) true false]
      | _ => Some []
      end
  | EConst _ | EList _ | EDict _ _ | EStr _ => None
  | _ => Some []
  end.
Definition chain_of (e : expr) : chain :=
  match rev_chain e with Some l => rev l | None => [] end.

(** [_chain_root], live_refs.py:42-50, and the test that it is a [BinOp]. *)
Fixpoint bin_root (e : expr) : bool :=
  match e with
  | EAttr b _ => bin_root b
  | ESub b _ => bin_root b
  | ECall f _ => bin_root f
  | EBin _ _ => true
  | _ => false
  end.

(** The names of quasiquotes, live_refs.py:398-407. *)
Definition quoted (e : expr) : bool :=
  match e with
  | EName x => existsb (String.eqb x)
      ["f"; "q"; "ast_literal"; "filter"; "ifilter"; "map"; "imap"; "reduce"]
  | _ => false
  end.

(** ** The visitor *)

(** The attributes that are collected, live_refs.py:57-81. Sets are lists. Of a
    [LiveSymbolRef] only the chain is kept: not the range, the number of the statement, or the
    flag for left-hand sides. [_include_killed_live] is false. *)
Record vst := mkV {
  live : list chain;
  dead : list chain;
  modified : list chain;
  funs : list (string * fndef)
}.
Definition with_live (st : vst) l := mkV l (dead st) (modified st) (funs st).
Definition with_dead (st : vst) d := mkV (live st) d (modified st) (funs st).
Definition with_modified (st : vst) m := mkV (live st) (dead st) m (funs st).
Definition with_funs (st : vst) f := mkV (live st) (dead st) (modified st) f.
Definition kill (st : vst) (c : chain) : vst := with_dead st (c :: dead st).
Definition enliven (st : vst) (c : chain) : vst := with_live st (c :: live st).

Fixpoint fget (l : list (string * fndef)) (x : string) : option fndef :=
  match l with
  | [] => None
  | (y, f) :: l => if String.eqb x y then Some f else fget l x
  end.

(** [_add_attrsub_to_live_if_eligible], live_refs.py:119-144. *)
Definition add_attrsub (st : vst) (c : chain) : vst :=
  if cmem c (dead st) then st
  else match c with
       | [] => st
       | a :: _ =>
           match a_val a with
           | CStr x =>
               if (cmem [a] (dead st) || cmem [nm x] (dead st))%bool then st else enliven st c
           | CNum _ => st
           end
       end.

(** [visit_Name], live_refs.py:281-298. *)
Definition visit_name (k att : bool) (st : vst) (x : string) : vst :=
  if k then kill st [nm x]
  else if att then st
  else if cmem [nm x] (dead st) then st else enliven st [nm x].

Definition fold_opt {A} (f : vst -> A -> res vst) (st : vst) (o : option A) : res vst :=
  match o with Some a => f st a | None => Ok st end.

(** Chains of the elements of a list or tuple display that is assigned to a name,
    live_refs.py:166-176. *)
Definition elt_chains (ts : list expr) (value : option expr) : list chain :=
  match ts, value with
  | [EName x], Some (EList es) =>
      map (fun i => [nm x; mkAtom (CNum i) false true]) (seq 0 (List.length es))
  | _, _ => []
  end.

Definition gen_target (g : gen) : expr := let 'Gen t _ _ := g in t.
Definition gen_iter (g : gen) : expr := let 'Gen _ i _ := g in i.
Definition gen_ifs (g : gen) : list expr := let 'Gen _ _ i := g in i.

(** [visit], with the fuel as the depth of the recursion that is left. [k] is
    [_in_kill_context]; [att] is [_inside_attrsub] and [_skip_simple_names], which are always set
    together. *)
Fixpoint vexpr (n : nat) (k att : bool) (st : vst) (e : expr) {struct n} : res vst :=
  match n with
  | 0 => Err OutOfFuel
  | S n =>
      match e with
      | EConst _ => Ok st
      | EName x => Ok (visit_name k att st x)
      (* visit_Attribute 386-390 *)
      | EAttr b _ =>
          vexpr n k true (if (att || bin_root e)%bool then st else add_attrsub st (chain_of e)) b
      (* visit_Subscript 397-416 *)
      | ESub b s =>
          if quoted b then Ok st
          else
            rbind (vexpr n k true
                     (if (att || bin_root e)%bool then st else add_attrsub st (chain_of e)) b)
              (fun st => vexpr n k false st s)
      (* visit_Call 347-384 *)
      | ECall f args =>
          rbind (rfold (vexpr n k false) args st) (fun st =>
          rbind (vexpr n k true
                   (if (att || bin_root e)%bool then st else add_attrsub st (chain_of e)) f)
            (fun st =>
          match f with
          | EName g =>
              match fget (funs st) g with
              | None => Ok st
              | Some fn =>
                  (* the names of the keyword-only parameters are taken from [kw_defaults],
                     which has an entry for each, without an attribute [arg] *)
                  match fn_kwonly fn with
                  | _ :: _ => Err AttributeError
                  | [] =>
                      rbind (rfold (vstmt n k att) (fn_body fn)
                               (mkV [] (map (fun p => [nm p]) (fn_params fn)) [] (funs st)))
                        (fun st' => Ok (with_live st (live st ++ live st')))
                  end
              end
          | _ => Ok st
          end))
      (* visit_BinOp 392-395 *)
      | EBin l r => rbind (vexpr n k false st l) (fun st => vexpr n k false st r)
      (* visit_container_literal 300-305, visit_Dict 307-311 *)
      | EList es => rfold (vexpr n k false) es st
      | EDict ks vs =>
          rbind (rfold (vexpr n k false) ks st) (fun st => rfold (vexpr n k false) vs st)
      (* generic_visit *)
      | EStr es | EOp es | ECond es => rfold (vexpr n k att) es st
      | EStar e => vexpr n k att st e
      (* visit_NamedExpr 221-224 *)
      | ENamed x e => vassign n k att st [EName x] (Some e) None
      (* generic_visit_comprehension 420-433, killed_context 100-111 *)
      | EComp elts gens =>
          rbind (rfold (vexpr n true att) (map gen_target gens) (with_dead st [])) (fun s1 =>
          let new := dead s1 in
          rbind (rfold (vexpr n k att) elts (with_dead s1 (dead st ++ new))) (fun s2 =>
          rbind (rfold (fun s g => rbind (vexpr n k att s (gen_iter g)) (fun s =>
                                     rfold (vexpr n k att) (gen_ifs g) s)) gens s2) (fun s3 =>
          Ok (with_dead s3 (cdiff (dead s3) (cdiff new (dead st)))))))
      (* visit_Lambda 439-441, visit_arguments mixins.py:8-12 *)
      | ELambda ds => rfold (vexpr n true att) ds st
      end
  end

(** [visit_Assign_impl], live_refs.py:148-219. The special case of [any_order] (183-207) is left
    out. *)
with vassign (n : nat) (k att : bool) (st : vst) (ts : list expr) (value aug : option expr)
    {struct n} : res vst :=
  match n with
  | 0 => Err OutOfFuel
  | S n =>
      rbind (fold_opt (fun st t => rmap (fun st => with_modified st (modified st ++ live st))
                                     (vexpr n k att st t)) (with_live st []) aug) (fun s1 =>
      rbind (fold_opt (vexpr n k att) s1 value) (fun s2 =>
      rbind (rfold (fun s t => match t with
                               | EAttr b _ | ESub b _ => vexpr n k att s b
                               | _ => Ok s
                               end) ts s2) (fun s3 =>
      let this_live := live s3 in
      let before := dead s3 in
      rbind (rfold (vtarget n att) ts (with_live s3 (live st))) (fun s4 =>
      let this_dead := cdiff (cdiff (elt_chains ts value ++ dead s4) before) this_live in
      Ok (mkV (live s4 ++ this_live) (before ++ this_dead) (modified s4) (funs s4))))))
  end

(** [visit_Assign_target], live_refs.py:246-263. *)
with vtarget (n : nat) (att : bool) (st : vst) (t : expr) {struct n} : res vst :=
  match n with
  | 0 => Err OutOfFuel
  | S n =>
      match t with
      | EName _ | EAttr _ _ => Ok (kill st (chain_of t))
      | ESub _ s => vexpr n false att (kill st (chain_of t)) s
      | EList es => rfold (vtarget n att) es st
      | EStar e => vtarget n att st e
      | _ => Ok st
      end
  end

with vstmt (n : nat) (k att : bool) (st : vst) (s : stmt) {struct n} : res vst :=
  match n with
  | 0 => Err OutOfFuel
  | S n =>
      match s with
      | SPass | SBreak | SContinue => Ok st
      | SExpr e => vexpr n k att st e
      | SReturn es | SRaise es => rfold (vexpr n k att) es st
      (* 226-233 *)
      | SAssign ts e => vassign n k att st ts (Some e) None
      | SAnn t _ e => vassign n k att st [t] e None
      | SAug t e => vassign n k att st [] (Some e) (Some t)
      (* visit_import 235-244 *)
      | SImport xs => vassign n k att st (map EName xs) None None
      (* visit_Delete 418-419 *)
      | SDelete _ => Ok st
      (* generic_visit_function_def 265-273 *)
      | SFunc (Fn name params kwonly defaults kwdefaults anns decos body) =>
          rbind (rfold (vexpr n k att) defaults st) (fun st =>
          rbind (rfold (vexpr n k att) decos st) (fun st =>
          Ok (with_funs (kill st [nm name])
                ((name, Fn name params kwonly defaults kwdefaults anns decos body) :: funs st))))
      (* visit_ClassDef 342-345 *)
      | SClass name bases _ decos _ =>
          rbind (rfold (vexpr n k att) bases st) (fun st =>
          rbind (rfold (vexpr n k att) decos st) (fun st => Ok (kill st [nm name])))
      (* generic_visit_branch_or_loop 313-340 *)
      | SIf test body orelse | SWhile test body orelse =>
          rbind (vexpr n k att st test) (fun st => vbranch n k att st None body orelse)
      | SFor target iter body orelse =>
          rbind (vexpr n k att st iter) (fun st => vbranch n k att st (Some target) body orelse)
      (* visit_withitem 275-279 *)
      | SWith _ items body =>
          rbind (rfold (fun s i => rbind (vexpr n k att s (fst i)) (fun s =>
                                     fold_opt (vexpr n true att) s (snd i))) items st) (fun st =>
          rfold (vstmt n k att) body st)
      (* generic_visit of [Try] and [ExceptHandler] *)
      | STry body handlers orelse final =>
          rbind (rfold (vstmt n k att) body st) (fun st =>
          rbind (rfold (fun s h => let 'Handler t _ b := h in
                          rbind (fold_opt (vexpr n k att) s t) (fun s =>
                            rfold (vstmt n k att) b s)) handlers st) (fun st =>
          rbind (rfold (vstmt n k att) orelse st) (fun st =>
          rfold (vstmt n k att) final st)))
      end
  end

(** live_refs.py:320-340: from the target of a loop on. *)
with vbranch (n : nat) (k att : bool) (st : vst) (target : option expr) (body orelse : list stmt)
    {struct n} : res vst :=
  match n with
  | 0 => Err OutOfFuel
  | S n =>
      rbind (fold_opt (vexpr n true att) (with_dead st []) target) (fun s1 =>
      rbind (rfold (vstmt n k att) body (with_live s1 [])) (fun s2 =>
      rbind (rfold (vstmt n k att) orelse (with_dead (with_live s2 []) [])) (fun s3 =>
      let new_live := cdiff (live s2 ++ live s3) (dead st) in
      Ok (mkV (live s1 ++ new_live)
              (dead st ++ filter (fun c => cmem c (dead s3)) (dead s2))
              (modified s3 ++ dead s2 ++ dead s3) (funs s3)))))
  end.

(** [__call__], live_refs.py:83-95, with [visit_Module] 456-460: from the state of
    [__init__]. *)
Definition analyze (n : nat) (prog : list stmt) : res vst :=
  rmap (fun st => with_modified st (modified st ++ dead st))
    (rfold (vstmt n false false) prog (mkV [] [] [] [])).
