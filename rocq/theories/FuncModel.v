(** Model of making a function of a slice: [Slice.to_function],
    core/ipyflow/slicing/mixin.py:165-196, and of calling it. *)
Require Import String List Bool Arith.
Import ListNotations.
Require Import Verif.Base Verif.LiveModel Verif.LiveSpec.
Local Open Scope string_scope.
Local Open Scope list_scope.

(** ** The text of a slice

    [str(self)], mixin.py:78-83, at the level of what [splitlines] and [ast.parse] make of it.
    [Line]: one line with statements, separated by semicolons. [Note]: a comment, as the headers
    of cells. [Multi]: a statement on more than one line, with the statement that its last line is
    if it is parsed on its own; [None]: a syntax error, as for an indented line. Simplified: a text
    that contains a string of several lines, which indenting would change, is left out. *)
Inductive block := Line (ss : list stmt) | Note | Multi (s : stmt) (tail : option stmt).

Definition block_stmts (b : block) : list stmt :=
  match b with Line ss => ss | Note => [] | Multi s _ => [s] end.
Definition stmts_of (text : list block) : list stmt := flat_map block_stmts text.

Inductive fault := SyntaxFault | IndexFault | AnalysisFault (e : err).

Definition is_expr (s : stmt) : bool := match s with SExpr _ => true | _ => false end.

(** What the text ['return ' + line] is, parsed. *)
Definition put_return (ss : list stmt) : fault + list stmt :=
  match ss with
  | SExpr e :: ss => inr (SReturn [e] :: ss)
  | _ => inl SyntaxFault
  end.

(** mixin.py:168-173, for the last line. A [return] in the middle of a statement is no syntax. *)
Definition last_line (b : block) : fault + list stmt :=
  match b with
  | Line ss =>
      match rev ss with
      | [] => inl IndexFault
      | s :: _ => if is_expr s then put_return ss else inr ss
      end
  | Note => inl IndexFault
  | Multi s None => inr [s]
  | Multi s (Some t) => if is_expr t then inl SyntaxFault else inr [s]
  end.

(** mixin.py:167-174; [code_lines[-1]] of an empty text. *)
Definition with_return (text : list block) : fault + list stmt :=
  match rev text with
  | [] => inl IndexFault
  | b :: before =>
      match last_line b with
      | inl x => inl x
      | inr ss => inr (stmts_of (rev before) ++ ss)
      end
  end.

(** mixin.py:177-178: the first names of the live references. *)
Definition first_name (c : chain) : list string :=
  match c with
  | a :: _ => match a_val a with CStr x => [x] | CNum _ => [] end
  | [] => []
  end.

Record func := mkF { params : list string; body : list stmt }.

(** mixin.py:165-196. [excluded x]: [x] is the name of a builtin or of a loaded module (179-181).
    [order]: the order in which a set is listed (182). The lines that are put before the text
    (183-189) are part of [call]. [n]: the depth of the analysis. *)
Definition to_function (n : nat) (excluded : string -> bool) (order : list string -> list string)
    (text : list block) : fault + func :=
  match with_return text with
  | inl x => inl x
  | inr prog =>
      match analyze n prog with
      | Err e => inl (AnalysisFault e)
      | Ok st =>
          let arg_set := nodup string_dec (flat_map first_name (live st)) in
          inr (mkF (order (filter (fun x => negb (excluded x)) arg_set)) prog)
      end
  end.

(** ** Running statements

    What Python does, for variables that hold values without state. [VMod]: a module. *)
Inductive val := VNone | VNum (n : nat) | VStr (s : string) | VMod (s : string).

Inductive exn := NameError (x : string) | UnboundLocalError (x : string) | KeyError (x : string)
  | TypeError | OpError | Diverges.

Definition env := string -> option val.
Definition upd (m : env) (x : string) (v : val) : env :=
  fun y => if String.eqb y x then Some v else m y.

(** What operators do; they may raise. *)
Record ops := mkOps { op_bin : val -> val -> option val; op_list : list val -> option val;
                      op_other : list val -> option val; truth : val -> bool }.

Record state := mkS { loc : env; glob : env }.

Definition is_local (names : list string) (x : string) : bool := existsb (String.eqb x) names.

(** [names]: the local names of the function that runs; none at the top of a cell. [bi]: the
    builtins. *)
Definition lookup (bi : env) (names : list string) (st : state) (x : string) : exn + val :=
  if is_local names x then
    match loc st x with Some v => inr v | None => inl (UnboundLocalError x) end
  else match glob st x with
       | Some v => inr v
       | None => match bi x with Some v => inr v | None => inl (NameError x) end
       end.
Definition assign (names : list string) (st : state) (x : string) (v : val) : state :=
  if is_local names x then mkS (upd (loc st) x v) (glob st) else mkS (loc st) (upd (glob st) x v).

Definition const_val (c : const) : val := match c with CStr s => VStr s | CNum n => VNum n end.
Definition of_op (o : option val) : exn + val := match o with Some v => inr v | None => inl OpError end.

(** [ECond] is read as [or]. Expressions of other classes are left out. *)
Fixpoint eval (o : ops) (bi : env) (names : list string) (st : state) (e : expr) : exn + val :=
  let evals := fix evals es :=
    match es with
    | [] => inr []
    | e :: es =>
        match eval o bi names st e with
        | inl x => inl x
        | inr v => match evals es with inl x => inl x | inr vs => inr (v :: vs) end
        end
    end in
  match e with
  | EConst c => inr (const_val c)
  | EName x => lookup bi names st x
  | EBin l r =>
      match eval o bi names st l with
      | inl x => inl x
      | inr a => match eval o bi names st r with
                 | inl x => inl x
                 | inr b => of_op (op_bin o a b)
                 end
      end
  | EList es => match evals es with inl x => inl x | inr vs => of_op (op_list o vs) end
  | EOp es => match evals es with inl x => inl x | inr vs => of_op (op_other o vs) end
  | ECond es =>
      (fix any es :=
         match es with
         | [] => inr VNone
         | e :: es =>
             match eval o bi names st e with
             | inl x => inl x
             | inr v => match es with
                        | [] => inr v
                        | _ => if truth o v then inr v else any es
                        end
             end
         end) es
  | _ => inl TypeError
  end.

Inductive out := ONormal | OReturn (v : val) | ORaise (x : exn).

(** The statements of a block. *)
Definition block_run (run : stmt -> state -> out * state) : list stmt -> state -> out * state :=
  fix go ss st :=
    match ss with
    | [] => (ONormal, st)
    | s :: ss =>
        match run s st with
        | (ONormal, st') => go ss st'
        | r => r
        end
    end.

(** The rounds of a loop; [k]: how many there may be. *)
Fixpoint loop_run (test : state -> exn + bool) (run : state -> out * state) (k : nat) (st : state)
    : out * state :=
  match k with
  | 0 => (ORaise Diverges, st)
  | S k =>
      match test st with
      | inl x => (ORaise x, st)
      | inr false => (ONormal, st)
      | inr true =>
          match run st with
          | (ONormal, st') => loop_run test run k st'
          | r => r
          end
      end
  end.

Definition target_name (t : expr) : string := match t with EName x => x | _ => "" end.

(** [k]: the number of rounds that a loop may take. Statements of other classes are left out. *)
Fixpoint exec (k : nat) (o : ops) (bi : env) (names : list string) (s : stmt) (st : state)
    : out * state :=
  match s with
  | SPass => (ONormal, st)
  | SExpr e =>
      match eval o bi names st e with
      | inl x => (ORaise x, st)
      | inr _ => (ONormal, st)
      end
  | SReturn [] => (OReturn VNone, st)
  | SReturn (e :: _) =>
      match eval o bi names st e with
      | inl x => (ORaise x, st)
      | inr v => (OReturn v, st)
      end
  | SAssign ts e =>
      match eval o bi names st e with
      | inl x => (ORaise x, st)
      | inr v => (ONormal, fold_left (fun st t => assign names st (target_name t) v) ts st)
      end
  | SAug t e =>
      match eval o bi names st (EBin t e) with
      | inl x => (ORaise x, st)
      | inr v => (ONormal, assign names st (target_name t) v)
      end
  | SIf e a b =>
      match eval o bi names st e with
      | inl x => (ORaise x, st)
      | inr v =>
          if truth o v then block_run (exec k o bi names) a st
          else block_run (exec k o bi names) b st
      end
  | SWhile e a b =>
      loop_run (fun st => match eval o bi names st e with
                          | inl x => inl x
                          | inr v => inr (truth o v)
                          end) (block_run (exec k o bi names) a) k st
  | _ => (ORaise TypeError, st)
  end.

(** ** Calling the function *)

Fixpoint assoc (l : list (string * val)) (x : string) : option val :=
  match l with
  | [] => None
  | (y, v) :: l => if String.eqb x y then Some v else assoc l x
  end.

(** The argument that is passed for a parameter. *)
Definition given (ps : list string) (pos : list val) (kw : list (string * val)) (x : string)
    : option val :=
  match assoc (combine ps pos) x with Some v => Some v | None => assoc kw x end.

(** Whether the arguments fit the parameters. *)
Definition accepts (ps : list string) (pos : list val) (kw : list (string * val)) : bool :=
  Nat.leb (List.length pos) (List.length ps) &&
  forallb (fun p => existsb (String.eqb (fst p)) ps &&
                    negb (existsb (String.eqb (fst p)) (firstn (List.length pos) ps))) kw.

Definition is_none (v : val) : bool := match v with VNone => true | _ => false end.

(** The lines that are put before the text, mixin.py:183-189. [C]: the globals of the code that
    calls the function: [f_back] of its frame is that of [new_func] of [make_tracing_disabled_func]
    (tracing/ipyflow_tracer.py:261-277), the next one is that of its caller. *)
Fixpoint fill (C : env) (ps : list string) (l : env) : exn + env :=
  match ps with
  | [] => inr l
  | p :: ps =>
      match l p with
      | Some v =>
          if is_none v then
            match C p with
            | Some v' => fill C ps (upd l p v')
            | None => inl (KeyError p)
            end
          else fill C ps l
      | None => inl (UnboundLocalError p)
      end
  end.

(** A call: [def name(arg=None, ...)], mixin.py:191-196. The names that the function assigns to are
    local. [G]: the globals of the function, [shell().user_ns]. Simplified: that tracing is off
    while it runs is not seen here. *)
Definition call (k : nat) (o : ops) (bi : env) (f : func) (pos : list val) (kw : list (string * val))
    (G C : env) : (exn + val) * env :=
  if accepts (params f) pos kw then
    let l0 x := if existsb (String.eqb x) (params f) then
                  match given (params f) pos kw x with Some v => Some v | None => Some VNone end
                else None in
    match fill C (params f) (upd l0 "sys" (VMod "sys")) with
    | inl x => (inl x, G)
    | inr l =>
        let names := params f ++ "sys" :: flat_map sbinds (body f) in
        match block_run (exec k o bi names) (body f) (mkS l G) with
        | (ONormal, st) => (inr VNone, glob st)
        | (OReturn v, st) => (inr v, glob st)
        | (ORaise x, st) => (inl x, glob st)
        end
    end
  else (inl TypeError, G).
